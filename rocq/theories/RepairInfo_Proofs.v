(** What the collector knows of a block is true of the tree stored there. *)
From Verif Require Import Base Csum_Model Codec_Model Pack_Proofs Repair_Model Repair_Spec RepairOrd_Proofs IoMany_Proofs BtreeBuild_Proofs BtreeRead_Proofs.

Record map_sum (i : map_info) (kvs : list (N * block_time)) : Prop := {
  ms_nr : mi_nr_mappings i = nlen kvs mod 2 ^ 64;
  ms_age : greatest (map (fun kv => bt_time (snd kv)) kvs) (mi_age i);
  ms_high : greatest (map (fun kv => bt_block (snd kv)) kvs) (mi_highest i);
  ms_tc : counts_times (mi_tc i) (map (fun kv => bt_time (snd kv)) kvs);
  ms_keys : within (mi_low i) (mi_high i) (map fst kvs) }.
Record dev_sum (i : dev_info) (devs : list (N * list (N * block_time))) : Prop := {
  ds_nr_devices : di_nr_devices i = nlen devs mod 2 ^ 64;
  ds_nr : di_nr_mappings i = nlen (all_mappings devs) mod 2 ^ 64;
  ds_age : greatest (map bt_time (all_mappings devs)) (di_age i);
  ds_high : greatest (map bt_block (all_mappings devs)) (di_highest i);
  ds_tc : counts_times (di_tc i) (map bt_time (all_mappings devs));
  ds_keys : within (di_low i) (di_high i) (map fst devs) }.
Definition total_mapped (l : list (N * device_detail)) : N := fold_right N.add 0 (map (fun kd => dd_mapped (snd kd)) l).
Definition detail_times (l : list (N * device_detail)) : list N := flat_map (fun kd => [dd_ctime (snd kd); dd_stime (snd kd)]) l.
Record det_sum (i : det_info) (kvs : list (N * device_detail)) : Prop := {
  ts_nr_devices : ti_nr_devices i = nlen kvs mod 2 ^ 64;
  ts_nr : ti_nr_mappings i = total_mapped kvs mod 2 ^ 64;
  ts_tid : greatest (map (fun kd => dd_tid (snd kd)) kvs) (ti_max_tid i);
  ts_age : greatest (detail_times kvs) (ti_age i);
  ts_keys : within (ti_low i) (ti_high i) (map fst kvs) }.

(** ** Arithmetic and lists *)
Lemma greatest_nil : greatest [] 0.
Proof. split; [intros y []|right; auto]. Qed.
Lemma greatest_app a b x y : greatest a x -> greatest b y -> greatest (a ++ b) (N.max x y).
Proof.
  intros [A1 A2] [B1 B2]. split.
  - intros z Hz. apply in_app_iff in Hz. destruct Hz as [Hz|Hz]; [apply A1 in Hz|apply B1 in Hz]; lia.
  - destruct (N.max_spec x y) as [[H ->]|[H ->]].
    + destruct B2 as [B2|[-> ->]]; [left; apply in_app_iff; auto|lia].
    + destruct A2 as [A2|[-> ->]]; [left; apply in_app_iff; auto|]. assert (y = 0) by lia. subst y.
      destruct B2 as [B2|[-> _]]; [left; auto|right; auto].
Qed.
Lemma greatest_one x : greatest [x] x.
Proof. split; [intros y [->|[]]; lia|left; left; auto]. Qed.
Lemma add64_mod a b x y : x = a mod 2 ^ 64 -> y = b mod 2 ^ 64 -> add64 x y = (a + b) mod 2 ^ 64.
Proof. intros -> ->. unfold add64. change W64 with (2 ^ 64). rewrite <- N.add_mod by discriminate. auto. Qed.
Lemma nlen_app {A} (a b : list A) : nlen (a ++ b) = nlen a + nlen b.
Proof. unfold nlen. rewrite app_length. lia. Qed.
Lemma within_app l1 h1 a l2 h2 b : within l1 h1 a -> within l2 h2 b -> h1 < l2 -> within l1 h2 (a ++ b).
Proof.
  intros (A1 & A2 & A3) (B1 & B2 & B3) H. unfold within. conj; [|lia|].
  - apply increasing_app. conj; auto. intros x y Hx Hy. apply A3 in Hx. apply B3 in Hy. lia.
  - intros k Hk. apply in_app_iff in Hk. destruct Hk as [Hk|Hk]; [apply A3 in Hk|apply B3 in Hk]; lia.
Qed.
Lemma within_leaf ks : increasing ks -> within (low_key ks) (high_key ks) ks.
Proof.
  intros H. unfold within, low_key, high_key.
  assert (A : forall ks, increasing ks -> forall k, In k ks -> k <= last ks 0).
  { induction ks0 as [|a l IH]; intros Hi k Hk; [destruct Hk|]. destruct l as [|b l]; [destruct Hk as [->|[]]; cbn; lia|].
    change (last (a :: b :: l) 0) with (last (b :: l) 0). destruct Hk as [->|Hk]; [|apply IH; [exact (proj2 Hi)|auto]].
    pose proof (increasing_head_lt _ _ b Hi (or_introl eq_refl)). pose proof (IH (proj2 Hi) b (or_introl eq_refl)). lia. }
  assert (B : forall k, In k ks -> hd 0 ks <= k).
  { destruct ks as [|a l]; [intros k []|]. intros k [->|Hk]; cbn [hd]; [lia|]. apply (increasing_head_lt _ _ _ H) in Hk. lia. }
  conj; [auto| |intros k Hk; split; auto]. destruct ks as [|a l]; [cbn; lia|]. apply (A (a :: l) H). left; auto.
Qed.

(** ** Pushing a child *)
Definition map_acc i kvs := map_sum i kvs /\ (mi_pushed i = false -> kvs = []).
Lemma map_new_acc b : map_acc (map_new b) [].
Proof.
  split; [|auto]. constructor; cbn; auto using greatest_nil, counts_nil. unfold within. conj; [exact I|lia|intros k []].
Qed.
Lemma map_push_acc i kvs c kvc i' : map_acc i kvs -> map_sum c kvc -> map_push i c = Ok i' -> map_acc i' (kvs ++ kvc).
Proof.
  intros [S0 P] C E. unfold map_push in E. destruct (mi_pushed i && _) eqn:Ep; [discriminate|]. okinj E.
  split; [|discriminate]. destruct S0, C. constructor; cbn [mi_nr_mappings mi_age mi_highest mi_tc mi_low mi_high]; rewrite ?map_app.
  - rewrite nlen_app. apply add64_mod; auto.
  - apply greatest_app; auto.
  - apply greatest_app; auto.
  - apply merge_counts; auto.
  - destruct (mi_pushed i) eqn:Ei; [|rewrite (P eq_refl); cbn [map app]; auto].
    cbn [andb] in Ep. apply N.leb_gt in Ep. eapply within_app; eauto.
Qed.
Lemma all_app a b : all_mappings (a ++ b) = all_mappings a ++ all_mappings b.
Proof. unfold all_mappings. apply flat_map_app. Qed.
Definition dev_acc i kvs := dev_sum i kvs /\ (di_pushed i = false -> kvs = []).
Lemma dev_new_acc b : dev_acc (dev_new b) [].
Proof.
  split; [|auto]. constructor; cbn; auto using greatest_nil, counts_nil. unfold within. conj; [exact I|lia|intros k []].
Qed.
Lemma dev_push_acc i kvs c kvc i' : dev_acc i kvs -> dev_sum c kvc -> dev_push i c = Ok i' -> dev_acc i' (kvs ++ kvc).
Proof.
  intros [S0 P] C E. unfold dev_push in E. destruct (di_pushed i && _) eqn:Ep; [discriminate|]. okinj E.
  split; [|discriminate]. destruct S0, C. constructor; cbn [di_nr_mappings di_nr_devices di_age di_highest di_tc di_low di_high];
    rewrite ?all_app, ?map_app.
  - rewrite nlen_app. apply add64_mod; auto.
  - rewrite nlen_app. apply add64_mod; auto.
  - apply greatest_app; auto.
  - apply greatest_app; auto.
  - apply merge_counts; auto.
  - destruct (di_pushed i) eqn:Ei; [|rewrite (P eq_refl); cbn [map app]; auto].
    cbn [andb] in Ep. apply N.leb_gt in Ep. eapply within_app; eauto.
Qed.
Lemma total_app a b : total_mapped (a ++ b) = total_mapped a + total_mapped b.
Proof.
  unfold total_mapped. rewrite map_app, fold_right_app. generalize (map (fun kd => dd_mapped (snd kd)) a).
  induction l as [|x l IH]; cbn [fold_right]; [lia|]. rewrite IH. lia.
Qed.
Definition det_acc i kvs := det_sum i kvs /\ (ti_pushed i = false -> kvs = []).
Lemma det_new_acc b : det_acc (det_new b) [].
Proof.
  split; [|auto]. constructor; cbn; auto using greatest_nil. unfold within. conj; [exact I|lia|intros k []].
Qed.
Lemma det_push_acc i kvs c kvc i' : det_acc i kvs -> det_sum c kvc -> det_push i c = Ok i' -> det_acc i' (kvs ++ kvc).
Proof.
  intros [S0 P] C E. unfold det_push in E. destruct (ti_pushed i && _) eqn:Ep; [discriminate|]. okinj E.
  split; [|discriminate]. destruct S0, C. constructor; cbn [ti_nr_mappings ti_nr_devices ti_age ti_max_tid ti_low ti_high];
    rewrite ?map_app.
  - rewrite nlen_app. apply add64_mod; auto.
  - rewrite total_app. apply add64_mod; auto.
  - apply greatest_app; auto.
  - unfold detail_times in *. rewrite flat_map_app. apply greatest_app; auto.
  - destruct (ti_pushed i) eqn:Ei; [|rewrite (P eq_refl); cbn [map app]; auto].
    cbn [andb] in Ep. apply N.leb_gt in Ep. eapply within_app; eauto.
Qed.

(** ** Leaves *)
Lemma mapping_leaf_gen vs : forall i done, greatest (map bt_time done) (mi_age i) -> greatest (map bt_block done) (mi_highest i) ->
  counts_times (mi_tc i) (map bt_time done) ->
  let i' := fold_left (fun i bt => mkmi (mi_b i) (mi_nr_mappings i) (mi_low i) (mi_high i)
                           (tc_add (bt_time bt) 1 (mi_tc i)) (N.max (mi_age i) (bt_time bt))
                           (N.max (bt_block bt) (mi_highest i)) (mi_pushed i)) vs i in
  mi_b i' = mi_b i /\ mi_nr_mappings i' = mi_nr_mappings i /\ mi_low i' = mi_low i /\ mi_high i' = mi_high i /\
  greatest (map bt_time (done ++ vs)) (mi_age i') /\ greatest (map bt_block (done ++ vs)) (mi_highest i') /\
  counts_times (mi_tc i') (map bt_time (done ++ vs)).
Proof.
  induction vs as [|v vs IH]; intros i done H1 H2 H3; cbn [fold_left]; [rewrite app_nil_r; auto 8|].
  replace (done ++ v :: vs) with ((done ++ [v]) ++ vs) by (rewrite <- app_assoc; auto).
  set (i1 := mkmi (mi_b i) _ _ _ _ _ _ _).
  apply (IH i1 (done ++ [v])); subst i1; cbn [mi_age mi_highest mi_tc]; rewrite map_app; cbn [map].
  - apply greatest_app; auto using greatest_one.
  - rewrite N.max_comm. apply greatest_app; auto using greatest_one.
  - apply counts_add; auto.
Qed.
Lemma snd_combine {A B C} (f : B -> C) (ks : list A) (vs : list B) : length ks = length vs ->
  map (fun kv => f (snd kv)) (combine ks vs) = map f vs.
Proof. revert vs. induction ks as [|k ks IH]; intros [|v vs] H; cbn in *; try discriminate; auto. f_equal. auto. Qed.
Lemma fst_combine {A B} (ks : list A) (vs : list B) : length ks = length vs -> map fst (combine ks vs) = ks.
Proof. revert vs. induction ks as [|k ks IH]; intros [|v vs] H; cbn in *; try discriminate; auto. f_equal. auto. Qed.
Lemma nlen_combine {A B} (ks : list A) (vs : list B) : length ks = length vs -> nlen (combine ks vs) = nlen ks.
Proof. intros H. unfold nlen. rewrite combine_length, H, Nat.min_id. auto. Qed.

Lemma nr_small {V} (c : codec V) data ig root h ks vs : (csize c <= 4096)%nat ->
  unpack_node_raw c data ig root = Ok (Leaf h ks vs) -> nlen ks <= 4096.
Proof.
  intros Hc H. destruct (raw_facts c data ig root _ H) as (_ & E & _). cbn [get_keys get_header] in E. rewrite E. clear E.
  unfold unpack_node_raw in H. inv_bind H. destruct a as [i h0]. clear E.
  destruct (nh_is_leaf h0 && _) eqn:E3; [discriminate|]. destruct (4096 <? _) eqn:E4; [discriminate|].
  destruct (nh_max_entries h0 <? _) eqn:E5; [discriminate|].
  repeat match type of H with (if ?x then Err else _) = _ => destruct x; [discriminate|] end.
  inv_bind H. destruct a as [ks0 i']. destruct (negb _) in H; [discriminate|]. inv_bind H. destruct a as [z i''].
  apply N.ltb_ge in E4. apply N.ltb_ge in E5.
  destruct (nh_is_leaf h0) eqn:El; inv_bind H; destruct a as [vs0 i3]; apply Ok_inj in H; [|discriminate].
  assert (h0 = h) by congruence. subst h0. clear H E E0 E1.
  cbn [andb] in E3. apply Bool.negb_false_iff, N.eqb_eq in E3. rewrite E3 in E4.
  rewrite N.mod_small in E4 by (change W32 with 4294967296; lia). unfold NODE_HEADER_SIZE in E4. nia.
Qed.

Section Leaves.
Context (data : list N).
Lemma mapping_leaf_sum h ks vs : unpack_node_raw bt_codec data true true = Ok (Leaf h ks vs) ->
  map_sum (mapping_leaf_info h ks vs) (combine ks vs) /\ mi_b (mapping_leaf_info h ks vs) = nh_block h.
Proof.
  intros H. destruct (raw_facts _ _ _ _ _ H) as (Hi & Hn & Hl). pose proof (nr_small _ _ _ _ _ _ _ (ltac:(cbn; lia) : (csize bt_codec <= 4096)%nat) H) as Hs.
  cbn [get_keys get_header] in *.
  destruct (mapping_leaf_gen vs (mkmi (nh_block h) (nh_nr_entries h) (low_key ks) (high_key ks) [] 0 0 false) [])
    as (A1 & A2 & A3 & A4 & A5 & A6 & A7); [apply greatest_nil|apply greatest_nil|apply counts_nil|].
  fold (mapping_leaf_info h ks vs) in *. cbn [app mi_b mi_nr_mappings mi_low mi_high] in *. split; [|auto].
  constructor; rewrite ?snd_combine, ?fst_combine by auto; auto.
  - rewrite A2, nlen_combine, Hn by auto. symmetry. apply N.mod_small. rewrite <- Hn. change (2 ^ 64) with 18446744073709551616. lia.
  - rewrite A3, A4. apply within_leaf. auto.
Qed.

Lemma details_leaf_gen vs : forall i done, greatest (map (fun kd => dd_tid (snd kd)) done) (ti_max_tid i) ->
  greatest (detail_times done) (ti_age i) -> ti_nr_mappings i = total_mapped done mod 2 ^ 64 ->
  forall ks, length ks = length vs ->
  let i' := fold_left (fun i dd => mkdet (ti_b i) (ti_nr_devices i) (add64 (ti_nr_mappings i) (dd_mapped dd)) (ti_low i) (ti_high i)
                           (N.max (ti_max_tid i) (dd_tid dd))
                           (N.max (N.max (ti_age i) (dd_ctime dd)) (dd_stime dd)) (ti_pushed i)) vs i in
  let all := done ++ combine ks vs in
  ti_b i' = ti_b i /\ ti_nr_devices i' = ti_nr_devices i /\ ti_low i' = ti_low i /\ ti_high i' = ti_high i /\
  greatest (map (fun kd => dd_tid (snd kd)) all) (ti_max_tid i') /\ greatest (detail_times all) (ti_age i') /\
  ti_nr_mappings i' = total_mapped all mod 2 ^ 64.
Proof.
  induction vs as [|v vs IH]; intros i done H1 H2 H3 [|k ks] Hl; try discriminate; cbn [fold_left combine].
  - cbv zeta. rewrite app_nil_r. auto 8.
  - cbv zeta. replace (done ++ (k, v) :: combine ks vs) with ((done ++ [(k, v)]) ++ combine ks vs) by (rewrite <- app_assoc; auto).
    set (i1 := mkdet (ti_b i) _ _ _ _ _ _ _).
    apply (IH i1 (done ++ [(k, v)])); subst i1; cbn [ti_age ti_max_tid ti_nr_mappings]; [| | |cbn [length] in Hl; lia].
    + rewrite map_app. apply greatest_app; auto. apply greatest_one.
    + unfold detail_times in *. rewrite flat_map_app. rewrite <- N.max_assoc. apply greatest_app; auto.
      cbn [flat_map app snd]. apply (greatest_app [dd_ctime v] [dd_stime v]); apply greatest_one.
    + rewrite total_app. unfold total_mapped at 2. cbn [map fold_right snd]. rewrite N.add_0_r. unfold add64. rewrite H3.
      change W64 with (2 ^ 64). rewrite N.add_mod_idemp_l by discriminate. auto.
Qed.
Lemma details_leaf_sum h ks vs : unpack_node_raw dd_codec data true true = Ok (Leaf h ks vs) ->
  det_sum (details_leaf_info h ks vs) (combine ks vs) /\ ti_b (details_leaf_info h ks vs) = nh_block h.
Proof.
  intros H. destruct (raw_facts _ _ _ _ _ H) as (Hi & Hn & Hl). pose proof (nr_small _ _ _ _ _ _ _ (ltac:(cbn; lia) : (csize dd_codec <= 4096)%nat) H) as Hs.
  cbn [get_keys get_header] in *.
  destruct (details_leaf_gen vs (mkdet (nh_block h) (nh_nr_entries h) 0 (low_key ks) (high_key ks) 0 0 false) []
    greatest_nil greatest_nil eq_refl ks Hl) as (A1 & A2 & A3 & A4 & A5 & A6 & A7).
  fold (details_leaf_info h ks vs) in *. cbn [app ti_b ti_nr_devices ti_low ti_high] in *. split; [|auto].
  constructor; auto.
  - rewrite A2, nlen_combine, Hn by auto. symmetry. apply N.mod_small. rewrite <- Hn. change (2 ^ 64) with 18446744073709551616. lia.
  - rewrite A3, A4, fst_combine by auto. apply within_leaf. auto.
Qed.
End Leaves.

(** ** The collector *)
Section Collect.
Context (nr : N) (eng : N -> option (list N)).

Definition true_info (b : N) (n : ninfo) : Prop :=
  b < nr /\
  match n with
  | NMap i => claims eng b (mi_b i) /\ exists kvs, stored bt_codec eng b kvs /\ map_sum i kvs
  | NDev i => claims eng b (di_b i) /\ exists devs, stored_devices eng b devs /\ dev_sum i devs
  | NDet i => claims eng b (ti_b i) /\ exists kvs, stored dd_codec eng b kvs /\ det_sum i kvs
  end.
Definition true_infos (s : col) : Prop := forall b i, k_infos s b = Some i -> true_info b i.

(** What the calls on the children give. *)
Definition sound (get : N -> col -> col * res ninfo) : Prop :=
  forall b s s' r, true_infos s -> get b s = (s', r) -> true_infos s' /\ forall i, r = Ok i -> true_info b i.

Ltac stop := match goal with E : (?a, _) = (?b, _) |- true_infos ?b /\ _ =>
  let H := fresh in assert (H : a = b) by congruence; rewrite <- H; split; [assumption|intros; congruence] end.
Section Children.
Context (get : N -> col -> col * res ninfo) (Hget : sound get).

Lemma push_children_sound {I A} (sel : ninfo -> option I) (push : I -> I -> res I) (acc sum : I -> A -> Prop) (app : A -> A -> A)
    (at_ : N -> A -> Prop) :
  (forall i a c x i', acc i a -> sum c x -> push i c = Ok i' -> acc i' (app a x)) ->
  (forall n c b, sel n = Some c -> true_info b n -> exists x, at_ b x /\ sum c x) ->
  forall bs i a s s' r, acc i a -> true_infos s -> push_children get sel push i bs s = (s', r) ->
  true_infos s' /\ forall i', r = Ok i' -> exists xs, Forall2 at_ bs xs /\ acc i' (fold_left app xs a) /\
    Forall (fun b => b < nr) bs.
Proof using Hget.
  intros Hp Hs. induction bs as [|b bs IH]; intros i a s s' r Ha Ht E; cbn [push_children] in E.
  - assert (s = s') by congruence. subst s'. split; [auto|]. intros i' Hi. assert (i' = i) by congruence. subst i'. exists []. auto.
  - destruct (get b s) as [s1 [n| |]] eqn:Eg; destruct (Hget b s s1 _ Ht Eg) as [T1 T2].
    + destruct (sel n) as [c|] eqn:Es; [|assert (s1 = s' /\ r = Err) as [<- ->] by (split; congruence); split; [auto|discriminate]].
      destruct (Hs n c b Es (T2 n eq_refl)) as (x & X1 & X2).
      destruct (push i c) as [i1| |] eqn:Ep.
      2,3: assert (s1 = s' /\ r <> Ok i) as [<- Hr] by (split; congruence); split; [auto|intros; congruence].
      destruct (IH i1 (app a x) s1 s' r (Hp _ _ _ _ _ Ha X2 Ep) T1 E) as [I1 I2]. split; [auto|].
      intros i' Hi. destruct (I2 i' Hi) as (xs & F & G & K). exists (x :: xs). conj; [constructor; auto|auto|].
      constructor; [|auto]. destruct (T2 n eq_refl). auto.
    + assert (s1 = s' /\ r = Err) as [<- ->] by (split; congruence). split; [auto|discriminate].
    + assert (s1 = s' /\ r = Panic) as [<- ->] by (split; congruence). split; [auto|discriminate].
Qed.

Lemma set_referenced_infos bs : forall s s' r, set_referenced nr bs s = (s', r) -> k_infos s' = k_infos s.
Proof using.
  induction bs as [|b bs IH]; intros s s' r E; cbn [set_referenced] in E; [congruence|].
  destruct (b <? nr); [|congruence]. rewrite (IH _ _ _ E). auto.
Qed.
Lemma fold_app_concat {A} (xs : list (list A)) : forall a, fold_left (@app A) xs a = a ++ concat xs.
Proof using. induction xs as [|x xs IH]; intros a; cbn [fold_left concat]; [rewrite app_nil_r; auto|]. rewrite IH, app_assoc. auto. Qed.

Lemma subtree_sound b data h ks bs s s' r : b < nr -> eng b = Some data -> metadata_block_type data = NODE ->
  unpack_node_raw u64_codec data true true = Ok (Internal h ks bs) -> claims eng b (nh_block h) ->
  true_infos s -> subtree_info nr get h bs s = (s', r) -> true_infos s' /\ forall i, r = Ok i -> true_info b i.
Proof using Hget.
  intros Hb Ee Eb Eu Ecl Ht E. unfold subtree_info in E.
  assert (Hin : forall V (c : codec V), node_in c eng b (Internal h ks bs)).
  { intros V c. exists data. conj; auto. eapply unpack_internal_any; eauto. }
  destruct (N.eqb_spec (nh_nr_entries h) 0) as [E0|E0];
    [assert (s = s' /\ r = Err) as [<- ->] by (split; congruence); split; [auto|discriminate]|].
  assert (Hne : bs <> []).
  { destruct (raw_facts _ _ _ _ _ Eu) as (_ & Hn & Hl). cbn [get_keys get_header] in *. intros ->. cbn [length] in Hl.
    destruct ks; [|discriminate]. unfold nlen in Hn. cbn in Hn. lia. }
  destruct (get (hd 0 bs) s) as [s1 [first| |]] eqn:Eg; destruct (Hget _ _ _ _ Ht Eg) as [T1 T2].
  2: assert (s1 = s' /\ r = Err) as [<- ->] by (split; congruence); split; [auto|discriminate].
  2: assert (s1 = s' /\ r = Panic) as [<- ->] by (split; congruence); split; [auto|discriminate].
  destruct (match first with NDev _ => _ | NMap _ => _ | NDet _ => _ end) as [s2 r2] eqn:E2.
  assert (G : true_infos s2 /\ forall i, r2 = Ok i -> true_info b i).
  { destruct first; unfold wrap in E2.
    - destruct (push_children get sel_dev dev_push (dev_new (nh_block h)) bs s1) as [s3 r3] eqn:E3. cbn [fst snd] in E2.
      assert (s3 = s2) by congruence. subst s3.
      destruct (push_children_sound sel_dev dev_push (fun i a => dev_acc i a /\ di_b i = nh_block h) dev_sum (@app _) (stored_devices eng)) with (bs := bs) (i := dev_new (nh_block h)) (a := @nil (N * list (N * block_time))) (s := s1) (s' := s2) (r := r3) as [P1 P2].
      + intros j a c x j' [Ha Hj] Hc Hp. split; [eapply dev_push_acc; eauto|]. unfold dev_push in Hp. destruct (_ && _); [discriminate|]. okinj Hp. auto.
      + intros n c b' Hs Hn. destruct n; cbn [sel_dev] in Hs; try discriminate. assert (i0 = c) by congruence. subst i0.
        destruct Hn as (_ & _ & devs & D1 & D2). exists devs. auto.
      + split; [apply dev_new_acc|auto].
      + auto.
      + auto.
      + split; [auto|]. intros i0 Hi. destruct r3 as [j| |]; [|congruence|congruence]. assert (i0 = NDev j) by congruence. subst i0.
        destruct (P2 j eq_refl) as (xs & F & [G Gb] & K). split; [auto|]. split; [rewrite Gb; auto|].
        rewrite fold_app_concat in G. cbn [app] in G. exists (concat xs). split; [|apply G].
        (* the roots of the subtrees *)
        clear - F Hin Hne. assert (exists rs, Forall2 (stored u64_codec eng) bs rs /\ Forall2 (fun r d => fst r = fst d /\ stored bt_codec eng (snd r) (snd d)) (concat rs) (concat xs)) as (rs & R1 & R2).
        { clear Hin Hne. induction F as [|b' x bs xs Hx F IH]; [exists []; split; constructor|]. destruct Hx as (roots & S1 & S2). destruct IH as (rs & R1 & R2).
          exists (roots :: rs). split; [constructor; auto|]. cbn [concat]. apply Forall2_app; auto. }
        exists (concat rs). split; [|auto]. eapply stored_inner; eauto.
    - destruct (push_children get sel_map map_push (map_new (nh_block h)) bs s1) as [s3 r3] eqn:E3. cbn [fst snd] in E2.
      assert (s3 = s2) by congruence. subst s3.
      destruct (push_children_sound sel_map map_push (fun i a => map_acc i a /\ mi_b i = nh_block h) map_sum (@app _) (stored bt_codec eng)) with (bs := bs) (i := map_new (nh_block h)) (a := @nil (N * block_time)) (s := s1) (s' := s2) (r := r3) as [P1 P2].
      + intros j a c x j' [Ha Hj] Hc Hp. split; [eapply map_push_acc; eauto|]. unfold map_push in Hp. destruct (_ && _); [discriminate|]. okinj Hp. auto.
      + intros n c b' Hs Hn. destruct n; cbn [sel_map] in Hs; try discriminate. assert (i0 = c) by congruence. subst i0.
        destruct Hn as (_ & _ & kvs & D1 & D2). exists kvs. auto.
      + split; [apply map_new_acc|auto].
      + auto.
      + auto.
      + split; [auto|]. intros i0 Hi. destruct r3 as [j| |]; [|congruence|congruence]. assert (i0 = NMap j) by congruence. subst i0.
        destruct (P2 j eq_refl) as (xs & F & [G Gb] & K). split; [auto|]. split; [rewrite Gb; auto|].
        rewrite fold_app_concat in G. cbn [app] in G. exists (concat xs). split; [|apply G]. eapply stored_inner; eauto.
    - destruct (push_children get sel_det det_push (det_new (nh_block h)) bs s1) as [s3 r3] eqn:E3. cbn [fst snd] in E2.
      assert (s3 = s2) by congruence. subst s3.
      destruct (push_children_sound sel_det det_push (fun i a => det_acc i a /\ ti_b i = nh_block h) det_sum (@app _) (stored dd_codec eng)) with (bs := bs) (i := det_new (nh_block h)) (a := @nil (N * device_detail)) (s := s1) (s' := s2) (r := r3) as [P1 P2].
      + intros j a c x j' [Ha Hj] Hc Hp. split; [eapply det_push_acc; eauto|]. unfold det_push in Hp. destruct (_ && _); [discriminate|]. okinj Hp. auto.
      + intros n c b' Hs Hn. destruct n; cbn [sel_det] in Hs; try discriminate. assert (i0 = c) by congruence. subst i0.
        destruct Hn as (_ & _ & kvs & D1 & D2). exists kvs. auto.
      + split; [apply det_new_acc|auto].
      + auto.
      + auto.
      + split; [auto|]. intros i0 Hi. destruct r3 as [j| |]; [|congruence|congruence]. assert (i0 = NDet j) by congruence. subst i0.
        destruct (P2 j eq_refl) as (xs & F & [G Gb] & K). split; [auto|]. split; [rewrite Gb; auto|].
        rewrite fold_app_concat in G. cbn [app] in G. exists (concat xs). split; [|apply G]. eapply stored_inner; eauto. }
  destruct G as [G1 G2].
  destruct r2 as [i| |].
  - destruct (set_referenced nr bs s2) as [s3 r3] eqn:E3. pose proof (set_referenced_infos _ _ _ _ E3) as Hk.
    assert (s' = s3) by (destruct r3; congruence). subst s3. split.
    + intros b' i' Hi. rewrite Hk in Hi. auto.
    + intros i' Hi. apply G2. destruct r3; congruence.
  - assert (s2 = s' /\ r = Err) as [<- ->] by (split; congruence). split; [auto|discriminate].
  - assert (s2 = s' /\ r = Panic) as [<- ->] by (split; congruence). split; [auto|discriminate].
Qed.

Lemma dev_leaf_loop_sound bs : forall i devs ids s s' r, length ids = length bs -> true_infos s ->
  di_nr_mappings i = nlen (all_mappings devs) mod 2 ^ 64 -> greatest (map bt_time (all_mappings devs)) (di_age i) ->
  greatest (map bt_block (all_mappings devs)) (di_highest i) -> counts_times (di_tc i) (map bt_time (all_mappings devs)) ->
  dev_leaf_loop get i bs s = (s', r) -> true_infos s' /\ forall i', r = Ok i' -> exists kvss,
    Forall2 (stored bt_codec eng) bs kvss /\
    let all := devs ++ combine ids kvss in
    di_nr_mappings i' = nlen (all_mappings all) mod 2 ^ 64 /\ greatest (map bt_time (all_mappings all)) (di_age i') /\
    greatest (map bt_block (all_mappings all)) (di_highest i') /\ counts_times (di_tc i') (map bt_time (all_mappings all)) /\
    di_b i' = di_b i /\ di_nr_devices i' = di_nr_devices i /\ di_low i' = di_low i /\ di_high i' = di_high i.
Proof using Hget.
  induction bs as [|b bs IH]; intros i devs ids s s' r Hl Ht H1 H2 H3 H4 E; cbn [dev_leaf_loop] in E.
  - assert (s = s') by congruence. subst s'. split; [auto|]. intros i' Hi. assert (i' = i) by congruence. subst i'.
    exists []. destruct ids; [|discriminate]. cbn [combine]. rewrite app_nil_r. auto 12.
  - destruct ids as [|id ids]; [discriminate|].
    destruct (get b s) as [s1 [n| |]] eqn:Eg; destruct (Hget b s s1 _ Ht Eg) as [T1 T2].
    2,3: assert (s1 = s' /\ r <> Ok i) as [<- Hr] by (split; congruence); split; [auto|intros; congruence].
    destruct n as [|c|]; [assert (s1 = s' /\ r <> Ok i) as [<- Hr] by (split; congruence); split; [auto|intros; congruence]| |assert (s1 = s' /\ r <> Ok i) as [<- Hr] by (split; congruence); split; [auto|intros; congruence]].
    destruct (T2 _ eq_refl) as (Hb & _ & kvs & S1 & S2). destruct S2.
    assert (EA : all_mappings (devs ++ [(id, kvs)]) = all_mappings devs ++ map snd kvs).
    { rewrite all_app. unfold all_mappings at 2. cbn [flat_map snd]. rewrite app_nil_r. auto. }
    destruct (IH (dev_add i c) (devs ++ [(id, kvs)]) ids s1 s' r) as [I1 I2]; auto.
    + unfold dev_add. cbn [di_nr_mappings]. rewrite EA, nlen_app. apply add64_mod; auto. rewrite ms_nr0. unfold nlen. rewrite map_length. auto.
    + rewrite EA, map_app. apply greatest_app; auto. rewrite map_map. auto.
    + rewrite EA, map_app. apply greatest_app; auto. rewrite map_map. auto.
    + rewrite EA, map_app. apply merge_counts; auto. rewrite map_map. auto.
    + split; [auto|]. intros i' Hi. destruct (I2 i' Hi) as (kvss & F & R). exists (kvs :: kvss). split; [constructor; auto|].
      cbv zeta in *. cbn [combine]. rewrite <- app_assoc in R. cbn [app] in R. exact R.
Qed.

Lemma gather_sound b s s' r : b < nr -> true_infos s -> gather_info nr eng get b s = (s', r) ->
  true_infos s' /\ forall i, r = Ok i -> true_info b i.
Proof using Hget.
  intros Hb Ht E. unfold gather_info in E.
  assert (Q : forall (P : Prop), s = s' -> r <> Panic \/ True -> (forall i, r = Ok i -> P) -> true_infos s' /\ forall i, r = Ok i -> P).
  { intros P <- _ H. auto. }
  destruct (eng b) as [data|] eqn:Ee; [|stop].
  destruct (metadata_block_type data) eqn:Eb; try (stop).
  destruct (nh_unpack data) as [[hdr rest]| |] eqn:Eh; try (stop).
  assert (Hcl : forall V (c : codec V) n, unpack_node_raw c data true true = Ok n -> claims eng b (nh_block (get_header n))).
  { intros V c n H. exists data, hdr, rest. conj; auto. unfold unpack_node_raw in H. rewrite Eh in H. cbn [bind] in H.
    repeat match type of H with (if ?x then Err else _) = _ => destruct x; [discriminate|] end.
    inv_bind H. destruct a as [q1 q2]. repeat match type of H with (if ?x then Err else _) = _ => destruct x; [discriminate|] end.
    inv_bind H. destruct a as [q3 q4]. destruct (nh_is_leaf hdr); inv_bind H; destruct a as [q5 q6]; okinj H; auto. }
  destruct (nh_value_size hdr =? 8).
  - destruct (unpack_node_raw u64_codec data true true) as [[h ks bs|h ks bs]| |] eqn:Eu; try (stop).
    + eapply subtree_sound; eauto. apply (Hcl _ _ _ Eu).
    + destruct (maybe_top_level nr bs).
      * unfold dev_leaf_info, wrap in E. destruct (dev_leaf_loop _ _ bs s) as [s2 r2] eqn:E2. cbn [fst snd] in E.
        destruct (raw_facts _ _ _ _ _ Eu) as (Hi & Hn & Hl). cbn [get_keys get_header] in *.
        pose proof (nr_small _ _ _ _ _ _ _ (ltac:(cbn; lia) : (csize u64_codec <= 4096)%nat) Eu) as Hs.
        destruct (dev_leaf_loop_sound bs (mkdev (nh_block h) (nh_nr_entries h) 0 (low_key ks) (high_key ks) [] 0 0 false) [] ks s s2 r2 Hl Ht eq_refl greatest_nil greatest_nil counts_nil E2) as [L1 L2].
        assert (s2 = s') by congruence. subst s2. split; [auto|]. intros i Hr.
        destruct r2 as [j| |]; [|congruence|congruence]. assert (i = NDev j) by congruence. subst i.
        destruct (L2 j eq_refl) as (kvss & F & R1 & R2 & R3 & R4 & R5 & R6 & R7 & R8). cbn [app di_b di_nr_devices di_low di_high] in *.
        assert (Hlk : length ks = length kvss) by (rewrite Hl; eapply Forall2_length; eauto).
        split; [auto|]. split; [rewrite R5; apply (Hcl _ _ _ Eu)|].
        exists (combine ks kvss). split.
        -- exists (combine ks bs). split.
           ++ eapply stored_leaf. exists data. eauto.
           ++ clear - F Hl Hlk. revert ks Hl Hlk. induction F as [|x y bs kvss Hx F IH]; intros [|k ks] H1 H2; try discriminate; cbn [combine]; [constructor|].
              constructor; [cbn; auto|]. apply IH; cbn [length] in *; lia.
        -- constructor; auto.
           ++ rewrite R6, nlen_combine, Hn by auto. symmetry. apply N.mod_small. rewrite <- Hn. change (2 ^ 64) with 18446744073709551616. lia.
           ++ rewrite R7, R8, fst_combine by auto. apply within_leaf. auto.
      * destruct (unpack_node_raw bt_codec data true true) as [[|h' ks' vs']| |] eqn:Ev; try (stop).
        assert (s = s') by congruence. subst s'. split; [auto|]. intros i Hr. assert (i = NMap (mapping_leaf_info h' ks' vs')) by congruence. subst i.
        destruct (mapping_leaf_sum data h' ks' vs' Ev) as [M1 M2]. split; [auto|]. split; [rewrite M2; apply (Hcl _ _ _ Ev)|].
        exists (combine ks' vs'). split; [|auto]. eapply stored_leaf. exists data. eauto.
  - destruct (nh_value_size hdr =? 24); [|stop].
    destruct (unpack_node_raw dd_codec data true true) as [[|h' ks' vs']| |] eqn:Ev; try (stop).
    assert (s = s') by congruence. subst s'. split; [auto|]. intros i Hr. assert (i = NDet (details_leaf_info h' ks' vs')) by congruence. subst i.
    destruct (details_leaf_sum data h' ks' vs' Ev) as [M1 M2]. split; [auto|]. split; [rewrite M2; apply (Hcl _ _ _ Ev)|].
    exists (combine ks' vs'). split; [|auto]. eapply stored_leaf. exists data. eauto.
Qed.
End Children.

Lemma get_info_sound fuel : sound (get_info nr eng fuel).
Proof using.
  induction fuel as [|fuel IH]; intros b s s' r Ht E; cbn [get_info] in E.
  - destruct (k_examined s b).
    { assert (s = s') by congruence. subst s'. split; [auto|]. intros i Hi. destruct (k_infos s b) eqn:Ek; [|congruence].
      assert (n = i) by congruence. subst n. auto. }
    destruct (negb _); [stop|]. split; [|intros; congruence].
    assert (s' = mkcol (upd (k_examined s) b true) (k_referenced s) (k_infos s)) by congruence. subst s'. exact Ht.
  - destruct (k_examined s b).
    { assert (s = s') by congruence. subst s'. split; [auto|]. intros i Hi. destruct (k_infos s b) eqn:Ek; [|congruence].
      assert (n = i) by congruence. subst n. auto. }
    destruct (N.ltb_spec b nr) as [Hb|Hb]; cbn [negb] in E; [|stop].
    destruct (gather_info nr eng (get_info nr eng fuel) b (mkcol (upd (k_examined s) b true) (k_referenced s) (k_infos s))) as [s2 r2] eqn:E2.
    destruct (gather_sound (get_info nr eng fuel) IH b _ _ _ Hb (Ht : true_infos (mkcol _ _ (k_infos s))) E2) as [G1 G2].
    destruct r2 as [i| |]; [|stop|stop].
    assert (s' = mkcol (k_examined s2) (k_referenced s2) (upd (k_infos s2) b (Some i))) by congruence. subst s'.
    split; [|intros j Hj; assert (i = j) by congruence; subst j; auto].
    intros b' i' Hi. cbn [k_infos] in Hi. unfold upd in Hi. destruct (N.eqb_spec b' b) as [Eq|Eq]; [|auto].
    subst b'. assert (i = i') by congruence. subst i'. auto.
Qed.
Lemma collect_sound s : collect_infos nr eng = Ok s -> true_infos s.
Proof using.
  unfold collect_infos. assert (G : forall bs s0, true_infos s0 -> collect_blocks nr eng bs s0 = Ok s -> true_infos s).
  { induction bs as [|b bs IH]; intros s0 H0 E; cbn [collect_blocks] in E; [assert (s0 = s) by congruence; subst; auto|].
    destruct (get_info nr eng (N.to_nat nr) b s0) as [s1 r] eqn:Eg.
    destruct (get_info_sound _ b s0 s1 r H0 Eg) as [G1 _]. destruct r; [eauto|eauto|discriminate]. }
  apply G. intros b i Hi. discriminate.
Qed.
End Collect.
