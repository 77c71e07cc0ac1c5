(** The leaf walker on a well-formed tree. *)
From Verif Require Import Base Csum_Model Codec_Model Codec_Spec NodeCodec_Proofs SpaceMap_Model Utils_Model Utils_Spec Utils_Proofs UtilsNum_Proofs
  Pack_Proofs Builder_Model Builder_Spec BtreeRead_Proofs Walker_Model Walker_Spec Walker_Proofs ThinOut_Model ThinOut_Spec ThinCheck_Spec Runs_Model Repair_Model Dump_Model Dump_Spec.

Lemma map_fst_combine' {A B} : forall (l : list A) (m : list B), length l = length m -> map fst (combine l m) = l.
Proof. induction l as [|x l IH]; intros [|y m] H; cbn in *; try lia; auto. f_equal. apply IH. lia. Qed.
Lemma raw_loose {V} (c : codec V) data i r n : unpack_node_raw c data i r = Ok n -> forall r', unpack_node_raw c data true r' = Ok n.
Proof.
  unfold unpack_node_raw. intros H r'. destruct (nh_unpack data) as [[h x]| |]; try discriminate. cbn [bind] in *.
  destruct (nh_is_leaf h && _); [discriminate|]. destruct (4096 <? _); [discriminate|]. destruct (nh_max_entries h <? _); [discriminate|].
  destruct (negb i && _); [discriminate|]. destruct (negb i && _ && _); [discriminate|]. cbn [negb andb]. exact H.
Qed.
Lemma node_on_loose {V} (c : codec V) eng r b (n : node V) : node_on c eng r b n ->
  exists data, eng b = Some data /\ metadata_block_type data = NODE /\ unpack_node_raw c data true true = Ok n.
Proof. intros (data & E & T & U). exists data. conj; auto. eapply raw_loose; eauto. Qed.
Lemma node_on_det {V} (c : codec V) eng r r' b (n n' : node V) : node_on c eng r b n -> node_on c eng r' b n' -> n = n'.
Proof.
  intros H H'. apply node_on_loose in H as (data & E & _ & U), H' as (data' & E' & _ & U'). rewrite E in E'.
  assert (data = data') by congruence. subst. congruence.
Qed.

(** The leaves below a block. *)
Fixpoint tree_leaves (eng : N -> option (list N)) (depth : nat) (b : N) : list N :=
  match depth with
  | O => [b]
  | S dp => match eng b with
            | Some data => match unpack_node_raw bt_codec data true true with
                           | Ok (Internal _ _ bs) => flat_map (tree_leaves eng dp) bs
                           | _ => []
                           end
            | None => []
            end
  end.
Lemma leaves_S eng r b h ks bs dp : node_on bt_codec eng r b (Internal h ks bs) -> tree_leaves eng (S dp) b = flat_map (tree_leaves eng dp) bs.
Proof. intros H. apply node_on_loose in H as (data & E & _ & U). cbn [tree_leaves]. rewrite E, U. reflexivity. Qed.

Lemma children_F2 {V} (P : N -> list (N * V) -> Prop) : forall ks bs subs, children_ok (fun _ b s => P b s) ks bs subs -> Forall2 P bs subs.
Proof.
  induction ks as [|k ks IH]; intros [|b bs] [|s subs] H; cbn [children_ok] in H; try destruct H; constructor.
  - tauto.
  - apply IH. tauto.
Qed.
Lemma children_nonempty {V} (P : N -> N -> list (N * V) -> Prop) : forall ks bs subs, children_ok P ks bs subs -> Forall (fun s => s <> []) subs.
Proof.
  induction ks as [|k ks IH]; intros [|b bs] [|s subs] H; cbn [children_ok] in H; try destruct H; constructor.
  - tauto.
  - apply (IH bs). tauto.
Qed.
Lemma children_length {V} (P : N -> N -> list (N * V) -> Prop) : forall ks bs subs, children_ok P ks bs subs -> length ks = length bs.
Proof.
  induction ks as [|k ks IH]; intros [|b bs] [|s subs] H; cbn [children_ok] in H; try destruct H; auto. cbn. f_equal. apply (IH bs subs). tauto.
Qed.

Lemma tree_nodes eng : forall depth r b kvs, mapping_tree eng r depth b kvs -> exists data, eng b = Some data.
Proof. intros [|dp] r b kvs; cbn [mapping_tree]; [intros (h & ks & vs & (data & E & _) & _)|intros (h & ks & bs & subs & (data & E & _) & _)]; eauto. Qed.

(** The leaves hold the entries of the tree; none of them is empty unless the whole tree is. *)
Lemma tree_leaves_hold eng : forall depth r b kvs, mapping_tree eng r depth b kvs ->
  exists kvss, Forall2 (leaf_is eng) (tree_leaves eng depth b) kvss /\ concat kvss = kvs /\ (kvs <> [] -> Forall (fun l => l <> []) kvss).
Proof.
  induction depth as [|dp IH]; intros r b kvs H; cbn [mapping_tree] in H.
  - destruct H as (h & ks & vs & Hn & ->). apply node_on_loose in Hn as (data & E & T & U). exists [combine ks vs]. cbn [tree_leaves concat]. rewrite app_nil_r. conj; auto.
    constructor; [|constructor]. exists data, h, ks, vs. auto.
  - destruct H as (h & ks & bs & subs & Hn & Hne & Hc & ->). rewrite (leaves_S eng r b h ks bs dp Hn).
    pose proof (children_nonempty _ _ _ _ Hc) as HN. apply children_F2 in Hc. clear Hn Hne ks.
    assert (exists kvss, Forall2 (leaf_is eng) (flat_map (tree_leaves eng dp) bs) kvss /\ concat kvss = concat subs /\ Forall (fun l => l <> []) kvss) as (kvss & A & B & C).
    { induction Hc as [|x s bs subs H1 Hc IHc]; [exists []; conj; auto; constructor|]. inversion HN as [|? ? N1 N2]; subst.
      destruct (IHc N2) as (k2 & A2 & B2 & C2). destruct (IH _ _ _ H1) as (k1 & A1 & B1 & C1). exists (k1 ++ k2). cbn [flat_map concat]. conj.
      - apply Forall2_app; auto.
      - rewrite concat_app, B1, B2. reflexivity.
      - apply Forall_app; auto. }
    exists kvss. auto.
Qed.

Lemma leaf_is_keys eng b kvs : leaf_is eng b kvs -> increasing (map fst kvs).
Proof.
  intros (data & h & ks & vs & _ & _ & U & ->). apply raw_facts in U as (Hi & _ & Hl). cbn [get_keys] in Hi. rewrite map_fst_combine'; auto.
Qed.
Lemma children_inc {V} (P : N -> N -> list (N * V) -> Prop) : forall ks bs subs, increasing ks -> children_ok P ks bs subs ->
  Forall (fun s => increasing (map fst s)) subs -> increasing (map fst (concat subs)).
Proof.
  induction ks as [|k ks IH]; intros [|b bs] [|s subs] Hi H HF; cbn [children_ok] in H; try destruct H; [exact I|].
  match goal with H : _ /\ _ /\ _ |- _ => destruct H as (_ & Hr & Hc) end. inversion HF as [|? ? F1 F2]; subst.
  cbn [concat]. rewrite map_app. apply increasing_app. assert (Hi' : increasing ks) by (apply increasing_strong in Hi; tauto). conj.
    + auto.
    + apply (IH bs); auto.
    + intros x y Hx Hy. pose proof (children_ge P ks bs subs Hi' Hc) as Hge. apply Hr in Hx as [_ Hx]. destruct ks as [|k2 ks].
      * destruct bs, subs; cbn [children_ok] in Hc; try destruct Hc. destruct Hy.
      * specialize (Hge y Hy). lia.
Qed.
Lemma tree_increasing eng : forall depth r b kvs, mapping_tree eng r depth b kvs -> increasing (map fst kvs).
Proof.
  induction depth as [|dp IH]; intros r b kvs H; cbn [mapping_tree] in H.
  - destruct H as (h & ks & vs & Hn & ->). apply node_on_loose in Hn as (data & E & T & U). apply (leaf_is_keys eng b). exists data, h, ks, vs. auto.
  - destruct H as (h & ks & bs & subs & Hn & Hne & Hc & ->). destruct Hn as (data & E & T & U). apply raw_facts in U as (Hi & _ & _). cbn [get_keys] in Hi.
    apply (children_inc _ ks bs subs Hi Hc). apply children_F2 in Hc. induction Hc; constructor; eauto.
Qed.

(** ** Depths *)
Lemma tree_depth eng : forall d d' r r' b kvs kvs', mapping_tree eng r d b kvs -> mapping_tree eng r' d' b kvs' -> d = d'.
Proof.
  induction d as [|d IH]; intros [|d'] r r' b kvs kvs' H H'; cbn [mapping_tree] in H, H'; auto.
  - destruct H as (h & ks & vs & Hn & _), H' as (h' & ks' & bs' & subs' & Hn' & _). pose proof (node_on_det _ _ _ _ _ _ _ Hn Hn'). discriminate.
  - destruct H as (h & ks & bs & subs & Hn & _), H' as (h' & ks' & vs' & Hn' & _). pose proof (node_on_det _ _ _ _ _ _ _ Hn Hn'). discriminate.
  - destruct H as (h & ks & bs & subs & Hn & Hne & Hc & _), H' as (h' & ks' & bs' & subs' & Hn' & _ & Hc' & _).
    pose proof (node_on_det _ _ _ _ _ _ _ Hn Hn') as E. injection E as -> -> ->. f_equal.
    destruct ks' as [|k ks']; [congruence|]. destruct bs' as [|b' bs']; [destruct Hc|]. destruct subs; [destruct Hc|]. destruct subs'; [destruct Hc'|].
    cbn [children_ok] in Hc, Hc'. eapply IH; [apply Hc|apply Hc'].
Qed.
Lemma tree_chain eng : forall depth r b kvs, mapping_tree eng r depth b kvs ->
  exists ch, length ch = S depth /\ NoDup ch /\ forall x, In x ch -> exists d r kvs, (d <= depth)%nat /\ mapping_tree eng r d x kvs.
Proof.
  induction depth as [|dp IH]; intros r b kvs H.
  - exists [b]. conj; auto; [repeat constructor; intros []|]. intros x [<-|[]]. exists O, r, kvs. auto.
  - pose proof H as H0. cbn [mapping_tree] in H. destruct H as (h & ks & bs & subs & Hn & Hne & Hc & _).
    destruct ks as [|k ks]; [congruence|]. destruct bs as [|b' bs]; [destruct Hc|]. destruct subs as [|s subs]; [destruct Hc|]. cbn [children_ok] in Hc. destruct Hc as (Hc & _).
    destruct (IH _ _ _ Hc) as (ch & L & N & A). exists (b :: ch). conj.
    + cbn. f_equal. auto.
    + constructor; auto. intros Hin. destruct (A b Hin) as (d & r' & kvs' & Hd & Ht). pose proof (tree_depth _ _ _ _ _ _ _ _ Ht H0). lia.
    + intros x [<-|Hx]; [exists (S dp), r, kvs; auto|]. destruct (A x Hx) as (d & r' & kvs' & Hd & Ht). exists d, r', kvs'. split; auto.
Qed.
Lemma tree_shallow nr eng depth r b kvs : device_of nr eng -> mapping_tree eng r depth b kvs -> (depth < N.to_nat nr)%nat.
Proof.
  intros Hd H. destruct (tree_chain eng depth r b kvs H) as (ch & L & N & A).
  assert (nlen ch <= nr). { apply nodup_bound; auto. rewrite Forall_forall. intros x Hx. destruct (A x Hx) as (d & r' & k' & _ & Ht). destruct (tree_nodes _ _ _ _ _ Ht) as (data & E). apply (proj2 Hd) in E. tauto. }
  unfold nlen in *. lia.
Qed.

(** ** The walk *)
Section Walk.
Context (nr : N) (eng : N -> option (list N)).
Hypothesis Hdev : device_of nr eng.
Notation walked sm := (r_nr sm = nr) (only parsing).

Lemma lw_unpack_on r b n : node_on bt_codec eng r b n -> exists data, eng b = Some data /\ lw_unpack bt_codec false data r = Ok n.
Proof using. intros (data & E & T & U). exists data. split; auto. unfold lw_unpack. rewrite T. exact U. Qed.

Lemma lw_depth_ok : forall depth r b kvs fuel, mapping_tree eng r depth b kvs -> (depth < fuel)%nat -> lw_depth bt_codec false eng fuel b r = Ok depth.
Proof using.
  induction depth as [|dp IH]; intros r b kvs fuel H Hf; (destruct fuel as [|fuel]; [lia|]); cbn [mapping_tree] in H; cbn [lw_depth].
  - destruct H as (h & ks & vs & Hn & _). destruct (lw_unpack_on _ _ _ Hn) as (data & -> & ->). reflexivity.
  - destruct H as (h & ks & bs & subs & Hn & Hne & Hc & _). destruct (lw_unpack_on _ _ _ Hn) as (data & -> & ->). cbn [bind].
    destruct ks as [|k ks]; [congruence|]. destruct bs as [|b' bs]; [destruct Hc|]. destruct subs as [|s subs]; [destruct Hc|]. cbn [children_ok] in Hc. destruct Hc as (Hc & _).
    rewrite (IH _ _ _ fuel Hc) by lia. reflexivity.
Qed.

Lemma rsm_inc_in sm b : r_nr sm = nr -> b < nr -> exists sm', rsm_inc sm b 1 = (sm', Ok tt) /\ r_nr sm' = nr.
Proof using Hdev.
  intros Hs Hb. destruct Hdev as [Hn _]. unfold rsm_inc. assert (b + 1 < W64) by (unfold W64; lia).
  rewrite (N.mod_small (b + 1)) by auto. replace ((b + 1 + (W64 - 1)) mod W64) with b.
  2:{ replace (b + 1 + (W64 - 1)) with (b + 1 * W64) by (unfold W64 in *; lia). rewrite N.mod_add by (unfold W64; lia). rewrite N.mod_small; auto. unfold W64 in *; lia. }
  rewrite Hs. destruct (N.leb_spec nr b); [lia|]. eexists. split; [reflexivity|].
  rewrite range_cons by lia. rewrite range_nil by lia. cbn [fold_left]. destruct (r_bits sm b); auto.
Qed.
Lemma lw_sm_inc_in sm b : r_nr sm = nr -> b < nr -> exists sm', lw_sm_inc b sm = (sm', Ok tt) /\ r_nr sm' = nr.
Proof using Hdev.
  intros Hs Hb. unfold lw_sm_inc, rsm_get. rewrite Hs. destruct (N.leb_spec nr b); [lia|].
  destruct (rsm_inc_in sm b Hs Hb) as (sm' & E & E'). rewrite E. exists sm'. auto.
Qed.
Lemma lw_sm_inc_all_in : forall bs sm, r_nr sm = nr -> Forall (fun b => b < nr) bs -> exists sm', lw_sm_inc_all bs sm = (sm', Ok tt) /\ r_nr sm' = nr.
Proof using Hdev.
  induction bs as [|b bs IH]; intros sm Hs HF; [exists sm; auto|]. apply Forall_cons_iff in HF as [F1 F2]. cbn [lw_sm_inc_all].
  destruct (lw_sm_inc_in sm b Hs) as (sm' & E & E'); auto. rewrite E. auto.
Qed.
Lemma no_oob bs : Forall (fun b => b < nr) bs -> existsb (fun v => nr <=? v) bs = false.
Proof using. induction 1; cbn; auto. rewrite IHForall. destruct (N.leb_spec nr x); [lia|auto]. Qed.
Lemma lw_visit_ok all : existsb (fun v => nr <=? v) all = false -> forall krs bs sm, length krs = length bs -> r_nr sm = nr -> Forall (fun b => b < nr) bs ->
  exists sm' out, lw_visit nr all krs bs sm = (sm', out, Ok tt) /\ r_nr sm' = nr /\ map snd out = bs.
Proof using Hdev.
  intros Ha. induction krs as [|kr krs IH]; intros [|b bs] sm HL Hs HF; try discriminate; cbn [lw_visit]; [exists sm, []; auto|].
  apply Forall_cons_iff in HF as [F1 F2]. destruct (rsm_inc_in sm b Hs) as (sm' & E & E'); auto. rewrite E, Ha.
  destruct (IH bs sm') as (sm2 & out & E2 & E3 & E4); auto. rewrite E2. exists sm2, ((kr, b) :: out). conj; auto. cbn. congruence.
Qed.
Lemma tree_lt d r b kvs : mapping_tree eng r d b kvs -> b < nr.
Proof using Hdev. intros H. destruct (tree_nodes _ _ _ _ _ H) as (data & E). apply (proj2 Hdev) in E. tauto. Qed.

Lemma tree_keys_below dp (P : forall b s, mapping_tree eng false dp b s -> Prop) : forall ks bs subs e,
  children_ok (fun _ b s => mapping_tree eng false dp b s) ks bs subs ->
  (forall k, In k (map fst (concat subs)) -> below k e) -> forall k, In k ks -> below k e.
Proof using.
  induction ks as [|k0 ks IH]; intros bs subs e Hc Hb k Hk; [destruct Hk|]. destruct bs as [|b bs]; [destruct Hc|]. destruct subs as [|s subs]; [destruct Hc|].
  cbn [children_ok] in Hc. destruct Hc as (_ & Hne & Hr & Hc). destruct Hk as [<-|Hk].
  - destruct s as [|[k1 v] s]; [congruence|]. destruct (Hr k1 (or_introl eq_refl)) as [H1 _].
    assert (below k1 e) as H2. { apply Hb. cbn [concat]. left. reflexivity. } destruct e as [e|]; cbn in *; [lia|auto].
  - eapply IH; eauto. intros k1 Hk1. apply Hb. cbn [concat]. rewrite map_app. apply in_or_app. auto.
Qed.

Lemma lw_node_ok : forall dp r b kvs kr data sm, mapping_tree eng r (S dp) b kvs -> eng b = Some data ->
  (forall k, In k (map fst kvs) -> below k (kr_end kr)) -> r_nr sm = nr ->
  exists sm' out, lw_node bt_codec false nr eng dp kr data r sm = (sm', out, Ok tt) /\ r_nr sm' = nr /\ map snd out = tree_leaves eng (S dp) b.
Proof using Hdev.
  induction dp as [|dp IH]; intros r b kvs kr data sm H E Hk Hs.
  - pose proof H as H0. cbn [mapping_tree] in H. destruct H as (h & ks & bs & subs & Hn & Hne & Hc & ->).
    destruct (lw_unpack_on _ _ _ Hn) as (data' & E' & U). assert (data' = data) by congruence. subst data'. cbn [lw_node]. rewrite U.
    pose proof Hn as (data' & E2 & _ & U2). assert (data' = data) by congruence. subst data'. pose proof (raw_facts _ _ _ _ _ U2) as (Hi & _ & HL). cbn [get_keys] in Hi.
    destruct ks as [|k0 ks]; [congruence|].
    assert (ES : split_key_ranges kr (k0 :: ks) = Ok (ranges_of k0 ks (kr_end kr))).
    { cbn [split_key_ranges]. apply split_loop_iff. conj; auto. intros k Hin. eapply (tree_keys_below 0 (fun _ _ _ => True)); [exact Hc|exact Hk|right; exact Hin]. }
    rewrite ES.
    assert (HF : Forall (fun x => x < nr) bs).
    { apply children_F2 in Hc. clear - Hc Hdev. rewrite Forall_forall. intros x Hx. induction Hc as [|y s bs subs Hy Hc IHc]; [destruct Hx|].
      destruct Hx as [<-|Hx]; [|auto]. apply (tree_lt 0 false _ s Hy). }
    assert (HL2 : length (ranges_of k0 ks (kr_end kr)) = length bs) by (rewrite (split_length _ _ _ ES); exact HL).
    destruct (lw_visit_ok bs (no_oob bs HF) _ bs sm HL2 Hs HF) as (sm' & out & A & B & C).
    rewrite A. exists sm', out. conj; auto. rewrite C, (leaves_S _ _ _ _ _ _ _ Hn). clear. induction bs as [|x bs IHb]; [reflexivity|]. cbn [flat_map tree_leaves app]. f_equal. exact IHb.
  - pose proof H as H0. change (mapping_tree eng r (S (S dp)) b kvs) with (exists h ks bs subs, node_on bt_codec eng r b (Internal h ks bs) /\ ks <> [] /\
      children_ok (fun _ b s => mapping_tree eng false (S dp) b s) ks bs subs /\ kvs = concat subs) in H. destruct H as (h & ks & bs & subs & Hn & Hne & Hc & ->).
    destruct (lw_unpack_on _ _ _ Hn) as (data' & E' & U). assert (data' = data) by congruence. subst data'. cbn [lw_node]. rewrite U.
    pose proof Hn as (data' & E2 & _ & U2). assert (data' = data) by congruence. subst data'. pose proof (raw_facts _ _ _ _ _ U2) as (Hi & _ & HL). cbn [get_keys] in Hi.
    destruct ks as [|k0 ks]; [congruence|].
    assert (ES : split_key_ranges kr (k0 :: ks) = Ok (ranges_of k0 ks (kr_end kr))).
    { cbn [split_key_ranges]. apply split_loop_iff. conj; auto. intros k Hin. eapply (tree_keys_below (S dp) (fun _ _ _ => True)); [exact Hc|exact Hk|right; exact Hin]. }
    rewrite ES. assert (HL2 : length (ranges_of k0 ks (kr_end kr)) = length bs) by (rewrite (split_length _ _ _ ES); exact HL).
    rewrite HL2, Nat.eqb_refl. cbn [negb].
    assert (HF : Forall (fun x => x < nr) bs).
    { apply children_F2 in Hc. clear - Hc Hdev. rewrite Forall_forall. intros x Hx. induction Hc as [|y s bs subs Hy Hc IHc]; [destruct Hx|].
      destruct Hx as [<-|Hx]; [|auto]. apply (tree_lt (S dp) false _ s Hy). }
    destruct (lw_sm_inc_all_in bs sm Hs HF) as (sm1 & E1 & Hs1). rewrite E1. rewrite (leaves_S _ _ _ _ _ _ _ Hn).
    clear E1 HF HL2 ES HL U2 E2 U E' H0 Hn Hne Hs sm E. revert k0 bs subs sm1 Hs1 Hc Hk Hi. induction ks as [|k1 ks IHk]; intros k0 [|b1 bs] [|s1 subs] sm1 Hs1 Hc Hk Hi;
      cbn [children_ok] in Hc; try (destruct Hc as (_ & _ & _ & []); fail); try destruct Hc as (Ht & Hne & Hr & Hc); try tauto.
    + destruct bs; [|destruct Hc]. destruct subs; [|destruct Hc]. cbn [ranges_of lw_children]. destruct (tree_nodes _ _ _ _ _ Ht) as (d1 & Ed1). rewrite Ed1.
      destruct (IH false b1 s1 (mkkr (Some k0) (kr_end kr)) d1 sm1 Ht Ed1) as (sm2 & out & A & B & C); auto.
      { intros k Hin. apply Hk. cbn [concat]. rewrite app_nil_r. auto. }
      rewrite A. exists sm2, (out ++ []). conj; auto. rewrite app_nil_r, C. cbn [flat_map]. rewrite app_nil_r. auto.
    + cbn [ranges_of lw_children]. destruct (tree_nodes _ _ _ _ _ Ht) as (d1 & Ed1). rewrite Ed1.
      destruct (IH false b1 s1 (mkkr (Some k0) (Some k1)) d1 sm1 Ht Ed1) as (sm2 & out & A & B & C); auto.
      { intros k Hin. apply Hr in Hin. cbn [kr_end below]. tauto. }
      rewrite A. apply increasing_cons in Hi as [_ Hi]. destruct (IHk k1 bs subs sm2 B Hc) as (sm3 & out3 & A3 & B3 & C3).
      { intros k Hin. apply Hk. cbn [concat]. rewrite map_app. apply in_or_app. auto. }
      { auto. }
      rewrite A3. exists sm3, (out ++ out3). conj; auto. rewrite map_app, C, C3. reflexivity.
Qed.

Lemma lw_walk_ok depth root kvs sm : mapping_tree eng true depth root kvs -> r_nr sm = nr ->
  exists sm' out, lw_walk bt_codec false nr eng root sm = (sm', out, Ok tt) /\ r_nr sm' = nr /\ map snd out = tree_leaves eng depth root.
Proof using Hdev.
  intros H Hs. unfold lw_walk. rewrite (lw_depth_ok depth true root kvs (S (N.to_nat nr)) H) by (pose proof (tree_shallow nr eng depth true root kvs Hdev H); lia).
  pose proof (tree_lt _ _ _ _ H) as Hlt. destruct (lw_sm_inc_in sm root Hs Hlt) as (sm1 & E1 & Hs1). rewrite E1. destruct depth as [|dp].
  - destruct (N.leb_spec nr root); [lia|]. exists sm1, [(full_range, root)]. auto.
  - destruct (tree_nodes _ _ _ _ _ H) as (data & E). rewrite E. apply (lw_node_ok dp true root kvs full_range data sm1 H E); auto. intros k _. exact I.
Qed.
End Walk.
