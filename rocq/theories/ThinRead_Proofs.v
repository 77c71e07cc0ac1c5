(** Reading the nodes of the mapping trees. *)
From Coq Require Import Permutation.
From Verif Require Import Base Csum_Model Codec_Model Utils_Model Utils_Spec Utils_Proofs Walker_Model Walker_Spec SpaceMap_Model Pack_Proofs Codec_Spec Codec_Proofs Props_Codec NodeCodec_Proofs BtreeRead_Proofs ThinCheck_Model ThinCheck_Spec ThinSum_Proofs.

(** ** Nodes *)
Lemma p_le_consumes n i x i' : p_le n i = Ok (x, i') -> length i = (n + length i')%nat.
Proof.
  unfold p_le, p_take. intros H. destruct (Nat.ltb_spec (length i) n) as [L|L]; cbn [bind] in H; [discriminate|].
  apply Ok_inj in H. assert (i' = skipn n i) by congruence. subst. rewrite skipn_length. lia.
Qed.
Lemma p_count_consumes n : forall i l i', p_count p_u64 n i = Ok (l, i') -> length i = (8 * n + length i')%nat.
Proof.
  induction n as [|n IH]; intros i l i' H; cbn [p_count] in H.
  - apply Ok_inj in H. assert (i' = i) by congruence. subst. lia.
  - inv_bind H. destruct a as [x i1]. inv_bind H. destruct a as [r i2]. apply Ok_inj in H. assert (i2 = i') by congruence. subst.
    apply (p_le_consumes 8) in E. apply IH in E0. lia.
Qed.
Lemma check_raw {V} (c : codec V) b data inf root n : check_and_unpack_node c (mkblock b data) inf root = Ok n ->
  unpack_node_raw c data inf root = Ok n /\ nh_block (get_header n) = b.
Proof.
  unfold check_and_unpack_node. cbn [b_data b_loc]. destruct (metadata_block_type data); try discriminate. intros H. inv_bind H.
  destruct (N.eqb_spec (nh_block (get_header a)) b); [|discriminate]. apply Ok_inj in H. subst. auto.
Qed.
(** what kind of node it is does not depend on the values *)
Lemma raw_flag {V} (c : codec V) data inf root n : unpack_node_raw c data inf root = Ok n ->
  exists hd i, nh_unpack data = Ok (hd, i) /\ nh_is_leaf hd = match n with Leaf _ _ _ => true | Internal _ _ _ => false end.
Proof.
  unfold unpack_node_raw. intros H. destruct (nh_unpack data) as [[hd i]| |]; cbn [bind] in H; try discriminate. exists hd, i. split; [auto|].
  destruct (_ && _); [discriminate|]. destruct (4096 <? _); [discriminate|].
  destruct (_ <? _); [discriminate|]. destruct (_ && _); [discriminate|]. destruct (_ && _); [discriminate|].
  inv_bind H. destruct a as [kk i1]. destruct (negb _); [discriminate|]. inv_bind H. destruct a as [zz i2].
  destruct (nh_is_leaf hd); inv_bind H; destruct a; apply Ok_inj in H; subst n; reflexivity.
Qed.
Lemma raw_kind {V W} (c : codec V) (c' : codec W) data inf root h ks vs h' ks' vs' :
  unpack_node_raw c data inf root = Ok (Leaf h ks vs) -> unpack_node_raw c' data inf root = Ok (Internal h' ks' vs') -> False.
Proof.
  intros H H'. apply raw_flag in H, H'. destruct H as (hd & i & E & F). destruct H' as (hd' & i' & E' & F').
  assert (hd' = hd) by congruence. subst. congruence.
Qed.
Lemma raw_small {V} (c : codec V) data inf root n : csize c = 8%nat -> unpack_node_raw c data inf root = Ok n -> length data = 4096%nat ->
  nlen (get_keys n) < 256.
Proof.
  intros Hc H Hl. pose proof (raw_facts _ _ _ _ _ H) as (_ & Hn & _). rewrite Hn. clear Hn.
  unfold unpack_node_raw in H. inv_bind H. destruct a as [i hd]. destruct (nh_unpack data) as [[hd0 i0]| |] eqn:Eh; cbn [bind] in E; try discriminate.
  assert (hd0 = hd /\ i0 = i) as [-> ->] by (apply Ok_inj in E; split; congruence). clear E.
  assert (Hi : length i = 4064%nat).
  { clear H. unfold nh_unpack in Eh.
    do 7 (match type of Eh with bind ?e _ = _ => let E := fresh "E" in destruct e as [[? ?]| |] eqn:E; cbn [bind] in Eh; [apply p_le_consumes in E|discriminate|discriminate] end).
    apply Ok_inj in Eh. assert (l5 = i) by congruence. subst. lia. }
  destruct (nh_is_leaf hd && negb (_ =? _)) eqn:E1; [discriminate|]. rewrite Hc in E1.
  destruct (N.ltb_spec 4096 ((nh_value_size hd + 8) mod W32 * nh_max_entries hd + NODE_HEADER_SIZE)) as [|L1]; [discriminate|].
  destruct (N.ltb_spec (nh_max_entries hd) (nh_nr_entries hd)) as [|L2]; [discriminate|].
  destruct (negb inf && negb (_ =? 0)); [discriminate|]. destruct (negb inf && negb root && _); [discriminate|].
  inv_bind H. destruct a as [kk i1]. apply p_count_consumes in E. destruct (negb (keys_ordered None kk)); [discriminate|].
  inv_bind H. destruct a as [zz i2]. apply p_count_consumes in E0. destruct (nh_is_leaf hd).
  - inv_bind H. destruct a. apply Ok_inj in H. subst n. cbn [get_header]. apply Bool.andb_false_iff in E1. destruct E1 as [|E1]; [discriminate|].
    apply Bool.negb_false_iff in E1. apply N.eqb_eq in E1. rewrite E1 in L1. change ((N.of_nat 8 + 8) mod W32) with 16 in L1. unfold NODE_HEADER_SIZE in L1. lia.
  - inv_bind H. destruct a. apply p_count_consumes in E2. apply Ok_inj in H. subst n. cbn [get_header]. lia.
Qed.

(** ** The hypotheses of ThinSum_Proofs *)
Section Dev.
Context (nr : N) (eng : N -> option (list N)) (inf : bool).
Hypothesis Hdev : device_of nr eng.
Hypothesis Hptr : small_pointers eng inf.

Lemma leaf_facts b ks : leaf_on eng inf b = Some ks -> increasing ks /\ nlen ks < 256.
Proof using Hdev.
  unfold leaf_on. destruct (eng b) as [data|] eqn:E; [|discriminate]. destruct (check_and_unpack_node _ _ _ _) as [[|h kk vs]| |] eqn:Ec; try discriminate.
  intros H. assert (kk = ks) by congruence. subst. apply check_raw in Ec. destruct Ec as [Ec _]. pose proof (raw_facts _ _ _ _ _ Ec) as (H1 & _ & _).
  split; [exact H1|]. apply (raw_small bt_codec data inf true (Leaf h ks vs)); auto. apply (proj1 (proj2 (proj2 Hdev b data E))).
Qed.
Lemma inner_facts b ks cs : inner_on eng inf b = Some (ks, cs) -> length ks = length cs /\ nlen ks < 256.
Proof using Hdev.
  unfold inner_on. destruct (eng b) as [data|] eqn:E; [|discriminate]. destruct (check_and_unpack_node _ _ _ _) as [[h kk vs|]| |] eqn:Ec; try discriminate.
  intros H. assert (kk = ks /\ vs = cs) as [-> ->] by (split; congruence). apply check_raw in Ec. destruct Ec as [Ec _]. pose proof (raw_facts _ _ _ _ _ Ec) as (_ & _ & H1).
  split; [exact H1|]. apply (raw_small u64_codec data inf true (Internal h ks cs)); auto. apply (proj1 (proj2 (proj2 Hdev b data E))).
Qed.
Lemma check_nopanic b data : eng b = Some data -> check_and_unpack_node bt_codec (mkblock b data) inf true <> Panic.
Proof using Hdev.
  intros E. apply (C03_reader_total block_time bt_codec bt_range); [apply bt_lossless|]. cbn [b_data]. apply (proj2 Hdev b data E).
Qed.
Lemma disjoint_nodes b ks : leaf_on eng inf b = Some ks -> inner_on eng inf b = None.
Proof using.
  unfold leaf_on, inner_on. destruct (eng b) as [data|]; [|discriminate].
  destruct (check_and_unpack_node bt_codec _ _ _) as [[|h kk vs]| |] eqn:Ec; try discriminate. intros _.
  destruct (check_and_unpack_node u64_codec _ _ _) as [[h' kk' vs'|]| |] eqn:Ec'; auto. exfalso.
  apply check_raw in Ec, Ec'. exact (raw_kind _ _ _ _ _ _ _ _ _ _ _ (proj1 Ec) (proj1 Ec')).
Qed.

(** ** The node map tells the truth *)
(** [P]: some property of the nodes of the trees, inherited by the children *)
Context (P : N -> Prop).
Hypothesis Pdown : forall b ks cs c, P b -> inner_on eng inf b = Some (ks, cs) -> In c cs -> P c.
Definition NI (m : nmap) : Prop := exists c hi he, nm_inv nr c hi he m /\
  Forall (fun p => inner_on eng inf (fst p) = Some (snd p)) hi /\ (forall b, c b <> NTNone -> P b).
Lemma NI_inner m b x : NI m -> inner_of m b = Some x -> inner_on eng inf b = Some x.
Proof using Hdev Hptr Pdown.
  intros (c & hi & he & Hm & HF & _) H. unfold inner_of in H. destruct (nm_get_type m b); try discriminate.
  destruct (ni_info _ _ _ _ _ Hm) as [ks Hk]. rewrite (hv_get_inv _ _ _ b Hk) in H. unfold last_value in H.
  destruct (find _ (rev hi)) as [[b' y]|] eqn:Ef; cbn [option_map snd] in H; [|discriminate]. assert (y = x) by congruence. subst.
  apply find_some in Ef. destruct Ef as [Hin Eb]. cbn [fst] in Eb. apply N.eqb_eq in Eb. subst b'. apply in_rev in Hin.
  rewrite Forall_forall in HF. exact (HF _ Hin).
Qed.
Lemma step_within (m m' : nmap) o : NI m -> nm_step m o = Ok m' -> op_block o < nr.
Proof using Hdev Hptr Pdown.
  intros (c & hi & he & Hm & _) H. pose proof (ni_cap _ _ _ _ _ Hm) as Hc.
  destruct (N.lt_ge_cases (op_block o) nr) as [L|L]; [exact L|exfalso].
  assert (L1 : (op_block o * 2 <? nr * 2) = false) by (apply N.ltb_ge; lia).
  assert (L2 : (op_block o * 2 + 1 <? nr * 2) = false) by (apply N.ltb_ge; lia).
  destruct o; cbn [nm_step op_block] in *; unfold nm_insert_internal, nm_insert_leaf, nm_insert_error in H;
    rewrite (nm_get_type_inv _ _ _ _ _ _ Hm), (ni_out _ _ _ _ _ Hm) in H by exact L; try inv_bind H; unfold nm_set_type, bs_insert in H;
    cbn [nm_type nm_leaves] in H; rewrite Hc, ?L1, ?L2 in H; discriminate.
Qed.
Lemma NI_step m o : NI m -> P (op_block o) -> (forall b x, o = OpInternal b x -> inner_on eng inf b = Some x) ->
  match nm_step m o with Ok m' => NI m' | _ => True end.
Proof using Hdev Hptr Pdown.
  intros HN HP Ho. destruct (nm_step m o) as [m'| |] eqn:E; auto. pose proof (step_within m m' o HN E) as L.
  destruct HN as (c & hi & he & Hm & HF & HQ). pose proof (nm_step_inv nr c hi he m o (proj1 Hdev) L Hm) as S1.
  destruct (accepts _ _); [|congruence]. destruct S1 as (m2 & E2 & H2). assert (m2 = m') by congruence. subst m2.
  eexists _, _, _. split; [exact H2|]. split.
  - apply Forall_app. split; [exact HF|]. destruct o; cbn [info_of]; constructor; auto.
  - cbv beta. intros b Hb. destruct (_ =? _) eqn:Eb in Hb; [apply N.eqb_eq in Eb; subst b; exact HP|]. exact (HQ b Hb).
Qed.
Lemma NI_ins s o : NI (snd s) -> P (op_block o) -> (forall b x, o = OpInternal b x -> inner_on eng inf b = Some x) ->
  match ins s (nm_step (snd s) o) with Ok s' => NI (snd s') | _ => True end.
Proof using Hdev Hptr Pdown.
  intros HN HP Ho. pose proof (NI_step (snd s) o HN HP Ho) as H. unfold ins. destruct (nm_step (snd s) o); auto.
Qed.
Lemma NI_new_children last vs : forall s, match new_children last vs s with Ok (s', l) => snd s' = snd s /\ incl l vs | _ => True end.
Proof using Hdev Hptr Pdown.
  induction vs as [|v vs IH]; intros s; cbn [new_children]; [split; [auto|apply incl_refl]|]. destruct (is_seen _ _) as [sm r]. destruct r as [seen| |]; auto.
  - specialize (IH (sm, snd s)). cbv zeta. destruct (new_children _ vs _) as [[s' l]| |]; cbn [bind]; auto. destruct IH as [I1 I2]. split; [exact I1|].
    destruct (_ || _).
    + intros x [<-|Hx]; [left; auto|right; auto].
    + apply incl_tl, I2.
  - specialize (IH (sm, snd s)). destruct (new_children _ vs _) as [[s' l]| |]; auto. destruct IH as [I1 I2]. split; [exact I1|apply incl_tl, I2].
Qed.
Lemma NI_insert_leaves vs : forall s, (forall v, In v vs -> P (v mod W32)) -> NI (snd s) -> match insert_leaves vs s with Ok s' => NI (snd s') | _ => True end.
Proof using Hdev Hptr Pdown.
  induction vs as [|v vs IH]; intros s HP HN; cbn [insert_leaves]; auto.
  pose proof (NI_ins s (OpLeaf (v mod W32)) HN (HP v (or_introl eq_refl)) ltac:(discriminate)) as H. cbn [nm_step] in H. destruct (ins _ _) as [s'| |]; cbn [bind]; auto. apply (IH s'); [|exact H]. intros x Hx. apply HP. right. exact Hx.
Qed.
Lemma NI_read_node depth : forall b data s, eng b = Some data -> P b -> NI (snd s) -> match read_node eng inf depth b data s with Ok s' => NI (snd s') | _ => True end.
Proof using Hdev Hptr Pdown.
  induction depth as [|depth IH]; intros b data s Hb HPb HN; cbn [read_node];
    (destruct (check_and_unpack_node u64_codec (mkblock b data) inf true) as [[h ks vs|h ks vs]| |] eqn:Ec; auto;
     [|apply (NI_ins s (OpError (b mod W32) tt) HN); [cbn [op_block]; rewrite N.mod_small; [exact HPb|]; pose proof (proj1 (proj2 Hdev b data Hb)); pose proof (proj1 Hdev); unfold W32; lia|discriminate]]).
  all: destruct (proj2 Hdev b data Hb) as [Lb _]; pose proof (proj1 Hdev) as Lnr.
  all: assert (Hin : inner_on eng inf b = Some (ks, vs)) by (unfold inner_on; rewrite Hb, Ec; reflexivity).
  all: assert (Hmap : map (fun v => v mod W32) vs = vs) by
    (rewrite <- (map_id vs) at 2; apply map_ext_in; intros v Hv; apply N.mod_small; exact (Hptr b ks vs v Hin Hv)).
  all: assert (Hch : forall v, In v vs -> P (v mod W32)) by
    (intros v Hv; rewrite N.mod_small by exact (Hptr b ks vs v Hin Hv); exact (Pdown b ks vs v HPb Hin Hv)).
  all: assert (Hch2 : forall v, In v vs -> P v) by (intros v Hv; exact (Pdown b ks vs v HPb Hin Hv)).
  all: rewrite Hmap; assert (Hbm : b mod W32 = b) by (apply N.mod_small; unfold W32; lia); rewrite Hbm.
  all: pose proof (NI_ins s (OpInternal b (ks, vs)) HN HPb ltac:(intros b' x E; injection E as <- <-; exact Hin)) as H1; cbn [nm_step] in H1;
    destruct (ins _ _) as [s1| |]; cbn [bind]; auto.
  - pose proof (NI_new_children true vs s1) as H2. destruct (new_children _ _ _) as [[s2 l]| |]; cbn [bind]; auto.
    destruct H2 as [H2 H3]. apply NI_insert_leaves; [intros v Hv; apply Hch, H3, Hv|]. rewrite H2. exact H1.
  - pose proof (NI_new_children false vs s1) as H2. destruct (new_children _ _ _) as [[s2 l]| |]; cbn [bind]; auto.
    destruct H2 as [H2 Hl]. assert (HN2 : NI (snd s2)) by (rewrite H2; exact H1). clear H1 H2 Hin Hmap. revert s2 HN2.
    induction l as [|v l IHl]; intros s2 HN2; auto. specialize (IHl (fun x Hx => Hl x (or_intror Hx))). pose proof (Hl v (or_introl eq_refl)) as Hv.
    destruct (eng v) as [dv|] eqn:Ev.
    + pose proof (IH v dv s2 Ev (Hch2 v Hv) HN2) as H3. destruct (read_node _ _ _ _ _ _) as [s3| |]; cbn [bind]; auto. exact (IHl s3 H3).
    + pose proof (NI_ins s2 (OpError (v mod W32) tt) HN2 (Hch v Hv) ltac:(discriminate)) as H3. cbn [nm_step] in H3. destruct (ins _ _) as [s3| |]; cbn [bind]; auto. exact (IHl s3 H3).
Qed.
Lemma NI_read_roots roots : forall s, (forall r, In r roots -> P (r mod W32)) -> NI (snd s) -> match read_roots nr eng inf roots s with Ok s' => NI (snd s') | _ => True end.
Proof using Hdev Hptr Pdown.
  induction roots as [|r roots IH]; intros s HR HN; cbn [read_roots]; auto. pose proof (HR r (or_introl eq_refl)) as Hr.
  assert (H1 : match read_internal_nodes nr eng inf (r mod W32) s with Ok s' => NI (snd s') | _ => True end).
  { unfold read_internal_nodes. destruct (is_seen _ _) as [sm x]. destruct x as [[|]| |]; auto.
    destruct (get_depth _ _ _ _ _) as [[|depth]|]; auto.
    - exact (NI_ins (sm, snd s) (OpLeaf (r mod W32)) HN Hr ltac:(discriminate)).
    - destruct (eng (r mod W32)) as [data|] eqn:E.
      + apply NI_read_node; auto.
      + exact (NI_ins (sm, snd s) (OpError (r mod W32) tt) HN Hr ltac:(discriminate)). }
  destruct (read_internal_nodes _ _ _ _ _) as [s1| |]; cbn [bind]; auto. apply (IH s1); [|exact H1]. intros x Hx. apply HR. right. exact Hx.
Qed.
Lemma NI_collect roots sm : (forall r, In r roots -> P (r mod W32)) -> match collect_nodes_in_use nr eng inf roots sm with Ok s => NI (snd s) | _ => True end.
Proof using Hdev Hptr Pdown.
  intros HR. unfold collect_nodes_in_use. rewrite N.mod_small by exact (proj1 Hdev). apply NI_read_roots; [exact HR|].
  eexists _, _, _. split; [apply nm_new_inv|split; [constructor|intros b H; congruence]].
Qed.


(** ** The leaves *)
Lemma NI_leaves m b : NI m -> In b (leaves_of m) -> b < nr /\ P b /\ nm_get_type m b = NTLeaf.
Proof using Hdev Hptr Pdown.
  intros (c & hi & he & Hm & _ & HQ) H. unfold leaves_of in H. apply filter_In in H. destruct H as [H1 H2]. apply in_range in H1. rewrite (ni_lcap _ _ _ _ _ Hm) in H1.
  unfold bs_contains in H2. rewrite (ni_leaf _ _ _ _ _ Hm) in H2 by lia. apply Bool.andb_true_iff in H2. destruct H2 as [_ H2].
  destruct (nt_eqb_spec (c b) NTLeaf) as [E|]; [|discriminate]. conj; [lia|apply HQ; congruence|]. rewrite (nm_get_type_inv _ _ _ _ _ _ Hm). exact E.
Qed.
Lemma leaves_nodup (m : nmap) : NoDup (leaves_of m).
Proof using Hdev Hptr Pdown. unfold leaves_of. apply NoDup_filter, increasing_NoDup, range_increasing. Qed.
(** what a map says of the internal nodes, in terms of its history *)
Lemma inner_of_inv c hi he (m : nmap) b : nm_inv nr c hi he m ->
  inner_of m b = match c b with NTInternal => last_value hi b | _ => None end.
Proof using Hdev Hptr Pdown.
  intros Hm. unfold inner_of. rewrite (nm_get_type_inv _ _ _ _ _ _ Hm). destruct (c b); auto. destruct (ni_info _ _ _ _ _ Hm) as [ks Hk].
  rewrite (hv_get_inv _ _ _ b Hk). destruct (last_value hi b); auto.
Qed.
(** the state while the leaves are read: an error is recorded for a leaf at most *)
Definition same_inner (m m' : nmap) : Prop := forall b, inner_of m' b = inner_of m b.
Definition tgt (b : N) : list N :=
  match eng b with
  | Some data => match check_and_unpack_node bt_codec (mkblock b data) inf true with Ok (Leaf _ _ vs) => map bt_block vs | _ => [] end
  | None => []
  end.
Lemma leaf_step b m dsm ss : b < nr -> NI m -> nm_get_type m b = NTLeaf \/ nm_get_type m b = NTError ->
  exists m' dsm' ss', read_leaf eng inf b (m, dsm, ss) = Ok (m', dsm', ss') /\ NI m' /\ same_inner m m' /\
    (forall b', nm_get_type m' b' = nm_get_type m b' \/ (b' = b /\ nm_get_type m' b' = NTError)) /\
    (forall b', ss' b' = if (b' =? b) then match leaf_on eng inf b with Some ks => Some (sum_leaf ks) | None => ss b' end else ss b') /\
    dsm' = fold_left (fun s v => fst (wsm_inc s v 1)) (tgt b) dsm.
Proof using Hdev Hptr Pdown.
  intros Lb HN HT. assert (Eb : b mod W32 = b) by (apply N.mod_small; pose proof (proj1 Hdev); unfold W32; lia).
  assert (Hdata : forall vs s, inc_data vs s = fold_left (fun s v => fst (wsm_inc s v 1)) (map bt_block vs) s).
  { induction vs as [|v vs IH]; intros s; cbn [inc_data map fold_left]; auto. }
  assert (Hno : forall b', (if b' =? b then ss b' else ss b') = ss b') by (intros b'; destruct (b' =? b); auto).
  unfold read_leaf, leaf_on, tgt. destruct (eng b) as [data|] eqn:Ee.
  2:{ exists m, dsm, ss. conj; auto. intros x; auto. }
  destruct (check_and_unpack_node bt_codec (mkblock b data) inf true) as [[h ks vs|h ks vs]| |] eqn:Ec.
  - exists m, dsm, ss. conj; auto. intros x; auto.
  - exists m, (inc_data vs dsm), (upd ss (nh_block h mod W32) (Some (sum_leaf ks))). conj; auto; [intros x; auto|].
    intros b'. pose proof (check_raw _ _ _ _ _ _ Ec) as [_ Eh]. cbn [get_header] in Eh. rewrite Eh, Eb. unfold upd. reflexivity.
  - destruct HN as (c & hi & he & Hm & HF & HQ). rewrite (nm_get_type_inv _ _ _ _ _ b Hm) in HT. rewrite Eb.
    pose proof (nm_step_inv nr c hi he m (OpError b tt) (proj1 Hdev) Lb Hm) as S1. cbn [op_block op_type nm_step] in S1.
    destruct HT as [HT|HT]; rewrite HT in S1; cbn [accepts] in S1.
    + destruct S1 as (m2 & E2 & H2). rewrite E2. exists m2, dsm, ss. cbn [info_of] in H2. rewrite app_nil_r in H2. conj; auto.
      * eexists _, _, _. split; [exact H2|]. split; [exact HF|]. cbv beta. intros x. destruct (N.eqb_spec x b) as [E|E]; intros Hx; [|exact (HQ x Hx)].
        subst x. apply HQ. congruence.
      * intros x. rewrite (inner_of_inv _ _ _ _ x H2), (inner_of_inv _ _ _ _ x Hm). destruct (N.eqb_spec x b) as [E|E]; [|reflexivity]. subst x. rewrite HT. reflexivity.
      * intros x. rewrite (nm_get_type_inv _ _ _ _ _ x H2), (nm_get_type_inv _ _ _ _ _ x Hm). destruct (N.eqb_spec x b) as [E|E]; auto.
    + rewrite S1. exists m, dsm, ss. conj; auto; [eexists _, _, _; split; [exact Hm|auto]|intros x; auto].
  - exfalso. apply (check_nopanic b data Ee). exact Ec.
Qed.
Definition has (l : list N) (b : N) : bool := existsb (N.eqb b) l.
Lemma has_in l b : has l b = true <-> In b l.
Proof using. unfold has. rewrite existsb_exists. split; [intros (x & Hx & E); apply N.eqb_eq in E; subst; auto|]. intros H. exists b. split; [auto|apply N.eqb_refl]. Qed.
(** the leaves of [l] *)
Definition leaf_in (l : list N) (b : N) : option (list N) := if has l b then leaf_on eng inf b else None.
Lemma leaves_run bs : forall m dsm ss, (forall b, In b bs -> b < nr /\ (nm_get_type m b = NTLeaf \/ nm_get_type m b = NTError)) -> NI m ->
  exists m' dsm' ss', read_leaves eng inf bs (m, dsm, ss) = Ok (m', dsm', ss') /\ NI m' /\ same_inner m m' /\
    (forall b, ss' b = match leaf_in bs b with Some ks => Some (sum_leaf ks) | None => ss b end) /\
    dsm' = fold_left (fun s v => fst (wsm_inc s v 1)) (flat_map tgt bs) dsm.
Proof using Hdev Hptr Pdown.
  induction bs as [|b bs IH]; intros m dsm ss Hbs HN.
  - exists m, dsm, ss. conj; auto. intros x; auto.
  - cbn [read_leaves]. destruct (Hbs b (or_introl eq_refl)) as [Lb Hb].
    destruct (leaf_step b m dsm ss Lb HN Hb) as (m1 & d1 & s1 & E & N1 & I1 & T1 & S1 & D1).
    match goal with |- context [bind ?x _] => replace x with (Ok (m1, d1, s1) : res lst) by (symmetry; exact E) end. cbn [bind].
    destruct (IH m1 d1 s1) as (m2 & d2 & s2 & E2 & N2 & I2 & S2 & D2).
    { intros x Hx. destruct (Hbs x (or_intror Hx)) as [Lx Tx]. split; [exact Lx|]. destruct (T1 x) as [Ex|[_ Ex]]; rewrite Ex; auto. }
    { exact N1. }
    exists m2, d2, s2. conj; auto.
    + intros x. rewrite I2. apply I1.
    + intros x. rewrite S2, S1. unfold leaf_in, has. cbn [existsb]. destruct (N.eqb_spec x b) as [Ex|Ex]; cbn [orb]; [|reflexivity].
      subst x. destruct (existsb (N.eqb b) bs); auto. destruct (leaf_on eng inf b); auto.
    + cbn [flat_map]. rewrite fold_left_app, <- D1. exact D2.
Qed.

(** ** What the summaries say *)
Section Bottom.
Context (fuel : nat) (order : list N -> list N) (roots : list N).
Hypothesis Hord : forall l, Permutation (order l) l.
Hypothesis Hroots : forall r, In r roots -> P (r mod W32).

Lemma bottom_level msm dsm msm' dsm' ss : check_mappings_bottom_level nr eng inf fuel order roots msm dsm = (msm', dsm', Ok ss) ->
  exists L, NoDup L /\ (forall b, In b L -> b < nr /\ P b) /\ Inv inf (leaf_in L) (inner_on eng inf) ss /\
    dsm' = fold_left (fun s v => fst (wsm_inc s v 1)) (flat_map tgt (order L)) dsm.
Proof using Hdev Hptr Pdown Hord Hroots.
  unfold check_mappings_bottom_level. intros H. pose proof (NI_collect roots msm Hroots) as H1. destruct (collect_nodes_in_use _ _ _ _ _) as [[m1 nodes]| |]; try discriminate.
  cbn [snd] in H1. exists (leaves_of nodes).
  assert (HL : forall b, In b (order (leaves_of nodes)) <-> In b (leaves_of nodes)).
  { intros b. split; apply Permutation_in; [apply Hord|symmetry; apply Hord]. }
  destruct (leaves_run (order (leaves_of nodes)) nodes dsm (fun _ => None)) as (m2 & d2 & s2 & E2 & N2 & _ & S2 & D2).
  { intros b Hb. apply HL in Hb. destruct (NI_leaves nodes b H1 Hb) as (A & _ & B). auto. }
  { exact H1. }
  match type of H with context [read_leaves ?a ?b ?c ?d] => replace (read_leaves a b c d) with (Ok (m2, d2, s2) : res lst) in H by (symmetry; exact E2) end.
  destruct (count_mapped_blocks _ _ _ _ _) as [ss1|] eqn:Ec; [|discriminate].
  assert (ss1 = ss /\ d2 = dsm') as [-> ->] by (split; congruence). conj.
  - apply leaves_nodup.
  - intros b Hb. destruct (NI_leaves nodes b H1 Hb) as (A & B & _). auto.
  - assert (Hl : forall b ks, leaf_in (leaves_of nodes) b = Some ks -> leaf_on eng inf b = Some ks) by (intros b ks; unfold leaf_in; destruct (has _ b); congruence).
    eapply (count_inv m2 inf); [| | | | |exact Ec].
    + intros b x Hx. exact (NI_inner m2 b x N2 Hx).
    + intros b ks E. apply Hl in E. exact (disjoint_nodes b ks E).
    + intros b ks E. apply Hl in E. exact (leaf_facts b ks E).
    + exact inner_facts.
    + intros b s Hs. left. rewrite S2 in Hs. assert (EL : leaf_in (order (leaves_of nodes)) b = leaf_in (leaves_of nodes) b).
      { unfold leaf_in. destruct (has (order _) b) eqn:Eh, (has (leaves_of nodes) b) eqn:Eh'; auto.
        - apply has_in in Eh. apply HL in Eh. apply has_in in Eh. congruence.
        - apply has_in in Eh'. apply HL in Eh'. apply has_in in Eh'. congruence. }
      rewrite EL in Hs. destruct (leaf_in (leaves_of nodes) b) as [ks|]; [|discriminate]. exists ks. split; [auto|congruence].
  - exact D2.
Qed.
End Bottom.
End Dev.

(** ** The summaries depend only on what the map says *)
Lemma summarize_ext (nodes nodes' : nmap) inf : (forall b, inner_of nodes' b = inner_of nodes b) ->
  forall fuel is_root kr root ss ss', (forall b, ss b = ss' b) ->
  match summarize_tree nodes inf fuel is_root kr root ss, summarize_tree nodes' inf fuel is_root kr root ss' with
  | Some (s1, x1), Some (s2, x2) => x1 = x2 /\ forall b, s1 b = s2 b
  | None, None => True
  | _, _ => False
  end.
Proof.
  intros Hi. induction fuel as [|fuel IH]; intros is_root kr root ss ss' Hs; [exact I|].
  assert (U : forall n fuel is_root kr root ss, ss root = None -> summarize_tree n inf (S fuel) is_root kr root ss =
    match inner_of n root with
    | Some (keys, children) =>
        if negb inf && negb is_root && (nlen keys <? MIN_ENTRIES) then Some (ss, sum_error)
        else match split_key_ranges kr keys with
             | Ok krs => match sum_children (summarize_tree n inf fuel false) krs children sum_default ss with
                         | None => None
                         | Some (ss, sum) => Some (upd ss root (Some sum), sum)
                         end
             | _ => Some (ss, sum_error)
             end
    | None => Some (ss, sum_error)
    end).
  { clear. intros n fuel is_root kr root ss E. cbn [summarize_tree]. rewrite E. unfold inner_of. destruct (nm_get_type n root); auto.
    destruct (hv_get _ _) as [[[ks cs]|]| |]; auto. }
  destruct (ss root) as [x|] eqn:Er.
  - cbn [summarize_tree]. rewrite <- Hs, Er. split; auto.
  - rewrite U by exact Er. rewrite U by (rewrite <- Hs; exact Er). rewrite Hi.
    destruct (inner_of nodes root) as [[ks cs]|]; [|split; auto]. destruct (_ && _); [split; auto|]. destruct (split_key_ranges kr ks) as [krs| |]; try (split; auto; fail).
    assert (C : forall krs cs acc ss ss', (forall b, ss b = ss' b) ->
      match sum_children (summarize_tree nodes inf fuel false) krs cs acc ss, sum_children (summarize_tree nodes' inf fuel false) krs cs acc ss' with
      | Some (s1, x1), Some (s2, x2) => x1 = x2 /\ forall b, s1 b = s2 b
      | None, None => True
      | _, _ => False
      end).
    { clear - IH. induction krs as [|kr krs IHk]; intros [|c cs] acc ss ss' Hs; cbn [sum_children]; try (split; auto; fail).
      specialize (IH false kr c ss ss' Hs). destruct (summarize_tree nodes _ _ _ _ _ _) as [[s1 x1]|], (summarize_tree nodes' _ _ _ _ _ _) as [[s2 x2]|]; try (exfalso; exact IH); [|exact I].
      destruct IH as [-> IH]. apply IHk. exact IH. }
    specialize (C krs cs sum_default ss ss' Hs). destruct (sum_children _ krs cs _ ss) as [[s1 x1]|], (sum_children _ krs cs _ ss') as [[s2 x2]|]; try (exfalso; exact C); [|exact I].
    destruct C as [-> C]. split; [reflexivity|]. intros b. unfold upd. destruct (b =? root); auto.
Qed.
Lemma count_ext (nodes nodes' : nmap) inf fuel : (forall b, inner_of nodes' b = inner_of nodes b) ->
  forall roots ss ss', (forall b, ss b = ss' b) ->
  match count_mapped_blocks nodes inf fuel roots ss, count_mapped_blocks nodes' inf fuel roots ss' with
  | Some s1, Some s2 => forall b, s1 b = s2 b
  | None, None => True
  | _, _ => False
  end.
Proof.
  intros Hi. induction roots as [|r roots IH]; intros ss ss' Hs; cbn [count_mapped_blocks]; auto.
  pose proof (summarize_ext nodes nodes' inf Hi fuel true full_range (r mod W32) ss ss' Hs) as E.
  destruct (summarize_tree nodes _ _ _ _ _ _) as [[s1 x1]|], (summarize_tree nodes' _ _ _ _ _ _) as [[s2 x2]|]; try (exfalso; exact E); [|exact I].
  apply IH, E.
Qed.

(** ** Counting *)
Definition wcapped (s : wsm) : Prop := forall b, b < wsm_nr s -> wcount s b <= wmax s.
Lemma inc_one s x : x + 1 < W64 -> wcapped s -> let s' := fst (wsm_inc s x 1) in
  wsm_nr s' = wsm_nr s /\ wmax s' = wmax s /\ wcapped s' /\
  forall b, wcount s' b = if (b =? x) && (x <? wsm_nr s) then N.min (wmax s) (wcount s b + 1) else wcount s b.
Proof.
  intros Hx Hv. destruct s as [s|r]; cbn [wsm_inc].
  - unfold sm_inc. rewrite N.mod_small by exact Hx. cbn [wsm_nr wmax wcount] in *. unfold wcapped in Hv. cbn [wcount wmax wsm_nr] in Hv.
    destruct (N.ltb_spec (sm_nr s) (x + 1)) as [L|L].
    + cbn [fst wsm_nr wmax wcount]. conj; auto. intros b. replace (x <? sm_nr s) with false by (symmetry; apply N.ltb_ge; lia). rewrite Bool.andb_false_r. reflexivity.
    + assert (ER : range x (x + 1) = [x]) by (rewrite range_cons by lia; rewrite range_nil by lia; reflexivity). rewrite ER. cbn [sm_inc_loop].
      replace (x <? sm_nr s) with true by (symmetry; apply N.ltb_lt; lia). rewrite ?Bool.andb_true_r.
      destruct (N.leb_spec (sm_max s) (sm_counts s x)) as [M|M]; cbn [fst wsm_nr wmax wcount sm_nr sm_max sm_counts].
      * conj; auto. intros b. rewrite Bool.andb_true_r. destruct (N.eqb_spec b x) as [E|E]; [|reflexivity]. subst b. specialize (Hv x ltac:(lia)). lia.
      * conj; auto.
        -- intros b Lb. cbn [wsm_nr sm_nr] in Lb. cbn [wcount wmax sm_counts sm_max]. unfold upd. destruct (b =? x); [lia|apply Hv; exact Lb].
        -- intros b. unfold upd. rewrite Bool.andb_true_r. destruct (N.eqb_spec b x) as [E|E]; [|reflexivity]. subst b. lia.
  - unfold rsm_inc. replace ((x + 1) mod W64) with (x + 1) by (symmetry; apply N.mod_small; exact Hx). replace ((x + 1 + (W64 - 1)) mod W64) with x.
    2:{ replace (x + 1 + (W64 - 1)) with (x + 1 * W64) by (unfold W64; lia). rewrite N.mod_add by discriminate. symmetry. apply N.mod_small. lia. }
    cbn [wsm_nr wmax wcount]. destruct (N.leb_spec (r_nr r) x) as [L|L].
    + cbn [fst wsm_nr wmax wcount]. conj; auto. intros b. replace (x <? r_nr r) with false by (symmetry; apply N.ltb_ge; lia). rewrite Bool.andb_false_r. reflexivity.
    + assert (ER : range x (x + 1) = [x]) by (rewrite range_cons by lia; rewrite range_nil by lia; reflexivity). rewrite ER. cbn [fold_left fst].
      replace (x <? r_nr r) with true by (symmetry; apply N.ltb_lt; lia).
      destruct (r_bits r x) eqn:Eb; cbn [wsm_nr wmax wcount r_nr r_bits].
      * conj; auto. intros b. rewrite Bool.andb_true_r. destruct (N.eqb_spec b x) as [E|E]; [|reflexivity]. subst b. rewrite Eb. reflexivity.
      * conj; auto.
        -- intros b Lb. cbn [wcount wmax r_bits]. unfold upd. destruct (b =? x); [lia|]. destruct (r_bits r b); lia.
        -- intros b. unfold upd. rewrite Bool.andb_true_r. destruct (N.eqb_spec b x) as [E|E]; [|reflexivity]. subst b. rewrite Eb. reflexivity.
Qed.
Lemma inc_all vs : forall s, (forall v, In v vs -> v + 1 < W64) -> wcapped s -> let s' := fold_left (fun s v => fst (wsm_inc s v 1)) vs s in
  wsm_nr s' = wsm_nr s /\ wmax s' = wmax s /\ wcapped s' /\
  forall b, b < wsm_nr s -> wcount s' b = N.min (wmax s) (wcount s b + nlen (filter (N.eqb b) vs)).
Proof.
  induction vs as [|v vs IH]; intros s Hv Hs; cbn [fold_left].
  - conj; auto. intros b Hb. cbn [filter nlen length]. specialize (Hs b Hb). unfold nlen. cbn [length]. lia.
  - destruct (inc_one s v (Hv v (or_introl eq_refl)) Hs) as (A1 & A2 & A3 & A4).
    destruct (IH (fst (wsm_inc s v 1)) (fun x Hx => Hv x (or_intror Hx)) A3) as (B1 & B2 & B3 & B4). cbv zeta. conj; [congruence|congruence|exact B3|].
    intros b Hb. rewrite B4 by congruence. rewrite A2, A4. cbn [filter]. specialize (Hs b Hb). destruct (N.eqb_spec b v) as [E|E]; cbn [andb]; [|lia].
    subst v. replace (b <? wsm_nr s) with true by (symmetry; apply N.ltb_lt; lia). rewrite nlen_cons. lia.
Qed.
Lemma tgt_small nr eng inf b v : device_of nr eng -> In v (tgt eng inf b) -> v + 1 < W64.
Proof.
  intros Hd H. unfold tgt in H. destruct (eng b) as [data|] eqn:E; [|destruct H]. destruct (check_and_unpack_node _ _ _ _) as [[|h ks vs]| |] eqn:Ec; try (exfalso; exact H).
  apply check_raw in Ec. destruct Ec as [Ec _]. destruct (proj2 Hd b data E) as (_ & Hl & Hb).
  destruct (unpack_node_sound bt_codec bt_range data inf true (Leaf h ks vs)) as [L _]; auto; [apply bt_lossless|reflexivity|unfold nlen; rewrite Hl; reflexivity|].
  unfold node_layout in L. cbn [get_header get_keys] in L. destruct L as (_ & _ & _ & _ & _ & Hn & _ & (_ & Hv & _ & _ & Hr)).
  apply in_map_iff in H. destruct H as (x & <- & Hx). apply In_nth_error in Hx. destruct Hx as [i Hi].
  assert (Li : (i < length vs)%nat) by (apply nth_error_Some; congruence).
  destruct (Hr (N.of_nat i) x) as [[R _] _]; [unfold nlen in Hv; lia|rewrite Nat2N.id; exact Hi|]. unfold W64. change (2 ^ 40) with 1099511627776 in R. lia.
Qed.

(** ** The fuel of [get_depth] is enough *)
Lemma depth_fuel nr eng : device_of nr eng -> forall fuel path root is_root, NoDup path -> (forall x, In x path -> x < nr \/ x = root) ->
  (N.to_nat nr + 2 <= length path + fuel)%nat -> get_depth eng (S fuel) path root is_root = get_depth eng fuel path root is_root.
Proof.
  intros Hd. induction fuel as [|fuel IH]; intros path root is_root HN Hp Hl.
  - cbn [get_depth]. destruct (eng root) as [data|] eqn:E; [|reflexivity]. exfalso. destruct (proj2 Hd root data E) as [Lr _].
    assert (nlen path <= nr).
    { apply nodup_bound; [auto|]. apply Forall_forall. intros x Hx. destruct (Hp x Hx); subst; auto. }
    unfold nlen in H. lia.
  - cbn [get_depth] in IH |- *. destruct (eng root) as [data|] eqn:E; [|reflexivity]. destruct (proj2 Hd root data E) as [Lr _].
    destruct (check_and_unpack_node _ _ _ _) as [[h ks vs|h ks vs]| |]; auto. clear E. induction vs as [|v vs IHv]; [reflexivity|].
    rewrite IHv. destruct (existsb (N.eqb v) path) eqn:Ev; [reflexivity|]. rewrite <- IH; [reflexivity| | |].
    + apply NoDup_app_iff_local. conj; [auto|constructor; [intros []|constructor]|]. intros x Hx [<-|[]]. rewrite <- Bool.not_true_iff_false in Ev. apply Ev.
      apply existsb_exists. exists v. split; [auto|apply N.eqb_refl].
    + intros x Hx. apply in_app_iff in Hx. destruct Hx as [Hx|[<-|[]]]; [|auto]. left. destruct (Hp x Hx); subst; auto.
    + rewrite app_length. cbn [length]. lia.
Qed.
Lemma depth_enough nr eng : device_of nr eng -> forall root is_root k,
  get_depth eng (k + S (S (N.to_nat nr)))%nat [] root is_root = get_depth eng (S (S (N.to_nat nr))) [] root is_root.
Proof.
  intros Hd root is_root. induction k as [|k IH]; [reflexivity|]. cbn [Nat.add]. rewrite (depth_fuel nr eng Hd); [exact IH|constructor|intros x []|cbn [length]; lia].
Qed.
