(** cache/writeback.rs: updating the metadata. *)
From Verif Require Import IoMany_Proofs SpaceMap_Proofs Base Csum_Model Codec_Model Codec_Spec Codec_Proofs Pack_Proofs SpaceMap_Model SmWrite_Model SmMeta_Proofs Utils_Model Utils_Proofs Batcher_Model Builder_Model Builder_Spec Builder_Proofs BtreeBuild_Proofs Walker_Model Walker_Spec Walker_Proofs WalkTree_Proofs Props_Walker Array_Model Array_Spec Array_Proofs ArrayWalk_Proofs Props_Array Copier_Model Writeback_Model Writeback_Spec WritebackSel_Proofs WritebackCopy_Proofs.

(** ** What the reader returns is in range *)
Lemma unpack_range {V} (c : codec V) rg data a : lossless c rg -> bytes data -> unpack_array_block c data = Ok a -> Forall rg (ab_values a).
Proof.
  intros L Hb H. unfold unpack_array_block in H. inv_bind H. destruct a0 as [h i].
  assert (Hi : bytes i).
  { unfold ah_unpack in E. inv_bind E. destruct a0 as [x1 i1]. inv_bind E. destruct a0 as [x2 i2]. inv_bind E. destruct a0 as [x3 i3]. inv_bind E. destruct a0 as [x4 i4].
    inv_bind E. destruct a0 as [x5 i5]. apply Ok_inj in E. injection E as _ <-.
    apply p_le_inv in E0 as (a0 & -> & _). apply p_le_inv in E1 as (a1 & -> & _). apply p_le_inv in E2 as (a2 & -> & _). apply p_le_inv in E3 as (a3 & -> & _). apply p_le_inv in E4 as (a4 & -> & _).
    rewrite !bytes_app in Hb. tauto. }
  destruct (negb _); [discriminate|]. destruct (4096 <? _); [discriminate|]. destruct (ah_max h <? ah_nr h); [discriminate|].
  inv_bind H. destruct a0 as [vs r]. apply Ok_inj in H. subst a. cbn [ab_values]. clear - L Hi E0.
  revert i vs r Hi E0. induction (N.to_nat (ah_nr h)) as [|n IH]; intros i vs r Hi H; cbn [p_count] in H.
  - apply Ok_inj in H. injection H as <- _. constructor.
  - destruct (Nat.lt_ge_cases (length i) (csize c)) as [Hs|Hs]; [rewrite (ll_short _ _ L) in H by auto; discriminate|].
    assert (Hb2 : bytes (firstn (csize c) i) /\ bytes (skipn (csize c) i)). { rewrite <- (firstn_skipn (csize c) i) in Hi. apply bytes_app in Hi. exact Hi. } destruct Hb2 as [B1 B2].
    destruct (ll_onto _ _ L (firstn (csize c) i) B1) as (v & Hv & Ev). { rewrite firstn_length. lia. }
    rewrite <- (firstn_skipn (csize c) i), <- Ev, (ll_round _ _ L) in H by auto. cbn [bind] in H. inv_bind H. destruct a as [vs' r']. apply Ok_inj in H. injection H as <- _.
    constructor; auto. eapply IH; eauto.
Qed.

(** ** Indexed map *)
Fixpoint mapi {V} (f : N -> V -> V) (i : N) (l : list V) : list V := match l with [] => [] | x :: r => f i x :: mapi f (i + 1) r end.
Lemma mapi_length {V} (f : N -> V -> V) l : forall i, length (mapi f i l) = length l.
Proof. induction l as [|x l IH]; intros i; cbn; auto. Qed.
Lemma mapi_nth {V} (f : N -> V -> V) l : forall i k, nth_error (mapi f i l) k = option_map (f (i + N.of_nat k)) (nth_error l k).
Proof.
  induction l as [|x l IH]; intros i [|k]; cbn [mapi nth_error option_map]; auto; [rewrite N.add_0_r; auto|]. rewrite IH. replace (i + 1 + N.of_nat k) with (i + N.of_nat (S k)) by lia. reflexivity.
Qed.
Lemma mapi_app {V} (f : N -> V -> V) a : forall b i, mapi f i (a ++ b) = mapi f i a ++ mapi f (i + nlen a) b.
Proof.
  induction a as [|x a IH]; intros b i; cbn [mapi app]; [unfold nlen; cbn [length]; rewrite N.add_0_r; auto|]. rewrite IH. do 3 f_equal. unfold nlen. cbn [length]. lia.
Qed.
Lemma mapi_ext {V} (f g : N -> V -> V) l : forall i, (forall k v, i <= k < i + nlen l -> f k v = g k v) -> mapi f i l = mapi g i l.
Proof.
  induction l as [|x l IH]; intros i H; cbn [mapi]; auto. assert (nlen (x :: l) = 1 + nlen l) by (unfold nlen; cbn [length]; lia). f_equal; [apply H; lia|apply IH; intros; apply H; lia].
Qed.
Lemma mapi_id {V} (f : N -> V -> V) l i : (forall k v, i <= k < i + nlen l -> f k v = v) -> mapi f i l = l.
Proof. intros H. rewrite (mapi_ext f (fun _ v => v)) by auto. clear. revert i. induction l as [|x l IH]; intros i; cbn [mapi]; auto. f_equal. apply IH. Qed.
Lemma mapi_forall {V} (P : V -> Prop) (f : N -> V -> V) l : (forall k v, P v -> P (f k v)) -> forall i, Forall P l -> Forall P (mapi f i l).
Proof. intros H. induction l as [|x l IH]; intros i HF; cbn [mapi]; auto. inversion HF; subst. constructor; auto. Qed.
Lemma vec_update_mapi {V} (f f' : N -> V -> V) g l : forall i k v, nth_error l k = Some v -> g (f (i + N.of_nat k) v) = f' (i + N.of_nat k) v ->
  (forall j v, j <> i + N.of_nat k -> f j v = f' j v) -> vec_update (mapi f i l) k g = Ok (mapi f' i l).
Proof.
  induction l as [|x l IH]; intros i [|k] v Hn Hg Ho; cbn [nth_error mapi vec_update] in *; try discriminate.
  - injection Hn as ->. rewrite N.add_0_r in *. rewrite Hg. f_equal. f_equal. apply mapi_ext. intros. apply Ho. lia.
  - rewrite (IH (i + 1) k v); auto; [cbn [bind]; do 2 f_equal; apply Ho; lia| |].
    + replace (i + 1 + N.of_nat k) with (i + N.of_nat (S k)) by lia. exact Hg.
    + intros j w Hj. apply Ho. lia.
Qed.

(** ** Writing one array block *)
Lemma write_ablock_spec {V} (c : codec V) rg e loc old vs v : lossless c rg -> (0 < csize c <= 4072)%nat -> bytes old -> nlen old = 4096 -> loc < 2 ^ 64 ->
  nlen vs <= array_per c -> Forall rg vs ->
  exists blk, write_ablock c e loc old (blk_of c loc vs) v = eng_write e loc blk v /\ forall d, d loc = blk -> array_block_at c d loc vs.
Proof.
  intros L Hc Hb Hl Hloc Hn Hr. destruct (array_block_roundtrip c rg old loc vs L Hc Hb Hl Hloc Hn Hr) as (data & blk & H1 & H2 & H3 & H4 & H5 & H6).
  exists blk. unfold write_ablock. unfold blk_of. rewrite H1. cbn [bind]. rewrite H2. split; auto. intros d Ed. unfold array_block_at. rewrite Ed. conj; auto.
Qed.

Section Update.
Context {V : Type}.
Variables (c : codec V) (rg : V -> Prop) (unit : N) (f : list N -> N -> V -> V) (e : menv) (d : disk) (blocks : list N) (vss : list (list V)).
Notation per := (array_per c).
Hypothesis L : lossless c rg.
Hypothesis Hcs : (0 < csize c <= 4072)%nat.
Hypothesis f_nil : forall i v, f [] i v = v.
Hypothesis f_other : forall cl x i v, x / unit <> i -> f (cl ++ [x]) i v = f cl i v.
Hypothesis f_rg : forall cl i v, rg v -> rg (f cl i v).
Hypothesis HF : Forall2 (array_block_at c d) blocks vss.
Hypothesis HP : packed_in per vss.
Hypothesis HN : NoDup blocks.

(** The array block of a bit or an entry. *)
Definition home (x : N) : N := x / unit / per.

Lemma f_rest rest : forall done i v, (forall x, In x rest -> x / unit <> i) -> f (done ++ rest) i v = f done i v.
Proof using All.
  induction rest as [|x rest IH]; intros done i v H; [rewrite app_nil_r; auto|].
  replace (done ++ x :: rest) with ((done ++ [x]) ++ rest) by (rewrite <- app_assoc; auto). rewrite IH by (intros; apply H; right; auto). apply f_other. apply H. left. auto.
Qed.
Lemma f_none cl i v : (forall x, In x cl -> x / unit <> i) -> f cl i v = v.
Proof using All. intros H. rewrite <- (app_nil_l cl), f_rest by auto. apply f_nil. Qed.

(** The values block [j] should have. *)
Definition target (cl : list N) (j : nat) (vs : list V) : list V := mapi (f cl) (N.of_nat j * per) vs.
Lemma per_pos : 0 < per. Proof using All. apply array_per_pos. auto. Qed.
Lemma home_of k j x : N.of_nat j * per <= k < N.of_nat j * per + per -> x / unit = k -> home x = N.of_nat j.
Proof using All. intros H E. unfold home. rewrite E. pose proof per_pos. symmetry. apply (N.div_unique k per (N.of_nat j) (k - N.of_nat j * per)); lia. Qed.
Lemma vs_le : forall j vs, nth_error vss j = Some vs -> nlen vs <= per.
Proof using All.
  clear - HP. revert HP. induction vss as [|x l IH]; intros HP [|j] vs H; cbn [nth_error packed_in] in *; try discriminate; [injection H as <-; tauto|]. apply (IH ltac:(tauto) j). auto.
Qed.
Lemma target_rest done rest j vs : nlen vs <= per -> (forall x, In x rest -> home x <> N.of_nat j) -> target (done ++ rest) j vs = target done j vs.
Proof using All.
  intros Hl H. apply mapi_ext. intros k v Hk. apply f_rest. intros x Hx E. apply (H x Hx). eapply home_of; [|exact E]. lia.
Qed.
Lemma target_none cl j vs : nlen vs <= per -> (forall x, In x cl -> home x <> N.of_nat j) -> target cl j vs = vs.
Proof using All.
  intros Hl H. apply mapi_id. intros k v Hk. apply f_none. intros x Hx E. apply (H x Hx). eapply home_of; [|exact E]. lia.
Qed.

(** Blocks before [index] are updated, the others as they were. *)
Definition reached (v : mdev) (index : nat) (cl : list N) : Prop :=
  (forall b, ~ In b blocks -> v_disk v b = d b) /\
  forall j b vs, nth_error blocks j = Some b -> nth_error vss j = Some vs ->
    if (j <? index)%nat then array_block_at c (v_disk v) b (target cl j vs) else v_disk v b = d b.

Lemma in_block j b vs : nth_error blocks j = Some b -> nth_error vss j = Some vs -> array_block_at c d b vs.
Proof using All.
  clear - HF. revert j b vs. induction HF as [|x y l k H H' IH]; intros [|n] b vs Hb Hv; cbn [nth_error] in *; try discriminate; [congruence|eauto].
Qed.
Lemma at_same d' b vs : d' b = d b -> array_block_at c d b vs -> array_block_at c d' b vs.
Proof using. unfold array_block_at. intros ->. auto. Qed.
Lemma reached_skip v i k cl : reached v i cl -> (i <= k)%nat -> (forall x, In x cl -> ~ (N.of_nat i <= home x < N.of_nat k)) -> reached v k cl.
Proof using All.
  intros [R1 R2] Hik Hx. split; auto. intros j b vs Hb Hv. specialize (R2 j b vs Hb Hv).
  destruct (Nat.ltb_spec j i) as [Hji|Hji]; destruct (Nat.ltb_spec j k) as [Hjk|Hjk]; auto; [lia|].
  rewrite target_none; [apply at_same; auto; eapply in_block; eauto|eapply vs_le; eauto|]. intros x H E. apply (Hx x H). lia.
Qed.
(** Writing the block in hand. *)
Lemma reached_write v index b vs done rest old : nth_error blocks index = Some b -> nth_error vss index = Some vs -> b < 2 ^ 64 ->
  reached v index (done ++ rest) -> (forall x, In x rest -> home x <> N.of_nat index) -> bytes old -> nlen old = 4096 ->
  exists v', (write_ablock c e b old (blk_of c b (target done index vs)) v = (v', Ok tt) /\ e_wr e (v_nw v) = true /\ reached v' (S index) (done ++ rest)) \/
    (write_ablock c e b old (blk_of c b (target done index vs)) v = (v', Err) /\ e_wr e (v_nw v) = false /\ v_disk v' = upd (v_disk v) b (e_wjunk e (v_nw v))).
Proof using All.
  intros Hb Hv Hlt [R1 R2] Hrest Hob Hol. pose proof (in_block _ _ _ Hb Hv) as HA. pose proof (vs_le _ _ Hv) as Hle.
  assert (Hrg : Forall rg vs). { destruct HA as (A1 & _ & _ & A4). apply (unpack_range c rg _ _ L A1 A4). }
  destruct (write_ablock_spec c rg e b old (target done index vs) v L Hcs Hob Hol Hlt) as (blk & E & Hat).
  { unfold target, nlen. rewrite mapi_length. exact Hle. } { unfold target. apply mapi_forall; auto. }
  rewrite E. unfold eng_write. destruct (e_wr e (v_nw v)) eqn:Ew; eexists; [left|right]; (split; [reflexivity|split; [reflexivity|]]); [|reflexivity].
  cbn [v_disk]. split; [intros x Hx; cbn [v_disk]; rewrite upd_spec; destruct (N.eqb_spec x b) as [->|]; [exfalso; apply Hx; eapply nth_error_In; eauto|auto]|].
  intros j b' vs' Hb' Hv'. cbn [v_disk]. destruct (Nat.eq_dec j index) as [->|Hne].
  - rewrite Hb in Hb'. injection Hb' as <-. rewrite Hv in Hv'. injection Hv' as <-. destruct (Nat.ltb_spec index (S index)); [|lia].
    rewrite target_rest by auto. apply Hat. rewrite upd_spec, N.eqb_refl. auto.
  - assert (Hbb : b' <> b). { intros ->. apply Hne. eapply (proj1 (NoDup_nth_error blocks)); eauto; [apply nth_error_Some; congruence|congruence]. }
    specialize (R2 j b' vs' Hb' Hv'). assert (Eu : upd (v_disk v) b blk b' = v_disk v b') by (rewrite upd_spec; destruct (N.eqb_spec b' b); [congruence|auto]).
    destruct (Nat.ltb_spec j index) as [Hj|Hj]; destruct (Nat.ltb_spec j (S index)) as [Hj'|Hj']; try lia.
    + unfold array_block_at in *. rewrite Eu. exact R2.
    + rewrite Eu. exact R2.
Qed.
(** The end. *)
Lemma reached_all v cl root vs foot depth : reached v (length blocks) cl -> concat vss = vs ->
  tree u64_codec d true depth root (combine (range 0 (nlen blocks)) blocks) foot -> (forall b, In b foot -> ~ In b blocks) ->
  array_at c (v_disk v) root (mapi (f cl) 0 vs) foot blocks.
Proof using All.
  intros [R1 R2] Ec HT Hdis. pose proof per_pos as Hp.
  exists depth. pose proof (Forall2_length _ _ _ HF) as HL.
  (* the new values, block by block *)
  assert (G : forall (bs : list N) k s, Forall2 (array_block_at c d) bs k -> packed_in per k ->
    (forall j b vs, nth_error bs j = Some b -> nth_error k j = Some vs -> array_block_at c (v_disk v) b (target cl (s + j) vs)) ->
    exists k', Forall2 (array_block_at c (v_disk v)) bs k' /\ map (@nlen V) k' = map (@nlen V) k /\ concat k' = mapi (f cl) (N.of_nat s * per) (concat k)).
  { clear - Hp. induction bs as [|b bs IH]; intros k s HF HP Hat; inversion HF as [|? vs ? k1 Hb HF']; subst.
    - exists []. conj; auto.
    - destruct HP as (P1 & P2 & P3 & P4). destruct (IH k1 (S s) HF' P4) as (k' & K1 & K2 & K3).
      { intros j b' vs' H1 H2. replace (S s + j)%nat with (s + S j)%nat by lia. apply Hat; auto. }
      exists (target cl s vs :: k'). conj.
      + constructor; auto. specialize (Hat 0%nat b vs eq_refl eq_refl). rewrite Nat.add_0_r in Hat. exact Hat.
      + cbn [map]. rewrite K2. f_equal. unfold target, nlen. rewrite mapi_length. auto.
      + cbn [concat]. rewrite K3, mapi_app. unfold target. f_equal. destruct k1 as [|v2 k1]; [reflexivity|]. rewrite P3 by discriminate. f_equal. lia. }
  destruct (G blocks vss 0%nat HF HP) as (k' & K1 & K2 & K3).
  { intros j b vs' H1 H2. specialize (R2 j b vs' H1 H2). assert (Hj : (j < length blocks)%nat) by (apply nth_error_Some; congruence). destruct (Nat.ltb_spec j (length blocks)); [exact R2|lia]. }
  exists k'. conj; auto.
  - eapply tree_frame; [|exact HT]. intros x Hx. apply R1. auto.
  - rewrite K3, Ec. reflexivity.
  - intros j Hj. assert (HLk : length k' = length vss) by (rewrite <- (map_length (@nlen V) k'), K2, map_length; auto).
    assert (E1 : forall j, nlen (nth j k' []) = nlen (nth j vss [])).
    { intros i. pose proof (map_nth (@nlen V) k' [] i) as Q1. pose proof (map_nth (@nlen V) vss [] i) as Q2. rewrite K2 in Q1. rewrite Q2 in Q1. symmetry. exact Q1. }
    unfold nlen at 2. rewrite mapi_length. fold (nlen vs). rewrite E1. rewrite <- Ec. clear - HP Hj HLk Hp E1. rewrite HLk in Hj.
    assert (G : forall (k : list (list V)) j, packed_in per k -> (j < length k)%nat -> nlen (nth j k []) = N.min (nlen (concat k) - N.of_nat j * per) per /\ nth j k [] <> []).
    { clear - Hp. induction k as [|x k IH]; intros j HP Hj; cbn [length] in Hj; [lia|]. destruct HP as (P1 & P2 & P3 & P4). cbn [concat].
      assert (E : nlen (x ++ concat k) = nlen x + nlen (concat k)) by (unfold nlen; rewrite app_length; lia). rewrite E. destruct j as [|j]; cbn [nth].
      - split; auto. destruct k as [|y k]; [cbn [concat]; unfold nlen in *; cbn [length]; lia|]. rewrite P3 in * by discriminate. lia.
      - destruct (IH j P4 ltac:(lia)) as [I1 I2]. split; auto. rewrite I1. rewrite P3 by (destruct k; [cbn in Hj; lia|discriminate]). f_equal. lia. }
    destruct (G vss j HP Hj) as [G1 G2]. split; [exact G1|]. intros E. specialize (E1 j). rewrite E in E1. destruct (nth j vss []) eqn:En; [congruence|]. unfold nlen in E1. cbn [length] in E1. lia.
Qed.
End Update.

(** After a failed write: the block of that write may hold anything, every other array block
    is as it was or has its new values. *)
Definition torn {V} (c : codec V) (f : list N -> N -> V -> V) (e : menv) (d d' : disk) (blocks : list N) (vss : list (list V)) (cl : list N) : Prop :=
  (forall b, ~ In b blocks -> d' b = d b) /\
  exists bad n, In bad blocks /\ e_wr e n = false /\ d' bad = e_wjunk e n /\
    forall j b vs, nth_error blocks j = Some b -> nth_error vss j = Some vs -> b <> bad ->
      d' b = d b \/ array_block_at c d' b (target c f cl j vs).
Lemma reached_torn {V} (c : codec V) f e d blocks vss v v' index b cl n : reached c f d blocks vss v index cl -> In b blocks ->
  e_wr e n = false -> v_disk v' = upd (v_disk v) b (e_wjunk e n) -> torn c f e d (v_disk v') blocks vss cl.
Proof.
  intros [R1 R2] Hb Hn E. rewrite E. split.
  - intros x Hx. rewrite upd_spec. destruct (N.eqb_spec x b) as [->|]; [contradiction|auto].
  - exists b, n. conj; auto. { rewrite upd_spec, N.eqb_refl. auto. }
    intros j x vs H1 H2 Hne. assert (Eu : upd (v_disk v) b (e_wjunk e n) x = v_disk v x) by (rewrite upd_spec; destruct (N.eqb_spec x b); [congruence|auto]).
    specialize (R2 j x vs H1 H2). unfold array_block_at in *. rewrite Eu. destruct (j <? index)%nat; auto.
Qed.

(** ** Version 1 *)
Definition f1 (cl : list N) (i : N) (m : cmapping) : cmapping := if rb_mem i cl then cm_set_dirty m false else m.
Lemma f1_nil i v : f1 [] i v = v. Proof. reflexivity. Qed.
Lemma rb_mem_snoc cl x i : rb_mem i (cl ++ [x]) = rb_mem i cl || (i =? x).
Proof. unfold rb_mem. rewrite existsb_app. cbn [existsb]. rewrite orb_false_r. auto. Qed.
Lemma f1_other cl x i v : x / 1 <> i -> f1 (cl ++ [x]) i v = f1 cl i v.
Proof. rewrite N.div_1_r. intros H. unfold f1. rewrite rb_mem_snoc. destruct (N.eqb_spec i x); [congruence|]. rewrite orb_false_r. auto. Qed.
Lemma land_le a b : N.land a b <= a.
Proof. apply N.ldiff_le. apply N.bits_inj. intros k. rewrite N.ldiff_spec, N.land_spec, N.bits_0. destruct (N.testbit a k), (N.testbit b k); reflexivity. Qed.
Lemma f1_rg cl i v : cm_range v -> cm_range (f1 cl i v).
Proof.
  unfold f1. destruct (rb_mem i cl); auto. intros [H1 H2]. unfold cm_range, cm_set_dirty. cbn [cm_oblock cm_flags]. split; auto.
  pose proof (land_le (cm_flags v) (N.lxor (W32 - 1) 2)). lia.
Qed.

Section V1.
Variables (e : menv) (d : disk) (blocks : list N) (vss : list (list cmapping)).
Hypothesis HF : Forall2 (array_block_at cm_codec d) blocks vss.
Hypothesis HP : packed_in 509 vss.
Hypothesis HN : NoDup blocks.
Hypothesis Hrd : readable e blocks.
Hypothesis Hnr : e_nr e < 2 ^ 64.
Notation reached1 := (reached cm_codec f1 d blocks vss).
Notation target1 := (target cm_codec f1).

Lemma at_facts b vs : array_block_at cm_codec d b vs -> bytes (d b) /\ nlen (d b) = 4096.
Proof using. intros (H1 & H2 & _). auto. Qed.
Lemma v1_write v index b vs done rest : nth_error blocks index = Some b -> nth_error vss index = Some vs ->
  reached1 v index (done ++ rest) -> (forall x, In x rest -> x / 509 <> N.of_nat index) ->
  exists v', (write_ablock cm_codec e b (d b) (blk_of cm_codec b (target1 done index vs)) v = (v', Ok tt) /\ reached1 v' (S index) (done ++ rest)) \/
    (write_ablock cm_codec e b (d b) (blk_of cm_codec b (target1 done index vs)) v = (v', Err) /\ torn cm_codec f1 e d (v_disk v') blocks vss (done ++ rest)).
Proof using HF HP HN Hrd Hnr.
  intros Hb Hv R Hr. destruct (Hrd b ltac:(eapply nth_error_In; eauto)) as [Hlt _].
  destruct (at_facts b vs (in_block cm_codec cm_range 1 f1 e d blocks vss cm_lossless ltac:(cbn; lia) f1_nil f1_other f1_rg HF HP HN index b vs Hb Hv)) as [B1 B2].
  destruct (reached_write cm_codec cm_range 1 f1 e d blocks vss cm_lossless ltac:(cbn; lia) f1_nil f1_other f1_rg HF HP HN v index b vs done rest (d b) Hb Hv ltac:(lia) R) as (v' & [(H1 & H2 & H3)|(H1 & H2 & H3)]); auto.
  - intros x Hx. unfold home. rewrite N.div_1_r. apply Hr. auto.
  - exists v'. left. auto.
  - exists v'. right. split; auto. eapply reached_torn; eauto. eapply nth_error_In; eauto.
Qed.
Lemma skip1 v i k cl : reached1 v i cl -> (i <= k)%nat -> (forall x, In x cl -> ~ (N.of_nat i <= x / 509 < N.of_nat k)) -> reached1 v k cl.
Proof using HF HP HN Hrd Hnr.
  intros R Hik Hx. apply (reached_skip cm_codec cm_range 1 f1 e d blocks vss cm_lossless ltac:(cbn; lia) f1_nil f1_other f1_rg HF HP HN v i k cl R Hik).
  intros x H. unfold home. rewrite N.div_1_r. apply Hx. auto.
Qed.

Lemma v1_loop_spec cl : increasing cl -> (forall x, In x cl -> x < nlen (concat vss)) ->
  forall rest done index b vs needs v v' r, cl = done ++ rest ->
  nth_error blocks (N.to_nat index) = Some b -> nth_error vss (N.to_nat index) = Some vs ->
  (forall x, In x done -> x / 509 <= index) -> (forall x, In x rest -> index <= x / 509) -> (needs = false -> done = []) ->
  reached1 v (N.to_nat index) cl ->
  v1_loop e blocks index b (d b) (blk_of cm_codec b (target1 done (N.to_nat index) vs)) needs rest v = (v', r) ->
  match r with Ok _ => reached1 v' (length blocks) cl | Err => torn cm_codec f1 e d (v_disk v') blocks vss cl | Panic => False end.
Proof using HF HP HN Hrd Hnr.
  intros Hinc Hlt. induction rest as [|x rest IH]; intros done index b vs needs v v' r Ecl Hb Hv Hd Hr Hneed R E; cbn [v1_loop] in E.
  - rewrite app_nil_r in Ecl. subst cl. assert (Hil : (N.to_nat index < length blocks)%nat) by (apply nth_error_Some; congruence).
    destruct needs.
    + destruct (v1_write v (N.to_nat index) b vs done [] Hb Hv) as (v1 & [(W1 & W2)|(W1 & W2)]); auto; try (rewrite app_nil_r; auto); rewrite W1 in E; injection E as <- <-.
      * rewrite app_nil_r in W2. apply (skip1 v1 (S (N.to_nat index))); auto. intros y Hy. specialize (Hd y Hy). lia.
      * rewrite app_nil_r in W2. auto.
    + injection E as <- <-. rewrite (Hneed eq_refl) in *. apply (skip1 v (N.to_nat index)); auto. lia.
  - assert (Hx : x < nlen (concat vss)). { apply Hlt. rewrite Ecl. apply in_or_app. right. left. auto. }
    destruct (array_nth cm_codec d blocks vss x ltac:(cbn; lia) HF HP Hx) as (b' & vs' & m & A1 & A2 & A3 & A4 & _). change (array_per cm_codec) with 509 in *.
    rewrite Ecl in Hinc. apply increasing_app in Hinc as (N1 & N2 & N3). apply increasing_strong in N2 as [N2 N4].
    assert (Hclear : forall done', done' = done -> forall v b0, b0 = b' -> reached1 v (N.to_nat (x / 509)) cl ->
      match vec_update (ab_values (blk_of cm_codec b0 (target1 done' (N.to_nat (x / 509)) vs'))) (N.to_nat (x mod 509)) (fun m => cm_set_dirty m false) with
      | Ok vs => v1_loop e blocks (x / 509) b0 (d b0) (mkab (ab_hdr (blk_of cm_codec b0 (target1 done' (N.to_nat (x / 509)) vs'))) vs) true rest v
      | _ => (v, Panic)
      end = (v', r) -> match r with Ok _ => reached1 v' (length blocks) cl | Err => torn cm_codec f1 e d (v_disk v') blocks vss cl | Panic => False end).
    { intros done' -> v0 b0 -> R0 E0. cbn [blk_of ab_values ab_hdr] in E0.
      assert (Exk : N.of_nat (N.to_nat (x / 509)) * array_per cm_codec + N.of_nat (N.to_nat (x mod 509)) = x). { change (array_per cm_codec) with 509. pose proof (N.div_mod x 509 ltac:(lia)). lia. }
      unfold target at 1 in E0. rewrite (vec_update_mapi (f1 done) (f1 (done ++ [x])) _ vs' _ _ m A4) in E0.
      + assert (Eb : forall l, mkab (mkah (array_per cm_codec) (nlen (target1 done (N.to_nat (x / 509)) vs')) (N.of_nat (csize cm_codec)) b') (mapi (f1 l) (N.of_nat (N.to_nat (x / 509)) * array_per cm_codec) vs') = blk_of cm_codec b' (target1 l (N.to_nat (x / 509)) vs')).
        { intros l. unfold blk_of, target, nlen. rewrite !mapi_length. reflexivity. }
        rewrite Eb in E0. eapply (IH (done ++ [x]) (x / 509) b' vs' true); eauto.
        * rewrite <- app_assoc. exact Ecl.
        * intros y Hy. apply in_app_or in Hy as [Hy|[<-|[]]]; [|lia]. specialize (N3 y x Hy ltac:(left; auto)). apply N.div_le_mono; lia.
        * intros y Hy. specialize (N2 y Hy). apply N.div_le_mono; lia.
        * discriminate.
      + rewrite Exk. unfold f1. rewrite rb_mem_snoc, N.eqb_refl, orb_true_r. destruct (rb_mem x done) eqn:Ed; auto. exfalso. apply rb_mem_in in Ed. specialize (N3 x x Ed ltac:(left; auto)). lia.
      + rewrite Exk. intros j w Hj. symmetry. apply f1_other. rewrite N.div_1_r. auto. }
    destruct (N.eqb_spec (x / 509) index) as [Hi|Hi].
    + subst index. rewrite Hb in A1. injection A1 as <-. rewrite Hv in A2. injection A2 as <-. eapply Hclear; eauto.
    + assert (Hlti : index < x / 509). { specialize (Hr x ltac:(left; auto)). lia. }
      set (w := if needs then write_ablock cm_codec e b (d b) (blk_of cm_codec b (target1 done (N.to_nat index) vs)) v else (v, Ok tt)) in E.
      assert (Hw : (exists v1, w = (v1, Ok tt) /\ reached1 v1 (N.to_nat (x / 509)) cl) \/ (exists v1, w = (v1, Err) /\ torn cm_codec f1 e d (v_disk v1) blocks vss cl)).
      { assert (Hbig : forall y, In y (x :: rest) -> x / 509 <= y / 509). { intros y [<-|Hy]; [lia|]. specialize (N2 y Hy). apply N.div_le_mono; lia. }
        unfold w. destruct needs.
        - destruct (v1_write v (N.to_nat index) b vs done (x :: rest) Hb Hv) as (v1 & [(W1 & W2)|(W1 & W2)]).
          + rewrite <- Ecl. exact R.
          + intros y Hy. specialize (Hbig y Hy). lia.
          + left. exists v1. split; auto. rewrite Ecl. apply (skip1 v1 (S (N.to_nat index))); auto; [lia|]. intros y Hy. apply in_app_or in Hy as [Hy|Hy]; [specialize (Hd y Hy)|specialize (Hbig y Hy)]; lia.
          + right. exists v1. rewrite Ecl. auto.
        - left. exists v. split; auto. rewrite (Hneed eq_refl) in *. cbn [app] in Ecl. apply (skip1 v (N.to_nat index)); auto; [lia|]. rewrite Ecl. intros y Hy. specialize (Hbig y Hy). lia. }
      destruct Hw as [(v1 & -> & R1)|(v1 & -> & T1)]; cbv zeta iota beta in E; [|injection E as <- <-; auto].
      rewrite A1 in E. destruct (Hrd b' ltac:(eapply nth_error_In; eauto)) as [_ Hrb]. unfold eng_of in E. rewrite Hrb in E.
      assert (Edb : v_disk v1 b' = d b'). { destruct R1 as [_ R1]. specialize (R1 _ _ _ A1 A2). destruct (Nat.ltb_spec (N.to_nat (x / 509)) (N.to_nat (x / 509))); [lia|auto]. }
      rewrite Edb in E. destruct A3 as (_ & _ & _ & Hu). rewrite Hu in E. fold (array_per cm_codec) in E.
      eapply (Hclear done eq_refl v1 b' eq_refl R1).
      assert (Et : target1 done (N.to_nat (x / 509)) vs' = vs').
      { apply (target_none cm_codec cm_range 1 f1 e d blocks vss cm_lossless ltac:(cbn; lia) f1_nil f1_other f1_rg HF HP HN).
        - apply (vs_le cm_codec cm_range 1 f1 e d blocks vss cm_lossless ltac:(cbn; lia) f1_nil f1_other f1_rg HF HP HN _ _ A2).
        - intros y Hy. specialize (Hd y Hy). unfold home. rewrite N.div_1_r. change (array_per cm_codec) with 509. lia. }
      rewrite Et. exact E.
Qed.
End V1.

(** ** Version 2 *)
Definition clear_bit (w b : N) : N := N.land w (N.lxor (W64 - 1) (N.shiftl 1 (b mod 64))).
Definition f2 (cl : list N) (i w : N) : N := fold_left (fun w b => if b / 64 =? i then clear_bit w b else w) cl w.
Lemma f2_nil i v : f2 [] i v = v. Proof. reflexivity. Qed.
Lemma f2_snoc cl x i v : f2 (cl ++ [x]) i v = if x / 64 =? i then clear_bit (f2 cl i v) x else f2 cl i v.
Proof. unfold f2. rewrite fold_left_app. reflexivity. Qed.
Lemma f2_other cl x i v : x / 64 <> i -> f2 (cl ++ [x]) i v = f2 cl i v.
Proof. intros H. rewrite f2_snoc. destruct (N.eqb_spec (x / 64) i); [congruence|auto]. Qed.
Lemma f2_rg cl : forall i v, v < 2 ^ 64 -> f2 cl i v < 2 ^ 64.
Proof.
  unfold f2. induction cl as [|x cl IH]; intros i v H; cbn [fold_left]; auto. apply IH. destruct (x / 64 =? i); auto.
  unfold clear_bit. pose proof (land_le v (N.lxor (W64 - 1) (N.shiftl 1 (x mod 64)))). lia.
Qed.
Lemma clear_bit_spec w b t : t < 64 -> N.testbit (clear_bit w b) t = N.testbit w t && negb (t =? b mod 64).
Proof.
  intros Ht. unfold clear_bit. rewrite N.land_spec, N.lxor_spec. change (W64 - 1) with (N.ones 64). rewrite N.ones_spec_low by auto.
  f_equal. destruct (N.eqb_spec t (b mod 64)) as [->|Hne].
  - rewrite N.shiftl_spec_high by lia. rewrite N.sub_diag. reflexivity.
  - destruct (N.ltb_spec t (b mod 64)) as [Hl|Hl]; [rewrite N.shiftl_spec_low by auto; reflexivity|]. rewrite N.shiftl_spec_high by lia.
    replace (t - b mod 64) with (N.succ (t - b mod 64 - 1)) by lia. change 1 with (2 * 0 + 1) at 1. rewrite N.testbit_odd_succ by lia. rewrite N.bits_0. reflexivity.
Qed.
Lemma f2_bits cl i : forall w t, t < 64 -> N.testbit (f2 cl i w) t = N.testbit w t && negb (rb_mem (64 * i + t) cl).
Proof.
  induction cl as [|x cl IH] using rev_ind; intros w t Ht.
  - cbn. rewrite andb_true_r. auto.
  - rewrite f2_snoc, rb_mem_snoc. destruct (N.eqb_spec (x / 64) i) as [Hx|Hx].
    + rewrite clear_bit_spec, IH by auto. rewrite negb_orb, andb_assoc. f_equal. f_equal. pose proof (N.div_mod x 64 ltac:(lia)). destruct (N.eqb_spec t (x mod 64)), (N.eqb_spec (64 * i + t) x); auto; lia.
    + rewrite IH by auto. destruct (N.eqb_spec (64 * i + t) x) as [He|He]; [|rewrite orb_false_r; auto]. exfalso. apply Hx. rewrite <- He, N.mul_comm, N.div_add_l, N.div_small by lia. lia.
Qed.

Section V2.
Variables (e : menv) (d : disk) (blocks : list N) (vss : list (list N)).
Hypothesis HF : Forall2 (array_block_at u64_codec d) blocks vss.
Hypothesis HP : packed_in 509 vss.
Hypothesis HN : NoDup blocks.
Hypothesis Hrd : readable e blocks.
Hypothesis Hnr : e_nr e < 2 ^ 64.
Hypothesis Hfresh : forall n, bytes (e_fresh e n) /\ nlen (e_fresh e n) = 4096.
Notation reached2 := (reached u64_codec f2 d blocks vss).
Notation target2 := (target u64_codec f2).
Notation torn2 := (torn u64_codec f2 e d).

Definition hold (done : list N) (index b : N) (vs : list N) : bitblock := mkbb index (index * 509 * 64) (blk_of u64_codec b (target2 done (N.to_nat index) vs)).
Lemma write_bits_spec v index b vs done rest : nth_error blocks (N.to_nat index) = Some b -> nth_error vss (N.to_nat index) = Some vs ->
  reached2 v (N.to_nat index) (done ++ rest) -> (forall x, In x rest -> x / 64 / 509 <> index) ->
  exists v', (write_bits e blocks (hold done index b vs) v = (v', Ok tt) /\ reached2 v' (S (N.to_nat index)) (done ++ rest)) \/
    (write_bits e blocks (hold done index b vs) v = (v', Err) /\ torn2 (v_disk v') blocks vss (done ++ rest)).
Proof using All.
  intros Hb Hv R Hr. destruct (Hrd b ltac:(eapply nth_error_In; eauto)) as [Hlt _]. unfold write_bits, hold. cbn [bb_index bb_block]. rewrite Hb.
  destruct (reached_write u64_codec _ 64 f2 e d blocks vss u64_lossless ltac:(cbn; lia) f2_nil f2_other f2_rg HF HP HN v (N.to_nat index) b vs done rest (e_fresh e (v_nw v)) Hb Hv ltac:(lia) R) as (v' & [(H1 & H2 & H3)|(H1 & H2 & H3)]); try apply Hfresh.
  - intros x Hx. unfold home. change (array_per u64_codec) with 509. rewrite N2Nat.id. apply Hr. auto.
  - exists v'. left. auto.
  - exists v'. right. split; auto. eapply reached_torn; eauto. eapply nth_error_In; eauto.
Qed.
Lemma skip2 v i k cl : reached2 v i cl -> (i <= k)%nat -> (forall x, In x cl -> ~ (N.of_nat i <= x / 64 / 509 < N.of_nat k)) -> reached2 v k cl.
Proof using All.
  intros R Hik Hx. apply (reached_skip u64_codec _ 64 f2 e d blocks vss u64_lossless ltac:(cbn; lia) f2_nil f2_other f2_rg HF HP HN v i k cl R Hik).
  intros x H. apply Hx. auto.
Qed.
Lemma full_before : forall (k : list (list N)) j vs, packed_in 509 k -> nth_error k j = Some vs -> (S j < length k)%nat -> nlen vs = 509.
Proof using.
  clear. induction k as [|x k IH]; intros [|j] vs H E Hj; cbn [nth_error length packed_in] in *; try discriminate.
  - injection E as <-. apply H. destruct k; [cbn in Hj; lia|discriminate].
  - apply (IH j); auto; [tauto|lia].
Qed.
Lemma read_bits_spec v index b vs done cl : nth_error blocks (N.to_nat index) = Some b -> nth_error vss (N.to_nat index) = Some vs ->
  reached2 v (N.to_nat index) cl -> (forall x, In x done -> x / 64 / 509 < index) ->
  read_bits e blocks (v_disk v) index (index * 509 * 64) = Ok (hold done index b vs).
Proof using All.
  intros Hb Hv [_ R] Hd. unfold read_bits. rewrite Hb. destruct (Hrd b ltac:(eapply nth_error_In; eauto)) as [_ Hrb]. unfold eng_of. rewrite Hrb.
  specialize (R _ _ _ Hb Hv). destruct (Nat.ltb_spec (N.to_nat index) (N.to_nat index)); [lia|]. rewrite R.
  destruct (in_block u64_codec _ 64 f2 e d blocks vss u64_lossless ltac:(cbn; lia) f2_nil f2_other f2_rg HF HP HN _ b vs Hb Hv) as (_ & _ & _ & Hu). rewrite Hu. cbn [bind].
  unfold hold. rewrite (target_none u64_codec _ 64 f2 e d blocks vss u64_lossless ltac:(cbn; lia) f2_nil f2_other f2_rg HF HP HN); [reflexivity| |].
  - apply (vs_le u64_codec _ 64 f2 e d blocks vss u64_lossless ltac:(cbn; lia) f2_nil f2_other f2_rg HF HP HN _ _ Hv).
  - intros y Hy. specialize (Hd y Hy). unfold home. change (array_per u64_codec) with 509. lia.
Qed.
Lemma get_bitmap_spec cl x bx vx w : nth_error blocks (N.to_nat (x / 64 / 509)) = Some bx -> nth_error vss (N.to_nat (x / 64 / 509)) = Some vx ->
  nth_error vx (N.to_nat (x / 64 mod 509)) = Some w ->
  forall fuel done rest index b vs v v' r, cl = done ++ rest ->
  nth_error blocks (N.to_nat index) = Some b -> nth_error vss (N.to_nat index) = Some vs ->
  index <= x / 64 / 509 -> (N.to_nat (x / 64 / 509 - index) <= fuel)%nat ->
  (forall y, In y done -> y / 64 / 509 <= index) -> (forall y, In y rest -> x / 64 / 509 <= y / 64 / 509) ->
  reached2 v (N.to_nat index) cl ->
  get_bitmap fuel e blocks x (Some (hold done index b vs)) v = (v', r) ->
  match r with
  | Ok bb => bb = hold done (x / 64 / 509) bx vx /\ reached2 v' (N.to_nat (x / 64 / 509)) cl
  | Err => torn2 (v_disk v') blocks vss cl
  | Panic => False
  end.
Proof using All.
  intros Hbx Hvx Hw. pose proof (Forall2_length _ _ _ HF) as HL.
  pose proof (N.div_mod x 64 ltac:(lia)) as Dx. pose proof (N.mod_lt x 64 ltac:(lia)) as Mx.
  pose proof (N.div_mod (x / 64) 509 ltac:(lia)) as Dw. pose proof (N.mod_lt (x / 64) 509 ltac:(lia)) as Mw.
  assert (Hvl : x / 64 mod 509 < nlen vx). { assert (Hn : nth_error vx (N.to_nat (x / 64 mod 509)) <> None) by congruence. apply nth_error_Some in Hn. unfold nlen. lia. }
  set (hx := x / 64 / 509) in *. set (wx := x / 64 mod 509) in *. set (q := x / 64) in *. clearbody hx wx q.
  induction fuel as [|fuel IH]; intros done rest index b vs v v' r Ecl Hb Hv Hi Hf Hd Hr R E; cbn [get_bitmap] in E;
    assert (Hlen : nlen (target2 done (N.to_nat index) vs) = nlen vs) by (unfold target, nlen; rewrite mapi_length; auto);
    unfold bb_end, hold in E; cbn [bb_begin bb_block blk_of ab_values bb_index] in E; rewrite Hlen in E; fold (hold done index b vs) in E;
    (destruct (N.eq_dec index hx) as [Heq|Hne];
     [subst index; rewrite Hb in Hbx; injection Hbx as <-; rewrite Hv in Hvx; injection Hvx as <-;
      destruct (N.leb_spec (hx * 509 * 64) x); [|lia]; destruct (N.ltb_spec x (hx * 509 * 64 + nlen vs * 64)); [|lia]; cbn [andb] in E; injection E as <- <-; auto|]).
  - lia.
  - assert (Hlt : index < hx) by lia. assert (Hhx : (N.to_nat hx < length vss)%nat) by (apply nth_error_Some; congruence).
    rewrite (full_before vss _ vs HP Hv ltac:(lia)) in E. destruct (N.ltb_spec x (index * 509 * 64 + 509 * 64)); [lia|]. rewrite andb_false_r in E.
    destruct (write_bits_spec v index b vs done rest Hb Hv) as (v1 & [(W1 & W2)|(W1 & W2)]).
    + rewrite <- Ecl. exact R.
    + intros y Hy. specialize (Hr y Hy). lia.
    + rewrite W1 in E. destruct (nth_error blocks (N.to_nat (index + 1))) as [b1|] eqn:Eb1; [|apply nth_error_None in Eb1; lia].
      destruct (nth_error vss (N.to_nat (index + 1))) as [vs1|] eqn:Ev1; [|apply nth_error_None in Ev1; lia].
      replace (S (N.to_nat index)) with (N.to_nat (index + 1)) in W2 by lia. rewrite <- Ecl in W2.
      replace (index * 509 * 64 + 509 * 64) with ((index + 1) * 509 * 64) in E by lia.
      rewrite (read_bits_spec v1 (index + 1) b1 vs1 done cl Eb1 Ev1 W2) in E by (intros y Hy; specialize (Hd y Hy); lia).
      eapply (IH done rest (index + 1)); eauto; [lia|lia|]. intros y Hy. specialize (Hd y Hy). lia.
    + rewrite W1 in E. injection E as <- <-. rewrite Ecl. exact W2.
Qed.

Lemma v2_loop_spec cl : increasing cl -> (forall x, In x cl -> x < 64 * nlen (concat vss)) ->
  forall rest done cur v v' r, cl = done ++ rest ->
  match cur with
  | None => done = [] /\ reached2 v 0 cl
  | Some bb => exists index b vs, bb = hold done index b vs /\ nth_error blocks (N.to_nat index) = Some b /\ nth_error vss (N.to_nat index) = Some vs /\
      (forall y, In y done -> y / 64 / 509 <= index) /\ (forall y, In y rest -> index <= y / 64 / 509) /\ reached2 v (N.to_nat index) cl
  end ->
  v2_loop e blocks cur rest v = (v', r) ->
  match r with Ok _ => reached2 v' (length blocks) cl | Err => torn2 (v_disk v') blocks vss cl | Panic => False end.
Proof using All.
  intros Hinc Hlt. pose proof (Forall2_length _ _ _ HF) as HL. induction rest as [|x rest IH]; intros done cur v v' r Ecl Hcur E; cbn [v2_loop] in E.
  - rewrite app_nil_r in Ecl. subst done. destruct cur as [bb|].
    + destruct Hcur as (index & b & vs & -> & Hb & Hv & Hd & _ & R). assert (Hil : (N.to_nat index < length blocks)%nat) by (apply nth_error_Some; congruence).
      destruct (write_bits_spec v index b vs cl [] Hb Hv) as (v1 & [(W1 & W2)|(W1 & W2)]); auto; try (rewrite app_nil_r; auto); rewrite W1 in E; injection E as <- <-.
      * rewrite app_nil_r in W2. apply (skip2 v1 (S (N.to_nat index))); auto. intros y Hy. specialize (Hd y Hy). lia.
      * rewrite app_nil_r in W2. auto.
    + destruct Hcur as [-> R]. injection E as <- <-. apply (skip2 v 0); auto. lia.
  - assert (Hx : x / 64 < nlen (concat vss)). { apply N.div_lt_upper_bound; [lia|]. apply Hlt. rewrite Ecl. apply in_or_app. right. left. auto. }
    destruct (array_nth u64_codec d blocks vss (x / 64) ltac:(cbn; lia) HF HP Hx) as (bx & vx & w & A1 & A2 & A3 & A4 & _). change (array_per u64_codec) with 509 in *.
    pose proof Hinc as Hinc'. rewrite Ecl in Hinc'. apply increasing_app in Hinc' as (N1 & N2 & N3). apply increasing_strong in N2 as [N2 N4].
    assert (Hbig : forall y, In y (x :: rest) -> x / 64 / 509 <= y / 64 / 509). { intros y [<-|Hy]; [lia|]. specialize (N2 y Hy). do 2 (apply N.div_le_mono; [lia|]). lia. }
    assert (Hsm : forall y, In y done -> y / 64 / 509 <= x / 64 / 509). { intros y Hy. specialize (N3 y x Hy ltac:(left; auto)). do 2 (apply N.div_le_mono; [lia|]). lia. }
    assert (Hxl : (N.to_nat (x / 64 / 509) < length blocks)%nat) by (apply nth_error_Some; congruence).
    destruct (get_bitmap (S (length blocks)) e blocks x cur v) as [v1 r1] eqn:Eg.
    assert (G : match r1 with Ok bb => bb = hold done (x / 64 / 509) bx vx /\ reached2 v1 (N.to_nat (x / 64 / 509)) cl | Err => torn2 (v_disk v1) blocks vss cl | Panic => False end).
    { destruct cur as [bb|].
      - destruct Hcur as (index & b & vs & -> & Hb & Hv & Hd & Hr & R).
        eapply (get_bitmap_spec cl x bx vx w A1 A2 A4 (S (length blocks)) done (x :: rest) index b vs); eauto; [apply Hr; left; auto|lia].
      - destruct Hcur as [-> R]. cbn [get_bitmap] in Eg. destruct blocks as [|b0 blocks'] eqn:Ebl; [cbn in Hxl; lia|]. destruct vss as [|vs0 vss'] eqn:Evs; [discriminate|]. rewrite <- Ebl, <- Evs in *.
        pose proof (read_bits_spec v 0 b0 vs0 [] cl ltac:(rewrite Ebl; reflexivity) ltac:(rewrite Evs; reflexivity) R ltac:(intros y [])) as E0. change (0 * 509 * 64) with 0 in E0. rewrite E0 in Eg.
        eapply (get_bitmap_spec cl x bx vx w A1 A2 A4 (length blocks) [] (x :: rest) 0 b0 vs0); eauto; [rewrite Ebl; reflexivity|rewrite Evs; reflexivity|lia|lia|intros y []]. }
    destruct r1 as [bb| |]; [|injection E as <- <-; exact G|contradiction]. destruct G as [-> R1].
    unfold hold in E. cbn [bb_begin bb_index bb_block blk_of ab_values ab_hdr] in E.
    assert (E64 : (x / 64 / 509 * 509 * 64) mod 64 = 0) by (apply N.mod_mul; lia). rewrite E64 in E. cbn [N.eqb negb] in E.
    pose proof (N.div_mod x 64 ltac:(lia)) as Dx. pose proof (N.mod_lt x 64 ltac:(lia)) as Mx. pose proof (N.div_mod (x / 64) 509 ltac:(lia)) as Dw.
    assert (Ewi : (x - x / 64 / 509 * 509 * 64) / 64 = x / 64 mod 509).
    { replace (x - x / 64 / 509 * 509 * 64) with (x mod 64 + x / 64 mod 509 * 64) by lia. rewrite N.div_add, N.div_small by lia. lia. }
    rewrite Ewi in E.
    assert (Exk : N.of_nat (N.to_nat (x / 64 / 509)) * array_per u64_codec + N.of_nat (N.to_nat (x / 64 mod 509)) = x / 64). { change (array_per u64_codec) with 509. lia. }
    unfold target at 1 in E. rewrite (vec_update_mapi (f2 done) (f2 (done ++ [x])) _ vx _ _ w A4) in E.
    + assert (Eb : forall l, mkab (mkah (array_per u64_codec) (nlen (target2 done (N.to_nat (x / 64 / 509)) vx)) (N.of_nat (csize u64_codec)) bx) (mapi (f2 l) (N.of_nat (N.to_nat (x / 64 / 509)) * array_per u64_codec) vx) = blk_of u64_codec bx (target2 l (N.to_nat (x / 64 / 509)) vx)).
      { intros l. unfold blk_of, target, nlen. rewrite !mapi_length. reflexivity. }
      rewrite Eb in E. fold (hold (done ++ [x]) (x / 64 / 509) bx vx) in E. eapply (IH (done ++ [x])); [|..|exact E]; [rewrite <- app_assoc; exact Ecl|].
      exists (x / 64 / 509), bx, vx. conj; auto.
      * intros y Hy. apply in_app_or in Hy as [Hy|[<-|[]]]; [auto|lia].
      * intros y Hy. apply Hbig. right. auto.
    + rewrite Exk, f2_snoc, N.eqb_refl. reflexivity.
    + rewrite Exk. intros j u Hj. symmetry. apply f2_other. auto.
Qed.
End V2.
