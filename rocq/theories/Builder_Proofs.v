From Coq Require Import Permutation.
From Verif Require Import Base Csum_Model Csum_Proofs Codec_Model Codec_Spec Codec_Proofs NodeCodec_Proofs
  SpaceMap_Model SpaceMap_Spec SpaceMap_Proofs Io_Proofs IoMany_Proofs Batcher_Model Batcher_Spec Batcher_Proofs Builder_Model Builder_Spec.

Arguments calc_max_entries : simpl never.
Arguments pack_node : simpl never.
Arguments unpack_node_raw : simpl never.
Arguments check_and_unpack_node : simpl never.
Arguments overwrite : simpl never.
Arguments N.div : simpl never.
Arguments N.mul : simpl never.

(** ** Weakest preconditions: no panic, [Q] on success, [E] on error *)
Definition wp {S A} (m : st S A) (s : S) (Q : S -> A -> Prop) (E : S -> Prop) : Prop :=
  match m s with (s', Ok a) => Q s' a | (s', Err) => E s' | (_, Panic) => False end.

Lemma wp_bind {S A B} (m : st S A) (f : A -> st S B) s Q E :
  wp m s (fun s' a => wp (f a) s' Q E) E -> wp (bindst m f) s Q E.
Proof. unfold wp, bindst. destruct (m s) as [s' [a| |]]; auto. Qed.
Lemma wp_ret {S A} (a : A) s (Q : S -> A -> Prop) E : Q s a -> wp (ret a) s Q E.
Proof. auto. Qed.
Lemma wp_lift {S A} (r : res A) s (Q : S -> A -> Prop) (E : S -> Prop) a : r = Ok a -> Q s a -> wp (lift r) s Q E.
Proof. intros ->. auto. Qed.
Lemma wp_mono {S A} (m : st S A) s (Q Q' : S -> A -> Prop) (E E' : S -> Prop) :
  wp m s Q E -> (forall s a, Q s a -> Q' s a) -> (forall s, E s -> E' s) -> wp m s Q' E'.
Proof. unfold wp. destruct (m s) as [s' [a| |]]; auto. Qed.
Lemma wp_ok {S A} (m : st S A) s s' a Q E : wp m s Q E -> m s = (s', Ok a) -> Q s' a.
Proof. unfold wp. intros H E1. rewrite E1 in H. auto. Qed.

(** ** Occurrences *)
Lemma occ_app x a b : occ x (a ++ b) = occ x a + occ x b.
Proof. induction a; cbn [occ app]; [lia|]. rewrite IHa. lia. Qed.
Lemma occ_in x l : 0 < occ x l <-> In x l.
Proof.
  induction l; cbn [occ In]; [split; [lia|tauto]|]. rewrite <- IHl.
  destruct (N.eqb_spec x a) as [->|Ne]; split; intros H; try lia; auto; right; lia.
Qed.
Lemma occ_not_in x l : ~ In x l -> occ x l = 0.
Proof. rewrite <- occ_in. lia. Qed.
Lemma occ_concat x ls : occ x (concat ls) = fold_right (fun l a => occ x l + a) 0 ls.
Proof. induction ls; cbn [concat fold_right]; auto. rewrite occ_app. congruence. Qed.

(** ** Increasing lists *)
Lemma increasing_split a b : increasing (a ++ b) <->
  increasing a /\ increasing b /\ (forall x y, In x a -> In y b -> x < y).
Proof.
  induction a as [|x a IH]; [cbn; intuition tauto|]. cbn [app]. rewrite !increasing_strong, IH. split.
  - intros (A & B & C & D). conj; auto.
    + intros y Hy. apply A. apply in_or_app; auto.
    + intros u v [<-|Hu] Hv; [apply A, in_or_app; auto|apply D; auto].
  - intros ((A & B) & C & D). conj; auto.
    + intros y Hy. apply in_app_or in Hy as [Hy|Hy]; auto. apply D; cbn; auto.
    + intros; apply D; cbn; auto.
Qed.
Lemma increasing_firstn k l : increasing l -> increasing (firstn k l).
Proof. intros H. rewrite <- (firstn_skipn k l) in H. apply increasing_split in H. tauto. Qed.
Lemma increasing_skipn k l : increasing l -> increasing (skipn k l).
Proof. intros H. rewrite <- (firstn_skipn k l) in H. apply increasing_split in H. tauto. Qed.

(** ** Node input/output *)
Record io_ok {V} (c : codec V) (range : V -> Prop) (io : node_io V) : Prop := {
  ik_header : forall h ks vs, get_header (io_make io h ks vs) = h;
  ik_keys : forall h ks vs, get_keys (io_make io h ks vs) = ks;
  ik_split : forall h ks vs, io_split io (io_make io h ks vs) = Some (ks, vs);
  ik_fits : forall loc ks vs, loc < 2 ^ 64 -> length ks = length vs ->
     nlen ks <= calc_max_entries c -> Forall (fun k => k < 2 ^ 64) ks -> increasing ks -> Forall range vs ->
     node_fits c range (io_make io (mknh loc (io_leaf io) (nlen ks) (calc_max_entries c) (N.of_nat (csize c))) ks vs) }.

Lemma calc_max_mod3 {V} (c : codec V) : calc_max_entries c mod 3 = 0.
Proof. unfold calc_max_entries. apply N.mod_mul. discriminate. Qed.
Lemma calc_max_fits {V} (c : codec V) : (8 + N.of_nat (csize c)) * calc_max_entries c + 32 <= 4096.
Proof.
  unfold calc_max_entries. set (e := 8 + N.of_nat (csize c)).
  assert (e <> 0) as He by lia. pose proof (N.mul_div_le (4096 - 32) e He).
  change (4096 - 32) with 4064 in *. set (t := 4064 / e) in *.
  assert (t / 3 * 3 <= t) by dlia. nia.
Qed.

Lemma leaf_io_ok {V} (c : codec V) range : io_ok c range (leaf_io V).
Proof.
  constructor; auto. intros loc ks vs Hl Hlen Hn Hk Hi Hr. unfold node_fits. cbn.
  conj; auto. - apply calc_max_mod3. - unfold nlen. congruence. - apply calc_max_fits.
Qed.
Lemma internal_io_ok : io_ok u64_codec (fun v => v < 2 ^ 64) internal_io.
Proof.
  constructor; auto. intros loc ks vs Hl Hlen Hn Hk Hi Hr. unfold node_fits. cbn [io_make internal_io get_header get_keys nh_block nh_nr_entries nh_max_entries nh_is_leaf nh_value_size io_leaf].
  conj; auto; try apply calc_max_mod3; [unfold nlen; congruence|apply (calc_max_fits u64_codec)].
Qed.

Lemma holds_raw {V} (c : codec V) d b n root : holds c d b n -> unpack_node_raw c (d b) true root = Ok n.
Proof.
  intros (_ & _ & H). specialize (H true root). unfold check_and_unpack_node in H. cbn [b_data b_loc] in H.
  destruct (metadata_block_type (d b)); try (specialize (H ltac:(discriminate)); discriminate).
  destruct (unpack_node_raw c (d b) true root) as [m| |]; cbn [bind] in H; try (specialize (H ltac:(discriminate)); discriminate).
  destruct (negb _); specialize (H ltac:(discriminate)); [discriminate|]. auto.
Qed.
Lemma holds_ext {V} (c : codec V) (d d' : disk) b n : d' b = d b -> holds c d b n -> holds c d' b n.
Proof. unfold holds. intros ->. auto. Qed.

Lemma combine_fst_snd {A B} (l : list (A * B)) : combine (map fst l) (map snd l) = l.
Proof. induction l as [|[a b] l IH]; cbn; congruence. Qed.

Section Env.
Variables n max : N.
Hypothesis Hn : n < 2 ^ 64.

Record env (w : wb) : Prop := {
  e_inv : wb_inv n max w;
  e_good : forall x, x < n -> wb_good w x = true;
  e_junk : forall x, bytes (wb_junk w x) /\ nlen (wb_junk w x) = 4096 }.

Definition cnt (w : wb) (x : N) : N := sm_counts (wb_sm w) x.
Definition full (w : wb) : Prop := forall x, x < n -> cnt w x <> 0.
Definition saturated (w : wb) : Prop := exists x, x < n /\ cnt w x = max.

Lemma write_node_wp {V} (c : codec V) range io ks vs w (E : wb -> Prop) :
  lossless c range -> N.of_nat (csize c) + 8 < 2 ^ 32 -> io_ok c range io -> env w ->
  length ks = length vs -> nlen ks <= calc_max_entries c ->
  Forall (fun k => k < 2 ^ 64) ks -> increasing ks -> Forall range vs ->
  (forall w', full w' -> E w') ->
  wp (write_node c io ks vs) w (fun w' r =>
    env w' /\ fst r = match ks with k :: _ => k | [] => 0 end /\ snd r < n /\
    cnt w (snd r) = 0 /\ (forall x, cnt w' x = (if x =? snd r then 1 else cnt w x)) /\
    (forall x, x <> snd r -> wb_view w' x = wb_view w x) /\
    wb_base w' = wb_base w /\
    holds c (wb_view w') (snd r)
      (io_make io (mknh (snd r) (io_leaf io) (nlen ks) (calc_max_entries c) (N.of_nat (csize c))) ks vs)) E.
Proof.
  intros L Hcs Hio [Hinv Hgood Hjunk] Hlen Hmax Hk Hinc Hr HE.
  unfold write_node. apply wp_bind. unfold wp, wb_alloc, bindst.
  destruct (wb_alloc_loc w) as [w1 r1] eqn:E1. apply (wb_alloc_loc_spec n max) in E1; [|apply Hinv].
  destruct E1 as (I1 & Eb & El & Eg & Eba & Eq & Ej & [(loc & -> & Hloc & H0 & Hc & _)|(-> & Hfull & Hsm & _)]).
  2:{ apply HE. intros x Hx. unfold cnt. rewrite Hsm. apply Hfull; auto. }
  cbn [b_loc b_data]. set (nd := io_make io _ ks vs).
  assert (node_fits c range nd) as Hfit by (apply Hio; auto; lia).
  destruct (node_block_roundtrip c range (wb_junk w1 loc) nd L Hcs) as (blk & Hblk & Hb1 & Hb2 & Hb3 & Hread); auto.
  { rewrite Ej. apply Hjunk. } { rewrite Ej. apply Hjunk. }
  unfold node_block in Hblk. unfold lift.
  destruct (overwrite (wb_junk w1 loc) (pack_node c nd)) as [data| |] eqn:Eo; try discriminate. cbn [bind] in Hblk.
  destruct (wb_write (mkblock loc data) NODE w1) as [w2 r2] eqn:E2.
  apply wb_write_spec in E2; [|rewrite Eg; auto|rewrite Eg, Eq; apply Hinv].
  destruct E2 as (B1 & B2 & B3 & B4 & B5 & B6 & B7 & B8). rewrite Hblk in B8. destruct B8 as (-> & Hview & _).
  cbn [ret fst snd].
  assert (Hv1 : forall x, wb_view w1 x = wb_view w x).
  { intros x. unfold wb_view, wb_disk. rewrite Eb, El, Eg, Eq. auto. }
  conj; auto.
  - constructor.
    + constructor; [rewrite B3; auto|auto].
    + rewrite B2, Eg. auto.
    + rewrite B6, Ej. auto.
  - intros x. unfold cnt. rewrite B3, Hc. apply upd_spec.
  - intros x Hx. rewrite Hview. destruct (N.eqb_spec x loc); [contradiction|auto].
  - congruence.
  - assert (wb_view w2 loc = blk) as Ev. { rewrite Hview, N.eqb_refl. auto. }
    unfold holds. rewrite Ev. conj; auto. intros ig root Hmin.
    specialize (Hread ig root Hmin). unfold nd in Hread at 1. rewrite (ik_header _ _ _ Hio) in Hread. exact Hread.
Qed.

Lemma read_node_wp {V} (c : codec V) range io loc h ks vs w (Q : wb -> list N * list V -> Prop) (E : wb -> Prop) :
  io_ok c range io -> env w -> loc < n ->
  holds c (wb_view w) loc (io_make io h ks vs) -> Q w (ks, vs) ->
  wp (read_node c io loc) w Q E.
Proof.
  intros Hio [Hinv Hgood Hjunk] Hl Hh HQ. unfold read_node. apply wp_bind. unfold wp.
  rewrite wb_read_spec by auto. apply wp_bind. cbn [b_data].
  eapply wp_lift; [apply holds_raw; eauto|]. rewrite (ik_split _ _ _ Hio).
  eapply wp_lift; [reflexivity|auto].
Qed.

Lemma set_sm_view w s x : wb_view (set_sm w s) x = wb_view w x.
Proof. reflexivity. Qed.
Lemma set_sm_env w s : env w -> sm_inv n max s -> env (set_sm w s).
Proof. intros [[A B] C D] I. constructor; auto. constructor; auto. Qed.

Lemma wb_inc_wp b w (E : wb -> Prop) : env w -> b < n -> (forall w', saturated w' -> E w') ->
  wp (wb_inc b) w (fun w' _ => env w' /\ (forall x, cnt w' x = (if x =? b then 1 else 0) + cnt w x) /\
                              wb_base w' = wb_base w /\ (forall x, wb_view w' x = wb_view w x)) E.
Proof.
  intros Hw Hb HE. unfold wp, wb_inc. destruct (sm_inc (wb_sm w) b 1) as [s r] eqn:Es.
  unfold sm_inc in Es. rewrite N.mod_small in Es by (unfold W64; lia).
  pose proof (wi_sm _ _ _ (e_inv _ Hw)) as I. rewrite (inv_nr _ _ _ I) in Es.
  destruct (N.ltb_spec n (b + 1)); [lia|].
  apply (sm_inc_loop_spec n max) in Es; auto; try lia.
  destruct Es as [I' [(_ & -> & Hc)|(-> & sat & Hs & Hm & _ & Hc)]].
  - conj; auto using set_sm_env. intros x. unfold cnt. cbn [set_sm wb_sm]. rewrite Hc.
    destruct (N.eqb_spec x b), (N.leb_spec b x), (N.ltb_spec x (b + 1)); cbn [andb]; lia.
  - apply HE. exists b. split; auto. unfold cnt. cbn [set_sm wb_sm]. rewrite Hc.
    replace sat with b in * by lia.
    destruct (N.leb_spec b b), (N.ltb_spec b b); cbn [andb]; lia.
Qed.

Lemma wb_dec_wp b w (E : wb -> Prop) : env w -> b < n -> 0 < cnt w b ->
  wp (wb_dec b) w (fun w' r => env w' /\ (forall x, (if x =? b then 1 else 0) + cnt w' x = cnt w x) /\
                              r = (cnt w b =? 1) /\
                              wb_base w' = wb_base w /\ (forall x, wb_view w' x = wb_view w x)) E.
Proof.
  intros Hw Hb Hp. unfold wp, wb_dec. pose proof (wi_sm _ _ _ (e_inv _ Hw)) as I.
  unfold sm_dec. rewrite (sm_get_spec n max) by auto. unfold cnt in Hp.
  destruct (N.ltb_spec b n); [|lia]. destruct (N.eqb_spec (sm_counts (wb_sm w) b) 0); [lia|].
  destruct (sm_set (wb_sm w) b _) as [s r] eqn:Es. apply (sm_set_spec n max) in Es; auto.
  destruct Es as [I' [(_ & _ & -> & Hc)|(Hbad & _)]].
  - conj; auto using set_sm_env. intros x. unfold cnt. cbn [set_sm wb_sm]. rewrite Hc, upd_spec.
    destruct (N.eqb_spec x b); subst; lia.
  - exfalso. apply Hbad. split; auto. pose proof (inv_le _ _ _ I b Hb). lia.
Qed.
End Env.
