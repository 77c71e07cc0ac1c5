(** The allocations the write batcher records while trees are built from values: exactly
    the blocks that came into use. *)
From Verif Require Import Base Csum_Model Codec_Model SpaceMap_Model SpaceMap_Spec SpaceMap_Proofs Utils_Proofs IoMany_Proofs Batcher_Model Batcher_Proofs
  Builder_Model Builder_Spec Builder_Proofs NodeBuilder_Proofs BtreeBuild_Proofs Array_Proofs SmWrite_Model SmWrite_Spec.

Section AL.
Variables n max : N.
Notation SI w := (sm_inv n max (wb_sm w)).
Definition AL (w w' : wb) : Prop :=
  SI w' /\ (forall x, 0 < cnt w x -> 0 < cnt w' x) /\
  forall x, In x (wb_allocs w') <-> In x (wb_allocs w) \/ (cnt w x = 0 /\ 0 < cnt w' x).
Lemma AL_refl w : SI w -> AL w w.
Proof. intros H. unfold AL. conj; auto. intros x. split; auto. intros [?|[]]; auto. lia. Qed.
Lemma AL_trans w1 w2 w3 : AL w1 w2 -> AL w2 w3 -> AL w1 w3.
Proof.
  intros (A1 & A2 & A3) (B1 & B2 & B3). unfold AL. conj; auto. intros x. rewrite B3, A3. specialize (A2 x). specialize (B2 x).
  assert (cnt w1 x = 0 <-> ~ 0 < cnt w1 x) as -> by lia. assert (cnt w2 x = 0 <-> ~ 0 < cnt w2 x) as -> by lia.
  destruct (N.lt_decidable 0 (cnt w1 x)), (N.lt_decidable 0 (cnt w2 x)); tauto.
Qed.
Lemma AL_same w w' : SI w -> wb_sm w' = wb_sm w -> wb_allocs w' = wb_allocs w -> AL w w'.
Proof. intros H E1 E2. unfold AL, cnt. rewrite E1, E2. apply AL_refl in H. exact H. Qed.

(** Every successful run only takes blocks that were free, and records them. *)
Definition al {A} (m : st wb A) : Prop := forall w w' a, SI w -> m w = (w', Ok a) -> AL w w'.
Lemma al_ret {A} (a : A) : al (ret a).
Proof. intros w w' a' H E. injection E as <- _. apply AL_refl; auto. Qed.
Lemma al_lift {A} (r : res A) : al (lift r).
Proof. intros w w' a' H E. injection E as <- _. apply AL_refl; auto. Qed.
Lemma al_bind {A B} (m : st wb A) (f : A -> st wb B) : al m -> (forall a, al (f a)) -> al (a <~ m ;; f a).
Proof.
  intros Hm Hf w w' b H E. unfold bindst in E. destruct (m w) as [w1 [a| |]] eqn:Em; try discriminate.
  pose proof (Hm _ _ _ H Em) as H1. eapply AL_trans; [exact H1|]. eapply Hf; [apply H1|exact E].
Qed.
Lemma al_alloc_loc : al wb_alloc_loc.
Proof.
  intros w w' loc H E. apply (wb_alloc_loc_spec n max) in E; auto.
  destruct E as (I1 & _ & _ & _ & _ & _ & _ & [(b & Eb & Hb & H0 & Hc & Ha)|(Eb & _)]); [|discriminate].
  injection Eb as ->. unfold AL, cnt. rewrite Hc, Ha. conj; auto.
  - intros x Hx. rewrite upd_spec. destruct (N.eqb_spec x b); lia.
  - intros x. cbn [In]. rewrite upd_spec. destruct (N.eqb_spec x b) as [->|].
    + split; intros; [right; lia|auto].
    + split; intros [?|?]; auto; [congruence|lia].
Qed.
Lemma al_alloc : al wb_alloc.
Proof.
  intros w w' a H E. unfold wb_alloc in E. destruct (wb_alloc_loc w) as [w1 [loc| |]] eqn:E1; unfold bindst in E; rewrite E1 in E; try discriminate.
  eapply al_alloc_loc in E1; auto. injection E as <- _. auto.
Qed.
Lemma al_alloc_zeroed : al wb_alloc_zeroed.
Proof. unfold wb_alloc_zeroed. apply al_bind; [apply al_alloc_loc|]. intros. apply al_ret. Qed.
Lemma wb_write_same b k w w' r : wb_write b k w = (w', r) -> wb_sm w' = wb_sm w /\ wb_allocs w' = wb_allocs w.
Proof.
  unfold wb_write, bindst, lift. destruct (write_checksum (b_data b) k) as [d| |]; [|intros H; injection H as <- _; auto|intros H; injection H as <- _; auto].
  destruct (write_hit _ _) as [q|]; intros H.
  - injection H as <- _. auto.
  - destruct (nlen (wb_queue w) =? wb_batch w); injection H as <- _; auto.
Qed.
Lemma al_write b k : al (wb_write b k).
Proof. intros w w' a H E. apply wb_write_same in E as [E1 E2]. apply AL_same; auto. Qed.
Lemma al_read loc : al (wb_read loc).
Proof.
  intros w w' a H E. unfold wb_read in E. destruct (find_queued _ _); [injection E as <- _; apply AL_refl; auto|].
  destruct (wb_good w loc); [|discriminate]. injection E as <- _; apply AL_refl; auto.
Qed.
Lemma al_write_node {V} (c : codec V) io ks vs : al (write_node c io ks vs).
Proof.
  unfold write_node. apply al_bind; [apply al_alloc|]. intros b. apply al_bind; [apply al_lift|]. intros d.
  apply al_bind; [apply al_write|]. intros _. apply al_ret.
Qed.
Lemma al_write_bitmap es : al (write_bitmap es).
Proof.
  unfold write_bitmap. apply al_bind; [apply al_alloc_zeroed|]. intros b. apply al_bind; [apply al_lift|]. intros d.
  apply al_bind; [apply al_lift|]. intros d'. apply al_bind; [apply al_write|]. intros _. apply al_ret.
Qed.

(** ** A builder that is only given values *)
Section B.
Context {V R : Type}.
Variable c : codec V.
Variable io : node_io V.
Variable shared : bool.
Variable rcinc : V -> st R unit.
Hypothesis Hm : 4 <= calc_max_entries c.
Notation m := (calc_max_entries c).
Notation bst := (@Builder_Model.bst V R).

Definition VO (b : nbuilder V R) : Prop :=
  Forall (fun s => m / 2 <= su_nr s) (nb_nodes b) /\ (nb_nodes b = [] \/ m <= nlen (nb_values b)) /\ nlen (nb_values b) <= m * 2.

Lemma bind_inv {S A B} (x : st S A) (f : A -> st S B) s s' b : bindst x f s = (s', Ok b) ->
  exists s1 a, x s = (s1, Ok a) /\ f a s1 = (s', Ok b).
Proof. unfold bindst. destruct (x s) as [s1 [a| |]]; try discriminate. eauto. Qed.

Lemma al_emit_values nr w (b : nbuilder V R) w' b' u : SI w -> emit_values c io shared nr (w, b) = ((w', b'), Ok u) ->
  AL w w' /\ nr <= nlen (nb_values b) /\ nb_values b' = skipn (N.to_nat nr) (nb_values b) /\
  (exists s, nb_nodes b' = nb_nodes b ++ [s] /\ su_nr s = nr) /\ nb_last b' = nb_last b.
Proof.
  intros H E. unfold emit_values in E. apply bind_inv in E as (s1 & b1 & E1 & E). unfold getb in E1. injection E1 as <- <-.
  destruct (N.ltb_spec (nlen (nb_values b)) nr) as [Hlt|Hge]; [discriminate|].
  apply bind_inv in E as (s1 & [] & E1 & E). unfold onb in E1. cbn in E1. injection E1 as <-.
  apply bind_inv in E as (s1 & [k loc] & E1 & E). unfold onw in E1.
  destruct (write_node _ _ _ _ _) as [w1 r] eqn:Ew. injection E1 as <- ->.
  eapply al_write_node in Ew; auto. unfold onb in E. cbn in E. injection E as <- <- _. cbn. conj; auto. eexists; split; [reflexivity|auto].
Qed.

Lemma al_emit_all w (b : nbuilder V R) w' b' u : SI w -> emit_all c io shared (w, b) = ((w', b'), Ok u) -> AL w w'.
Proof.
  intros H E. unfold emit_all in E. apply bind_inv in E as (s1 & b1 & E1 & E). unfold getb in E1. injection E1 as <- <-.
  destruct (nlen (nb_values b) =? 0); [injection E as <- _ _; apply AL_refl; auto|].
  destruct (nlen (nb_values b) <=? maxe c); [apply al_emit_values in E; tauto|].
  destruct (nlen (nb_values b) <=? maxe c * 2); [|discriminate].
  apply bind_inv in E as ([w1 b1] & [] & E1 & E). apply al_emit_values in E1; auto. destruct E1 as [A1 _].
  apply al_emit_values in E; [|apply A1]. eapply AL_trans; [exact A1|tauto].
Qed.

Lemma al_push w b w' b' k v u : SI w -> VO b -> push_value c io shared rcinc k v (w, b) = ((w', b'), Ok u) -> AL w w' /\ VO b'.
Proof.
  intros H (HF & Hsh & Hlen) E. unfold push_value in E. apply bind_inv in E as (s1 & b1 & E1 & E). unfold getb in E1. injection E1 as <- <-.
  apply bind_inv in E as ([w1 b1] & [] & E1 & E).
  assert (Hemit : (if nlen (nb_values b) =? maxe c * 2 then emit_node c io shared else ret tt) (w, b) = ((w1, b1), Ok tt)).
  { destruct (nb_nodes b) as [|s [|s2 r]]; auto. inversion HF; subst. unfold half, maxe in E1.
    destruct (N.ltb_spec (su_nr s) (m / 2)); [lia|]. exact E1. }
  assert (AL w w1 /\ Forall (fun s => m / 2 <= su_nr s) (nb_nodes b1) /\ (nb_nodes b1 = [] \/ m <= nlen (nb_values b1)) /\ nlen (nb_values b1) < m * 2) as (A1 & V1 & V2 & V3).
  { unfold maxe in Hemit. destruct (N.eqb_spec (nlen (nb_values b)) (m * 2)) as [E2|E2].
    - unfold emit_node, maxe in Hemit. apply al_emit_values in Hemit; auto. destruct Hemit as (A & B & C & (s & D & D2) & F).
      assert (nlen (nb_values b1) = m) as Hl. { rewrite C. unfold nlen in *. rewrite skipn_length. lia. }
      conj; auto; [|lia|lia]. rewrite D. apply Forall_app. split; auto. constructor; auto. rewrite D2. dlia.
    - injection Hemit as <- <-. conj; auto; [apply AL_refl; auto|lia]. }
  clear E1 Hemit. apply bind_inv in E as ([w2 b2] & [] & E2 & E).
  assert (w2 = w1 /\ nb_values b2 = nb_values b1 /\ nb_nodes b2 = nb_nodes b1) as (-> & S1 & S2).
  { unfold check_ordered_key in E2. apply bind_inv in E2 as (s3 & b3 & E3 & E2). unfold getb in E3. injection E3 as <- <-. cbn [snd] in E2.
    destruct (nb_last b1); [destruct (k <=? n0); [discriminate|]|]; unfold onb in E2; injection E2 as <- <-; auto. }
  apply bind_inv in E as ([w3 b3] & [] & E3 & E). unfold onrc in E3.
  destruct (rcinc v (nb_rc b2)) as [r' r3]. cbn in E3. injection E3 as <- <- ->.
  unfold onb in E. cbn in E. injection E as <- <- _. split; [auto|].
  unfold VO, set_values. cbn [nb_nodes nb_values]. rewrite S1, S2. unfold nlen in *. rewrite app_length. cbn [length]. conj; auto; [|lia].
  destruct V2 as [?|?]; auto. right. lia.
Qed.

Lemma al_complete w b w' b' ns : SI w -> VO b -> nb_complete c io shared rcinc (w, b) = ((w', b'), Ok ns) -> AL w w'.
Proof.
  intros H (HF & Hsh & Hlen) E. unfold nb_complete in E. apply bind_inv in E as (s1 & b1 & E1 & E). unfold getb in E1. injection E1 as <- <-.
  apply bind_inv in E as ([w1 b1] & [] & E1 & E).
  assert (w1 = w /\ b1 = b) as [-> ->].
  { destruct (_ && _ && _) eqn:Ec in E1; [|injection E1 as <- <-; auto]. exfalso.
    apply andb_prop in Ec as [Ec E3]. apply andb_prop in Ec as [_ Ec2]. apply N.ltb_lt in Ec2. unfold half, maxe in Ec2.
    apply negb_true_iff, Nat.eqb_neq in E3. destruct Hsh as [Hsh|Hsh].
    - rewrite Hsh in E3. cbn in E3. lia.
    - assert (m / 2 <= m) by dlia. lia. }
  apply bind_inv in E as ([w2 b2] & [] & E2 & E). apply al_emit_all in E2; auto.
  apply bind_inv in E as (s1 & b3 & E3 & E). unfold getb in E3. injection E3 as <- <-.
  apply bind_inv in E as ([w4 b4] & [] & E4 & E).
  assert (AL w2 w4) as A4.
  { cbn [snd] in E4. destruct (nb_nodes b2).
    - apply al_emit_values in E4; [tauto|apply E2].
    - injection E4 as <- _. apply AL_refl. apply E2. }
  apply bind_inv in E as (s1 & b5 & E5 & E). unfold getb in E5. injection E5 as <- <-. injection E as <- _ _.
  eapply AL_trans; eauto.
Qed.

Lemma al_pushes kvs : forall w b w' b' u, SI w -> VO b ->
  do_ops c io shared rcinc (map push_op kvs) (w, b) = ((w', b'), Ok u) -> AL w w' /\ VO b'.
Proof.
  induction kvs as [|kv r IH]; intros w b w' b' u H Hv E; cbn [map do_ops] in E.
  - injection E as <- <- _. split; auto. apply AL_refl; auto.
  - apply bind_inv in E as ([w1 b1] & [] & E1 & E). cbn [do_op push_op] in E1.
    apply al_push in E1; auto. destruct E1 as [A1 V1]. apply IH in E; [|apply A1|auto]. split; [|tauto]. eapply AL_trans; [exact A1|tauto].
Qed.
Lemma VO_new rc : VO (nb_new rc).
Proof. unfold VO. cbn. conj; auto. lia. Qed.
Lemma al_build_values kvs rc : al (build_nodes c io shared rcinc (map push_op kvs) rc).
Proof.
  intros w w' [ns rc'] H E. unfold build_nodes in E.
  destruct ((_ <~ do_ops c io shared rcinc (map push_op kvs) ;; nb_complete c io shared rcinc) (w, nb_new rc)) as [[w1 b1] [ns1| |]] eqn:E1; try discriminate.
  apply bind_inv in E1 as ([w2 b2] & [] & E2 & E1). apply al_pushes in E2; auto using VO_new. destruct E2 as [A2 V2].
  apply al_complete in E1; auto; [|apply A2]. injection E as <- _ _. eapply AL_trans; eauto.
Qed.
End B.

Lemma al_build_levels fuel : forall ns, al (build_levels fuel ns).
Proof.
  induction fuel as [|f IH]; intros [|s [|s2 r]]; cbn [build_levels]; try apply al_lift; try apply al_ret.
  set (l := s :: s2 :: r).
  assert (map (fun n0 => PushValue (su_key n0) (su_block n0)) l = map push_op (map (fun s => (su_key s, su_block s)) l)) as -> by (rewrite map_map; auto).
  apply al_bind.
  - apply al_build_values. rewrite m_u64. lia.
  - intros [up u]. apply IH.
Qed.
Lemma al_build_btree ns : al (build_btree ns).
Proof. apply al_build_levels. Qed.
End AL.
