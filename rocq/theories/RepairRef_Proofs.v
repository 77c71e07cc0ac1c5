(** The blocks marked as referenced are exactly the children of the valid nodes. *)
From Verif Require Import Base Csum_Model Codec_Model Pack_Proofs Repair_Model Repair_Spec BtreeBuild_Proofs.

Section Ref.
Context (nr : N) (eng : N -> option (list N)).

(** [x] is a child of the internal node in block [p]. *)
Definition child_of (p x : N) : Prop := exists h ks bs, node_in u64_codec eng p (Internal h ks bs) /\ In x bs.
Definition ref_ok (s : col) (extra : N -> Prop) : Prop :=
  forall x, k_referenced s x = true <-> (exists p, k_infos s p <> None /\ child_of p x) \/ extra x.
Definition none (_ : N) : Prop := False.
Definition keeps (get : N -> col -> col * res ninfo) : Prop :=
  forall b s s' r, ref_ok s none -> get b s = (s', r) -> r <> Panic -> ref_ok s' none.

Ltac fin := first [congruence | match goal with E : (?a, _) = (?b, _) |- ref_ok ?b _ => let H := fresh in assert (H : a = b) by congruence; rewrite <- H; assumption
  | E : Ok ?a = Ok ?b |- ref_ok ?b _ => let H := fresh in assert (H : a = b) by congruence; rewrite <- H; assumption end].
Section Node.
Context (get : N -> col -> col * res ninfo) (Hget : keeps get).
Lemma push_children_ref {I} (sel : ninfo -> option I) push bs : forall (i : I) s s' r, ref_ok s none ->
  push_children get sel push i bs s = (s', r) -> r <> Panic -> ref_ok s' none.
Proof using Hget.
  induction bs as [|b bs IH]; intros i s s' r H E Hp; cbn [push_children] in E; [fin|].
  destruct (get b s) as [s1 r1] eqn:Eg. 
  assert (H1 : r1 <> Panic -> ref_ok s1 none) by (intros; eapply Hget; eauto).
  destruct r1 as [n| |]; [|assert (s1 = s') by congruence; subst; apply H1; discriminate|fin].
  specialize (H1 ltac:(discriminate)).
  destruct (sel n); [|fin]. destruct (push i i0); [eauto|fin|fin].
Qed.
Lemma dev_leaf_loop_ref bs : forall i s s' r, ref_ok s none -> dev_leaf_loop get i bs s = (s', r) -> r <> Panic -> ref_ok s' none.
Proof using Hget.
  induction bs as [|b bs IH]; intros i s s' r H E Hp; cbn [dev_leaf_loop] in E; [fin|].
  destruct (get b s) as [s1 r1] eqn:Eg.
  assert (H1 : r1 <> Panic -> ref_ok s1 none) by (intros; eapply Hget; eauto).
  destruct r1 as [n| |]; [|assert (s1 = s') by congruence; subst; apply H1; discriminate|fin].
  specialize (H1 ltac:(discriminate)). destruct n; [fin|eauto|fin].
Qed.
Lemma set_referenced_ref bs : forall s s', set_referenced nr bs s = (s', Ok tt) ->
  k_infos s' = k_infos s /\ forall x, k_referenced s' x = true <-> k_referenced s x = true \/ In x bs.
Proof using.
  induction bs as [|b bs IH]; intros s s' E; cbn [set_referenced] in E.
  - assert (s = s') by congruence. subst s'. split; [auto|]. intros x. cbn [In]. tauto.
  - destruct (b <? nr); [|fin]. destruct (IH _ _ E) as [I1 I2]. split; [rewrite I1; auto|]. intros x. rewrite I2.
    cbn [k_referenced In]. unfold upd. destruct (N.eqb_spec x b) as [Eq|Eq]; intuition.
Qed.
Lemma gather_ref b s s' r : ref_ok s none -> gather_info nr eng get b s = (s', r) -> r <> Panic ->
  ref_ok s' (match r with Ok _ => child_of b | _ => none end).
Proof using Hget.
  intros H E Hp.
  assert (Q : forall n, (forall h ks bs, n = Leaf h ks bs -> node_in u64_codec eng b n) -> forall h ks bs, n = Leaf h ks bs -> forall x, ~ child_of b x).
  { intros n Hn h ks bs En x (h' & ks' & bs' & (data & D1 & D2 & D3) & _). destruct (Hn h ks bs En) as (data' & F1 & F2 & F3). congruence. }
  assert (L : (forall x, ~ child_of b x) -> ref_ok s' none -> ref_ok s' (match r with Ok _ => child_of b | _ => none end)).
  { intros Hn Hr x. destruct r; [|apply Hr|apply Hr]. rewrite (Hr x). unfold none. specialize (Hn x). tauto. }
  unfold gather_info in E.
  destruct (eng b) as [data|] eqn:Ee; [|assert (s = s' /\ r = Err) as [<- ->] by (split; congruence); auto].
  destruct (metadata_block_type data) eqn:Eb; try (assert (s = s' /\ r = Err) as [<- ->] by (split; congruence); exact H).
  destruct (nh_unpack data) as [[hdr rest]| |] eqn:Eh; [|assert (s = s' /\ r = Err) as [<- ->] by (split; congruence); exact H|fin].
  destruct (nh_value_size hdr =? 8).
  - destruct (unpack_node_raw u64_codec data true true) as [[h ks bs|h ks bs]| |] eqn:Eu;
      [| |assert (s = s' /\ r = Err) as [<- ->] by (split; congruence); exact H|fin].
    + unfold subtree_info in E. destruct (_ =? 0); [assert (s = s' /\ r = Err) as [<- ->] by (split; congruence); exact H|].
      destruct (get (hd 0 bs) s) as [s1 r1] eqn:Eg.
      assert (H1 : r1 <> Panic -> ref_ok s1 none) by (intros; eapply Hget; eauto).
      destruct r1 as [first| |]; [|assert (s1 = s' /\ r = Err) as [<- ->] by (split; congruence); apply H1; discriminate|fin].
      specialize (H1 ltac:(discriminate)).
      destruct (match first with NDev _ => _ | NMap _ => _ | NDet _ => _ end) as [s2 r2] eqn:E2.
      assert (H2 : r2 <> Panic -> ref_ok s2 none).
      { intros Hr2. destruct first; unfold wrap in E2; destruct (push_children _ _ _ _ _ _) as [s3 r3] eqn:E3; cbn [fst snd] in E2;
          assert (s3 = s2) by congruence; subst s3; (eapply push_children_ref; [exact H1|exact E3|intros ->; congruence]). }
      destruct r2 as [i| |]; [|assert (s2 = s' /\ r = Err) as [<- ->] by (split; congruence); apply H2; discriminate|fin].
      specialize (H2 ltac:(discriminate)).
      destruct (set_referenced nr bs s2) as [s3 [[]| |]] eqn:E3; [|fin|fin].
      assert (s3 = s' /\ r = Ok i) as [<- ->] by (split; congruence). destruct (set_referenced_ref bs s2 s3 E3) as [R1 R2].
      intros x. rewrite R2, R1. rewrite (H2 x). unfold none.
      assert (Hc : child_of b x <-> In x bs).
      { split; [|intros Hx; exists h, ks, bs; split; [exists data; auto|auto]].
        intros (h' & ks' & bs' & (data' & D1 & D2 & D3) & Hx). assert (data' = data) by congruence. subst data'.
        rewrite Eu in D3. assert (bs' = bs) by congruence. subst bs'. auto. }
      rewrite Hc. tauto.
    + assert (Hleaf : forall x, ~ child_of b x).
      { apply (Q (Leaf h ks bs)) with (h := h) (ks := ks) (bs := bs); auto. intros _ _ _ _. exists data. auto. }
      destruct (maybe_top_level nr bs).
      * unfold dev_leaf_info, wrap in E. destruct (dev_leaf_loop _ _ _ _) as [s2 r2] eqn:E2. cbn [fst snd] in E.
        apply L; auto. assert (s2 = s') by congruence. subst s2. eapply dev_leaf_loop_ref; eauto. intros ->. congruence.
      * apply L; auto. destruct (unpack_node_raw bt_codec data true true) as [[|]| |]; fin.
  - destruct (nh_value_size hdr =? 24); [|assert (s = s' /\ r = Err) as [<- ->] by (split; congruence); exact H].
    destruct (unpack_node_raw dd_codec data true true) as [[h ks bs|h ks bs]| |] eqn:Eu;
      [assert (s = s' /\ r = Err) as [<- ->] by (split; congruence); exact H| |assert (s = s' /\ r = Err) as [<- ->] by (split; congruence); exact H|fin].
    apply L; [|fin]. intros x (h' & ks' & bs' & (data' & D1 & D2 & D3) & Hx). assert (data' = data) by congruence. subst data'.
    apply (unpack_internal_any u64_codec dd_codec) in D3. congruence.
Qed.
End Node.

Lemma get_info_ref fuel : keeps (get_info nr eng fuel).
Proof using.
  induction fuel as [|fuel IH]; intros b s s' r H E Hp; cbn [get_info] in E.
  - destruct (k_examined s b); [fin|]. destruct (negb _); fin.
  - destruct (k_examined s b); [fin|]. destruct (negb _); [fin|].
    destruct (gather_info _ _ _ b _) as [s2 r2] eqn:E2.
    assert (r2 <> Panic) by (intros ->; congruence).
    pose proof (gather_ref _ IH b _ _ _ (H : ref_ok (mkcol _ _ (k_infos s)) none) E2 ltac:(auto)) as G.
    destruct r2 as [i| |]; [|fin|fin].
    assert (s' = mkcol (k_examined s2) (k_referenced s2) (upd (k_infos s2) b (Some i))) by congruence. subst s'.
    intros x. cbn [k_referenced k_infos]. rewrite (G x). unfold none, upd. split.
    + intros [(p & P1 & P2)|Hx]; left; [exists p|exists b].
      * destruct (p =? b); auto. split; [discriminate|auto].
      * rewrite N.eqb_refl. split; [discriminate|auto].
    + intros [(p & P1 & P2)|[]]. destruct (N.eqb_spec p b) as [Eq|Eq]; [subst p; auto|]. left. exists p. auto.
Qed.
Lemma collect_ref s : collect_infos nr eng = Ok s -> ref_ok s none.
Proof using.
  unfold collect_infos. assert (G : forall bs s0, ref_ok s0 none -> collect_blocks nr eng bs s0 = Ok s -> ref_ok s none).
  { induction bs as [|b bs IH]; intros s0 H0 E; cbn [collect_blocks] in E; [fin|].
    destruct (get_info nr eng (N.to_nat nr) b s0) as [s1 r] eqn:Eg.
    pose proof (get_info_ref _ b s0 s1 r H0 Eg) as G1. destruct r; [eapply IH; [apply G1; discriminate|eauto]|eapply IH; [apply G1; discriminate|eauto]|discriminate]. }
  apply G. intros x. cbn [col_new k_referenced k_infos]. split; [discriminate|]. intros [(p & P & _)|[]]. congruence.
Qed.
End Ref.
