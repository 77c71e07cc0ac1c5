(** The repair does not panic when no pointer leads off the device, and the recursion is
    bounded by the number of blocks. *)
From Verif Require Import Base Csum_Model Codec_Model Codec_Spec Codec_Proofs NodeCodec_Proofs Pack_Proofs Repair_Model Repair_Spec BtreeRead_Proofs.

Section NP.
Context (nr : N) (eng : N -> option (list N)) (Hdev : device eng) (Hptr : pointers_within nr eng).

Definition more (s s' : col) : Prop := forall x, k_examined s x = true -> k_examined s' x = true.
Definition unex (s : col) : nat := length (filter (fun b => negb (k_examined s b)) (range 0 nr)).
Lemma more_refl s : more s s.
Proof using. intros x; auto. Qed.
Lemma more_trans a b c : more a b -> more b c -> more a c.
Proof using. intros H1 H2 x Hx. auto. Qed.
Lemma filter_le {A} (f g : A -> bool) l : (forall x, f x = true -> g x = true) -> (length (filter f l) <= length (filter g l))%nat.
Proof using.
  intros H. induction l as [|x l IH]; cbn [filter]; auto. specialize (H x). destruct (f x), (g x); cbn [length]; try lia.
Qed.
Lemma filter_lt {A} (f g : A -> bool) l a : (forall x, f x = true -> g x = true) -> In a l -> g a = true -> f a = false ->
  (length (filter f l) < length (filter g l))%nat.
Proof using.
  intros H. induction l as [|x l IH]; intros Ha G F; [destruct Ha|]. pose proof (filter_le f g l H) as Hle. cbn [filter].
  destruct Ha as [E|Ha].
  - subst x. rewrite G, F. cbn [length]. lia.
  - specialize (IH Ha G F). specialize (H x). destruct (f x), (g x); cbn [length]; try lia.
Qed.
Lemma unex_more s s' : more s s' -> (unex s' <= unex s)%nat.
Proof using.
  intros H. unfold unex. apply filter_le. intros x Hx. apply Bool.negb_true_iff in Hx. apply Bool.negb_true_iff.
  specialize (H x). destruct (k_examined s x); auto. rewrite H in Hx by auto. discriminate.
Qed.

Definition fine (n : nat) (get : N -> col -> col * res ninfo) : Prop := forall b s s' r, b < nr -> (unex s <= n)%nat ->
  get b s = (s', r) -> more s s' /\ r <> Panic.

Section Node.
Context (n : nat) (get : N -> col -> col * res ninfo) (Hget : fine n get).
Lemma push_fine {I} (sel : ninfo -> option I) push bs : (forall i c, push i c <> Panic) -> forall (i : I) s s' r,
  (forall x, In x bs -> x < nr) -> (unex s <= n)%nat -> push_children get sel push i bs s = (s', r) -> more s s' /\ r <> Panic.
Proof using Hget.
  intros Hp. induction bs as [|b bs IH]; intros i s s' r Hb Hn E; cbn [push_children] in E.
  { assert (s = s') by congruence. subst s'. split; [apply more_refl|]. intros ->. congruence. }
  destruct (get b s) as [s1 r1] eqn:Eg.
  destruct (Hget b s s1 r1 (Hb b (or_introl eq_refl)) Hn Eg) as [G1 G2].
  assert (Q : s1 = s' -> r = Err -> more s s' /\ r <> Panic) by (intros <- ->; split; [auto|discriminate]).
  destruct r1 as [x| |]; [|apply Q; congruence|congruence].
  destruct (sel x) as [c|]; [|apply Q; congruence]. specialize (Hp i c).
  destruct (push i c) as [i1| |]; [|apply Q; congruence|congruence].
  pose proof (unex_more _ _ G1).
  destruct (IH i1 s1 s' r ltac:(intros y Hy; apply Hb; right; auto) ltac:(lia) E) as [I1 I2]. split; [eapply more_trans; eauto|auto].
Qed.
Lemma dev_loop_fine bs : forall i s s' r,
  (forall x, In x bs -> x < nr) -> (unex s <= n)%nat -> dev_leaf_loop get i bs s = (s', r) -> more s s' /\ r <> Panic.
Proof using Hget.
  induction bs as [|b bs IH]; intros i s s' r Hb Hn E; cbn [dev_leaf_loop] in E.
  { assert (s = s') by congruence. subst s'. split; [apply more_refl|]. intros ->. congruence. }
  destruct (get b s) as [s1 r1] eqn:Eg.
  destruct (Hget b s s1 r1 (Hb b (or_introl eq_refl)) Hn Eg) as [G1 G2].
  assert (Q : s1 = s' -> r = Err -> more s s' /\ r <> Panic) by (intros <- ->; split; [auto|discriminate]).
  destruct r1 as [[|c|]| |]; [apply Q; congruence| |apply Q; congruence|apply Q; congruence|congruence].
  pose proof (unex_more _ _ G1).
  destruct (IH (dev_add i c) s1 s' r ltac:(intros y Hy; apply Hb; right; auto) ltac:(lia) E) as [I1 I2]. split; [eapply more_trans; eauto|auto].
Qed.
Lemma set_ref_fine bs : forall s s' r, (forall x, In x bs -> x < nr) -> set_referenced nr bs s = (s', r) -> more s s' /\ r = Ok tt.
Proof using.
  induction bs as [|b bs IH]; intros s s' r Hb E; cbn [set_referenced] in E.
  { assert (s = s' /\ r = Ok tt) as [<- ->] by (split; congruence). split; [apply more_refl|auto]. }
  rewrite (proj2 (N.ltb_lt b nr)) in E by (apply Hb; left; auto).
  destruct (IH _ _ _ ltac:(intros y Hy; apply Hb; right; auto) E) as [I1 I2]. split; [exact I1|auto].
Qed.
Lemma push_nopanic : (forall i c, dev_push i c <> Panic) /\ (forall i c, map_push i c <> Panic) /\ (forall i c, det_push i c <> Panic).
Proof using. conj; intros i c; unfold dev_push, map_push, det_push; destruct (_ && _); discriminate. Qed.
Lemma gather_fine b s s' r : (unex s <= n)%nat -> gather_info nr eng get b s = (s', r) -> more s s' /\ r <> Panic.
Proof using Hget Hdev Hptr.
  intros Hn E. unfold gather_info in E.
  assert (Q : forall x, s = s' -> r = x -> x <> Panic -> more s s' /\ r <> Panic) by (intros x <- -> Hx; split; [apply more_refl|auto]).
  destruct (eng b) as [data|] eqn:Eb; [|apply (Q Err); congruence].
  destruct (metadata_block_type data) eqn:Et; try (apply (Q Err); congruence).
  destruct (Hdev b data Eb) as [Hbytes _].
  pose proof (nh_unpack_nopanic data) as P0.
  destruct (nh_unpack data) as [[hdr rest]| |]; [|apply (Q Err); congruence|congruence].
  pose proof (unpack_node_nopanic _ _ data true true u64_lossless Hbytes) as P1.
  pose proof (unpack_node_nopanic _ _ data true true bt_lossless Hbytes) as P2.
  pose proof (unpack_node_nopanic _ _ data true true dd_lossless Hbytes) as P3.
  destruct (nh_value_size hdr =? 8).
  - destruct (unpack_node_raw u64_codec data true true) as [[h ks bs|h ks bs]| |] eqn:Eu; [| |apply (Q Err); congruence|congruence].
    + (* internal *)
      destruct (Hptr b) as [Hc _]. specialize (Hc h ks bs ltac:(exists data; conj; auto)).
      destruct push_nopanic as (N1 & N2 & N3).
      unfold subtree_info in E. destruct (nh_nr_entries h =? 0) eqn:E0; [apply (Q Err); congruence|].
      assert (Hh : hd 0 bs < nr).
      { destruct bs as [|b0 bs]; [|apply Hc; left; auto]. exfalso.
        destruct (raw_facts _ _ _ _ _ Eu) as (_ & Hk & Hl). cbn [get_keys get_header] in *. apply N.eqb_neq in E0.
        unfold nlen in Hk. cbn [length] in Hl. lia. }
      destruct (get (hd 0 bs) s) as [s1 r1] eqn:Eg. destruct (Hget _ s s1 r1 Hh Hn Eg) as [G1 G2].
      pose proof (unex_more _ _ G1).
      destruct r1 as [first| |]; [|assert (s1 = s' /\ r = Err) as [<- ->] by (split; congruence); split; [auto|discriminate]|congruence].
      destruct (match first with NDev _ => _ | NMap _ => _ | NDet _ => _ end) as [s2 r2] eqn:E2.
      assert (H2 : more s1 s2 /\ r2 <> Panic).
      { destruct first; unfold wrap in E2; destruct (push_children _ _ _ _ _ _) as [s3 r3] eqn:E3; cbn [fst snd] in E2;
          (assert (s3 = s2) by congruence; subst s3;
           assert (Hn1 : (unex s1 <= n)%nat) by lia;
           first [destruct (push_fine _ _ bs N1 _ s1 _ _ Hc Hn1 E3) as [I1 I2]|destruct (push_fine _ _ bs N2 _ s1 _ _ Hc Hn1 E3) as [I1 I2]|destruct (push_fine _ _ bs N3 _ s1 _ _ Hc Hn1 E3) as [I1 I2]]; split; [exact I1|];
           destruct r3; congruence). }
      destruct H2 as [H2 H3]. destruct r2 as [i| |]; [|assert (s2 = s' /\ r = Err) as [<- ->] by (split; congruence); split; [eapply more_trans; eauto|discriminate]|congruence].
      destruct (set_referenced nr bs s2) as [s3 r3] eqn:E3. destruct (set_ref_fine bs s2 s3 r3 Hc E3) as [K1 ->].
      assert (s3 = s' /\ r = Ok i) as [<- ->] by (split; congruence).
      split; [eapply more_trans; [exact G1|]; eapply more_trans; eauto|discriminate].
    + destruct (maybe_top_level nr bs) eqn:Em.
      * assert (Hc : forall x, In x bs -> x < nr).
        { destruct (Hptr b) as [_ Hl]. assert (Hall : forall v, In v bs -> v <= nr).
          { unfold maybe_top_level in Em. destruct bs as [|b0 bs]; [intros v []|]. rewrite forallb_forall in Em.
            intros v Hv. apply N.leb_le, Em. auto. }
          specialize (Hl h ks bs ltac:(exists data; conj; auto) Hall). intros x Hx. specialize (Hall x Hx).
          assert (x <> nr) by congruence. lia. }
        unfold dev_leaf_info, wrap in E. destruct (dev_leaf_loop _ _ _ _) as [s2 r2] eqn:E2. cbn [fst snd] in E.
        assert (s2 = s') by congruence. subst s2. destruct (dev_loop_fine bs _ s s' r2 Hc Hn E2) as [I1 I2]. split; [auto|].
        destruct r2; congruence.
      * destruct (unpack_node_raw bt_codec data true true) as [[|]| |]; [apply (Q Err); congruence| |apply (Q Err); congruence|congruence].
        eapply Q; [congruence|symmetry; apply (f_equal snd) in E; exact E|discriminate].
  - destruct (nh_value_size hdr =? 24); [|apply (Q Err); congruence].
    destruct (unpack_node_raw dd_codec data true true) as [[|]| |]; [apply (Q Err); congruence| |apply (Q Err); congruence|congruence].
    eapply Q; [congruence|symmetry; apply (f_equal snd) in E; exact E|discriminate].
Qed.
End Node.

Lemma get_info_fine fuel : fine fuel (get_info nr eng fuel).
Proof using Hdev Hptr.
  induction fuel as [|fuel IH]; intros b s s' r Hb Hn E; cbn [get_info] in E.
  all: destruct (k_examined s b) eqn:Ex;
    [assert (s = s') by congruence; subst s'; split; [apply more_refl|destruct (k_infos s b); congruence]|].
  all: rewrite (proj2 (N.ltb_lt b nr) Hb) in E; cbn [negb] in E.
  all: set (s1 := mkcol (upd (k_examined s) b true) (k_referenced s) (k_infos s)) in *.
  all: assert (M : more s s1) by (intros x Hx; unfold s1; cbn [k_examined]; unfold upd; destruct (x =? b); auto).
  all: assert (L : (unex s1 < unex s)%nat) by
   (unfold unex; apply filter_lt with (a := b);
    [intros x Hx; apply Bool.negb_true_iff in Hx; apply Bool.negb_true_iff; specialize (M x); destruct (k_examined s x); auto; rewrite M in Hx by auto; discriminate
    |apply in_range; lia|rewrite Ex; auto|unfold s1; cbn [k_examined]; unfold upd; rewrite N.eqb_refl; auto]).
  - lia.
  - destruct (gather_info nr eng (get_info nr eng fuel) b s1) as [s2 r2] eqn:E2.
    destruct (gather_fine fuel _ IH b s1 s2 r2 ltac:(lia) E2) as [G1 G2].
    destruct r2 as [i| |]; [| |congruence].
    + assert (s' = mkcol (k_examined s2) (k_referenced s2) (upd (k_infos s2) b (Some i)) /\ r = Ok i) as [-> ->] by (split; congruence).
      split; [|discriminate]. intros x Hx. cbn [k_examined]. auto.
    + assert (s2 = s' /\ r = Err) as [<- ->] by (split; congruence). split; [eapply more_trans; eauto|discriminate].
Qed.
Lemma collect_fine : collect_infos nr eng <> Panic.
Proof using Hdev Hptr.
  unfold collect_infos.
  assert (G : forall bs s, (forall x, In x bs -> x < nr) -> (unex s <= N.to_nat nr)%nat -> collect_blocks nr eng bs s <> Panic).
  { induction bs as [|b bs IH]; intros s Hb Hn; cbn [collect_blocks]; [discriminate|].
    destruct (get_info nr eng (N.to_nat nr) b s) as [s1 r] eqn:Eg.
    destruct (get_info_fine _ b s s1 r (Hb b (or_introl eq_refl)) Hn Eg) as [G1 G2]. pose proof (unex_more _ _ G1).
    destruct r; [| |congruence]; (apply IH; [intros x Hx; apply Hb; right; auto|lia]). }
  apply G; [intros x Hx; apply in_range in Hx; lia|]. unfold unex.
  etransitivity; [apply (filter_le _ (fun _ => true)); auto|]. 
  assert (F : forall l : list N, filter (fun _ => true) l = l) by (induction l as [|x l I2]; cbn [filter]; congruence).
  rewrite F, range_length. lia.
Qed.
End NP.
