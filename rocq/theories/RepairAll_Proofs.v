(** Nothing of an undamaged pool is missed, and the repair does not panic on pointers
    within the device. *)
From Verif Require Import Base Csum_Model Codec_Model Codec_Spec Codec_Proofs NodeCodec_Proofs Pack_Proofs Repair_Model Repair_Spec
  IoMany_Proofs RepairInfo_Proofs BtreeBuild_Proofs BtreeRead_Proofs.

Section All.
Context (nr : N) (eng : N -> option (list N)) (K : N -> option part) (lvl : N -> nat) (HK : pool_on nr eng K lvl).

(** what is recorded of a part *)
Definition fits (p : part) (n : ninfo) : Prop :=
  match p, n with
  | PDev ks, NDev i => ks <> [] -> di_low i = hd 0 ks /\ di_high i = last ks 0
  | PMap ks, NMap i => ks <> [] -> mi_low i = hd 0 ks /\ mi_high i = last ks 0
  | PDet ks, NDet i => ks <> [] -> ti_low i = hd 0 ks /\ ti_high i = last ks 0
  | _, _ => False
  end.
Definition allfit (s : col) : Prop := forall b i p, k_infos s b = Some i -> K b = Some p -> fits p i.
Definition pre (n : option nat) (s : col) : Prop := forall x p, K x = Some p ->
  match n with Some m => (lvl x <= m)%nat | None => True end -> k_examined s x = true -> k_infos s x <> None.
Definition ready (b : N) (s : col) : Prop := match K b with Some _ => pre (Some (lvl b)) s | None => pre None s end.
Definition post (s s' : col) : Prop :=
  (forall x, k_infos s x <> None -> k_infos s' x <> None) /\
  forall x p, K x = Some p -> k_examined s' x = true -> k_examined s x = true \/ k_infos s' x <> None.
Lemma post_refl s : post s s.
Proof using. split; auto. Qed.
Lemma post_trans a b c : post a b -> post b c -> post a c.
Proof using.
  intros [A1 A2] [B1 B2]. split; [auto|]. intros x p Hx Hc. destruct (B2 x p Hx Hc) as [Hb|Hb]; [|auto].
  destruct (A2 x p Hx Hb) as [Ha|Ha]; auto.
Qed.
Lemma pre_post n s s' : pre n s -> post s s' -> pre n s'.
Proof using. intros P [Q1 Q2] x p Hx Hn He. destruct (Q2 x p Hx He) as [H|H]; [|auto]. apply Q1. eapply P; eauto. Qed.
Lemma ready_post b s s' : ready b s -> post s s' -> ready b s'.
Proof using. unfold ready. destruct (K b); intros; eapply pre_post; eauto. Qed.

Definition good (get : N -> col -> col * res ninfo) : Prop := forall b s s' r, allfit s -> ready b s -> get b s = (s', r) -> r <> Panic ->
  allfit s' /\ post s s' /\ forall p, K b = Some p -> exists i, r = Ok i /\ fits p i.

Section Node.
Context (get : N -> col -> col * res ninfo) (Hget : good get).

(** Whatever the children are. *)
Lemma push_any {I} (sel : ninfo -> option I) push bs : forall (i : I) s s' r, allfit s -> (forall b, In b bs -> ready b s) ->
  push_children get sel push i bs s = (s', r) -> r <> Panic -> allfit s' /\ post s s'.
Proof using Hget.
  induction bs as [|b bs IH]; intros i s s' r Hf Hr E Hp; cbn [push_children] in E.
  { assert (s = s') by congruence. subst s'. split; [auto|apply post_refl]. }
  destruct (get b s) as [s1 r1] eqn:Eg.
  assert (N1 : r1 <> Panic) by (intros ->; congruence).
  destruct (Hget b s s1 r1 Hf (Hr b (or_introl eq_refl)) Eg N1) as (G1 & G2 & _).
  destruct r1 as [n| |]; [|assert (s1 = s') by congruence; subst; auto|congruence].
  destruct (sel n) as [c|]; [|assert (s1 = s') by congruence; subst; auto].
  destruct (push i c) as [i1| |]; [|assert (s1 = s') by congruence; subst; auto|congruence].
  destruct (IH i1 s1 s' r G1) as [I1 I2]; auto.
  { intros b' Hb'. eapply ready_post; [apply Hr; right; auto|auto]. }
  split; [auto|]. eapply post_trans; eauto.
Qed.
Lemma dev_loop_any bs : forall i s s' r, allfit s -> (forall b, In b bs -> ready b s) ->
  dev_leaf_loop get i bs s = (s', r) -> r <> Panic -> allfit s' /\ post s s'.
Proof using Hget.
  induction bs as [|b bs IH]; intros i s s' r Hf Hr E Hp; cbn [dev_leaf_loop] in E.
  { assert (s = s') by congruence. subst s'. split; [auto|apply post_refl]. }
  destruct (get b s) as [s1 r1] eqn:Eg.
  assert (N1 : r1 <> Panic) by (intros ->; congruence).
  destruct (Hget b s s1 r1 Hf (Hr b (or_introl eq_refl)) Eg N1) as (G1 & G2 & _).
  destruct r1 as [[|c|]| |]; [assert (s1 = s') by congruence; subst; auto| |assert (s1 = s') by congruence; subst; auto|assert (s1 = s') by congruence; subst; auto|congruence].
  destruct (IH (dev_add i c) s1 s' r G1) as [I1 I2]; auto.
  { intros b' Hb'. eapply ready_post; [apply Hr; right; auto|auto]. }
  split; [auto|]. eapply post_trans; eauto.
Qed.
Lemma set_ref_same bs : forall s s' r, set_referenced nr bs s = (s', r) -> k_infos s' = k_infos s /\ k_examined s' = k_examined s.
Proof using.
  induction bs as [|b bs IH]; intros s s' r E; cbn [set_referenced] in E; [assert (s = s') by congruence; subst; auto|].
  destruct (b <? nr); [|assert (s = s') by congruence; subst; auto]. destruct (IH _ _ _ E) as [I1 I2]. auto.
Qed.
Lemma subtree_any h bs s s' r : allfit s -> (forall b, ready b s) -> subtree_info nr get h bs s = (s', r) -> r <> Panic ->
  allfit s' /\ post s s'.
Proof using Hget.
  intros Hf Hr E Hp. unfold subtree_info in E.
  destruct (_ =? 0); [assert (s = s') by congruence; subst s'; split; [auto|apply post_refl]|].
  destruct (get (hd 0 bs) s) as [s1 r1] eqn:Eg.
  assert (N1 : r1 <> Panic) by (intros ->; congruence).
  destruct (Hget _ s s1 r1 Hf (Hr _) Eg N1) as (G1 & G2 & _).
  destruct r1 as [first| |]; [|assert (s1 = s') by congruence; subst; auto|congruence].
  destruct (match first with NDev _ => _ | NMap _ => _ | NDet _ => _ end) as [s2 r2] eqn:E2.
  assert (N2 : r2 <> Panic) by (intros ->; congruence).
  assert (H2 : allfit s2 /\ post s1 s2).
  { destruct first; unfold wrap in E2; destruct (push_children _ _ _ _ _ _) as [s3 r3] eqn:E3; cbn [fst snd] in E2;
      assert (s3 = s2) by congruence; subst s3;
      (eapply push_any; [exact G1| |exact E3|intros ->; congruence]; intros b _; exact (ready_post b s s1 (Hr b) G2)). }
  destruct H2 as [H2 H3]. destruct r2 as [i| |]; [|assert (s2 = s') by congruence; subst; split; [auto|eapply post_trans; eauto]|congruence].
  destruct (set_referenced nr bs s2) as [s3 r3] eqn:E3. destruct (set_ref_same bs s2 s3 r3 E3) as [K1 K2].
  assert (s3 = s') by (destruct r3; congruence). subst s3. split.
  - intros b j p Hb. rewrite K1 in Hb. apply H2; auto.
  - eapply post_trans; [exact G2|]. destruct H3 as [P1 P2]. split; intros x; [rewrite K1; auto|]. rewrite K1, K2. exact (P2 x).
Qed.
Lemma gather_any b s s' r : allfit s -> (forall b, ready b s) -> gather_info nr eng get b s = (s', r) -> r <> Panic -> allfit s' /\ post s s'.
Proof using Hget.
  intros Hf Hr E Hp. assert (Q : s = s' -> allfit s' /\ post s s') by (intros <-; split; [auto|apply post_refl]).
  unfold gather_info in E. destruct (eng b) as [data|]; [|apply Q; congruence].
  destruct (metadata_block_type data); try (apply Q; congruence).
  destruct (nh_unpack data) as [[hdr rest]| |]; try (apply Q; congruence).
  destruct (nh_value_size hdr =? 8).
  - destruct (unpack_node_raw u64_codec data true true) as [[h ks bs|h ks bs]| |]; try (apply Q; congruence).
    + eapply subtree_any; eauto.
    + destruct (maybe_top_level nr bs).
      * unfold dev_leaf_info, wrap in E. destruct (dev_leaf_loop _ _ _ _) as [s2 r2] eqn:E2. cbn [fst snd] in E.
        assert (s2 = s') by congruence. subst s2. eapply dev_loop_any; eauto. intros ->. congruence.
      * destruct (unpack_node_raw bt_codec data true true) as [[|]| |]; apply Q; congruence.
  - destruct (nh_value_size hdr =? 24); [|apply Q; congruence].
    destruct (unpack_node_raw dd_codec data true true) as [[|]| |]; apply Q; congruence.
Qed.

(** The children are parts of the pool. *)
Definition accum (p : part) (pushed : bool) (low high : N) (done : list N) : Prop :=
  (pushed = false -> done = []) /\ (pushed = true -> done <> []) /\ (done <> [] -> low = hd 0 done /\ high = last done 0).
Lemma last_app_ne (a b : list N) : b <> [] -> last (a ++ b) 0 = last b 0.
Proof using.
  intros H. induction a as [|x a IH]; auto. cbn [app]. destruct (a ++ b) eqn:E; [|rewrite <- IH; auto].
  destruct a; [cbn in E; congruence|discriminate].
Qed.
Lemma hd_app_ne (a b : list N) : a <> [] -> hd 0 (a ++ b) = hd 0 a.
Proof using. destruct a; [congruence|auto]. Qed.
Lemma last_in (a : list N) : a <> [] -> In (last a 0) a.
Proof using.
  induction a as [|x a IH]; [congruence|]. intros _. destruct a as [|y a]; [left; auto|].
  right. change (last (x :: y :: a) 0) with (last (y :: a) 0). apply IH. discriminate.
Qed.
Lemma hd_in (a : list N) : a <> [] -> In (hd 0 a) a.
Proof using. destruct a; [congruence|left; auto]. Qed.

Section Push.
Context {I : Type} (sel : ninfo -> option I) (push : I -> I -> res I) (mk : I -> ninfo) (P : list N -> part)
  (low high : I -> N) (pushed : I -> bool).
Hypothesis sel_mk : forall n ks, fits (P ks) n -> exists i, sel n = Some i /\ (ks <> [] -> low i = hd 0 ks /\ high i = last ks 0).
Hypothesis push_ok : forall i c, pushed i && (low c <=? high i) = false ->
  exists i', push i c = Ok i' /\ pushed i' = true /\ low i' = (if pushed i then low i else low c) /\ high i' = high c.

Lemma push_parts bs : forall i done kss s s' r, allfit s -> (forall b, In b bs -> ready b s) ->
  Forall2 (fun b ks => K b = Some (P ks) /\ ks <> []) bs kss -> increasing (done ++ concat kss) ->
  (pushed i = false -> done = []) -> (pushed i = true -> done <> [] /\ low i = hd 0 done /\ high i = last done 0) ->
  push_children get sel push i bs s = (s', r) -> r <> Panic ->
  allfit s' /\ post s s' /\ exists i', r = Ok i' /\
    (done ++ concat kss <> [] -> low i' = hd 0 (done ++ concat kss) /\ high i' = last (done ++ concat kss) 0).
Proof using Hget sel_mk push_ok.
  induction bs as [|b bs IH]; intros i done kss s s' r Hf Hr F Hi H1 H2 E Hp; inversion F as [|? ks ? kss' [Hk Hne] F']; subst; cbn [push_children] in E.
  - assert (s = s') by congruence. subst s'. split; [auto|]. split; [apply post_refl|]. exists i. split; [congruence|].
    cbn [concat]. rewrite app_nil_r. intros Hd. destruct (pushed i); [apply H2; auto|]. rewrite H1 in Hd by auto. congruence.
  - destruct (get b s) as [s1 r1] eqn:Eg.
    assert (N1 : r1 <> Panic) by (intros ->; congruence).
    destruct (Hget b s s1 r1 Hf (Hr b (or_introl eq_refl)) Eg N1) as (G1 & G2 & G3).
    destruct (G3 _ Hk) as (n & -> & Hn). destruct (sel_mk n ks Hn) as (c & Ec & Hlow). rewrite Ec in E. destruct (Hlow Hne) as [L1 L2].
    cbn [concat] in Hi. destruct (push_ok i c) as (i1 & Ei & Hp1 & Hl1 & Hh1).
    { destruct (pushed i); [|auto]. cbn [andb]. destruct (H2 eq_refl) as (D1 & D2 & D3). apply N.leb_gt. rewrite L1, D3.
      apply increasing_app in Hi. destruct Hi as (_ & _ & Hi). apply Hi; [apply last_in; auto|]. apply in_app_iff. left. apply hd_in. auto. }
    rewrite Ei in E. rewrite app_assoc in Hi.
    destruct (IH i1 (done ++ ks) kss' s1 s' r G1) as (I1 & I2 & i' & I3 & I4); auto.
    { intros b' Hb'. eapply ready_post; [apply Hr; right; auto|auto]. }
    { intros Hx. congruence. }
    { intros _. split; [destruct done; [auto|discriminate]|]. rewrite Hl1, Hh1, L1, L2, last_app_ne by auto. split; [|auto].
      destruct (pushed i) eqn:Epi; [destruct (H2 eq_refl) as (D1 & D2 & _); rewrite hd_app_ne; auto|]. rewrite H1 by auto. auto. }
    split; [auto|]. split; [eapply post_trans; eauto|]. exists i'. split; [auto|]. cbn [concat]. rewrite app_assoc. auto.
Qed.
End Push.

Lemma dev_loop_parts bs : forall i s s' r, allfit s -> (forall b, In b bs -> ready b s) ->
  Forall (fun b => exists ks, K b = Some (PMap ks)) bs -> dev_leaf_loop get i bs s = (s', r) -> r <> Panic ->
  allfit s' /\ post s s' /\ exists i', r = Ok i' /\ di_low i' = di_low i /\ di_high i' = di_high i.
Proof using Hget.
  induction bs as [|b bs IH]; intros i s s' r Hf Hr F E Hp; cbn [dev_leaf_loop] in E.
  { assert (s = s') by congruence. subst s'. split; [auto|]. split; [apply post_refl|]. exists i. split; [congruence|auto]. }
  apply Forall_inv in F as F1. apply Forall_inv_tail in F. destruct F1 as [ks Hk].
  destruct (get b s) as [s1 r1] eqn:Eg.
  assert (N1 : r1 <> Panic) by (intros ->; congruence).
  destruct (Hget b s s1 r1 Hf (Hr b (or_introl eq_refl)) Eg N1) as (G1 & G2 & G3).
  destruct (G3 _ Hk) as (n & -> & Hn). destruct n as [|c|]; try (exfalso; exact Hn).
  destruct (IH (dev_add i c) s1 s' r G1) as (I1 & I2 & i' & I3 & I4); auto.
  { intros b' Hb'. eapply ready_post; [apply Hr; right; auto|auto]. }
  split; [auto|]. split; [eapply post_trans; eauto|]. exists i'. auto.
Qed.

(** The node of a part: all its children are ready. *)
Lemma gather_part b p s s' r : K b = Some p -> allfit s -> (forall x q, K x = Some q -> (lvl x < lvl b)%nat -> ready x s) ->
  gather_info nr eng get b s = (s', r) -> r <> Panic -> allfit s' /\ post s s' /\ exists i, r = Ok i /\ fits p i.
Proof using HK Hget.
  intros Hb Hf Hr E Hp. destruct (HK b p Hb) as [Hbn [HL|HI]].
  - (* a leaf *)
    assert (HN : forall V (c : codec V) n, node_in c eng b n -> (csize c = 8 \/ csize c = 24)%nat -> forall h ks vs, n = Leaf h ks vs ->
       exists data hdr rest, eng b = Some data /\ metadata_block_type data = NODE /\ nh_unpack data = Ok (hdr, rest) /\
         nh_value_size hdr = N.of_nat (csize c) /\ unpack_node_raw c data true true = Ok n).
    { intros V c n (data & D1 & D2 & D3) Hc h ks vs Hn. subst n. unfold unpack_node_raw in D3 at 1.
      destruct (nh_unpack data) as [[hdr rest]| |] eqn:Eh; try discriminate. cbn [bind] in D3. exists data, hdr, rest. conj; auto.
      - destruct (nh_is_leaf hdr) eqn:El; cbn [andb] in D3.
        + destruct (negb (nh_value_size hdr =? N.of_nat (csize c))) eqn:En; [discriminate|]. apply Bool.negb_false_iff, N.eqb_eq in En. auto.
        + repeat match type of D3 with (if ?x then Err else _) = _ => destruct x; [discriminate|] end.
          inv_bind D3. destruct a as [q1 q2]. repeat match type of D3 with (if ?x then Err else _) = _ => destruct x; [discriminate|] end.
          inv_bind D3. destruct a as [q3 q4]. inv_bind D3. destruct a as [q5 q6]. apply Ok_inj in D3. discriminate.
      - unfold unpack_node_raw. rewrite Eh. cbn [bind]. exact D3. }
    destruct p as [ks|ks|ks]; cbn [leaf_part] in HL.
    + destruct HL as (h & bs & Hin & Hne & Hch). destruct (HN _ _ _ Hin (or_introl eq_refl) _ _ _ eq_refl) as (data & hdr & rest & D1 & D2 & D3 & D4 & D5).
      unfold gather_info in E. rewrite D1, D2, D3 in E. rewrite D4 in E. change (N.of_nat (csize u64_codec) =? 8) with true in E. cbv iota in E.
      rewrite D5 in E.
      assert (Ht : maybe_top_level nr bs = true).
      { unfold maybe_top_level. destruct bs as [|b0 bs0]; [congruence|]. apply forallb_forall. intros v Hv. rewrite Forall_forall in Hch.
        destruct (Hch v Hv) as (ks' & Hk & _). destruct (HK v _ Hk) as [Hlt _]. apply N.leb_le. lia. }
      rewrite Ht in E. unfold dev_leaf_info, wrap in E. destruct (dev_leaf_loop _ _ _ _) as [s2 r2] eqn:E2. cbn [fst snd] in E.
      assert (s2 = s') by congruence. subst s2.
      assert (N2 : r2 <> Panic) by (intros ->; congruence).
      assert (R1 : forall x, In x bs -> ready x s).
      { intros x Hx. rewrite Forall_forall in Hch. destruct (Hch x Hx) as (ks' & Hk & Hl). eapply Hr; eauto. }
      assert (R2 : Forall (fun b => exists ks, K b = Some (PMap ks)) bs).
      { eapply Forall_impl; [|exact Hch]. intros x (ks' & Hk & _). eauto. }
      destruct (dev_loop_parts bs _ s s' r2 Hf R1 R2 E2 N2) as (I1 & I2 & i' & I3 & I4 & I5).
      subst r2. split; [auto|]. split; [auto|]. exists (NDev i'). split; [congruence|]. intros _. cbn [di_low di_high] in I4, I5. auto.
    + destruct HL as (h & vs & raw & Hin & Hraw & Hamb). destruct (HN _ _ _ Hin (or_introl eq_refl) _ _ _ eq_refl) as (data & hdr & rest & D1 & D2 & D3 & D4 & D5).
      destruct Hraw as (data' & R1 & R2 & R3). assert (data' = data) by congruence. subst data'.
      unfold gather_info in E. rewrite D1, D2, D3 in E. rewrite D4 in E. change (N.of_nat (csize bt_codec) =? 8) with true in E. cbv iota in E.
      rewrite R3 in E.
      assert (Ht : maybe_top_level nr raw = false).
      { unfold maybe_top_level. destruct raw as [|v0 raw0] eqn:Er; [auto|]. rewrite <- Er in *. destruct Hamb as [Hamb|(v & Hv & Hl)]; [congruence|].
        destruct (forallb _ raw) eqn:Ef; auto. rewrite forallb_forall in Ef. apply Ef, N.leb_le in Hv. lia. }
      rewrite Ht, D5 in E. assert (s = s') by congruence. subst s'. split; [auto|]. split; [apply post_refl|].
      eexists. split; [symmetry; apply (f_equal snd) in E; exact E|]. intros Hne.
      destruct (mapping_leaf_gen vs (mkmi (nh_block h) (nh_nr_entries h) (low_key ks) (high_key ks) [] 0 0 false) [] greatest_nil greatest_nil RepairOrd_Proofs.counts_nil)
        as (_ & _ & A3 & A4 & _). auto.
    + destruct HL as (h & vs & Hin). destruct (HN _ _ _ Hin (or_intror eq_refl) _ _ _ eq_refl) as (data & hdr & rest & D1 & D2 & D3 & D4 & D5).
      unfold gather_info in E. rewrite D1, D2, D3 in E. rewrite D4 in E. change (N.of_nat (csize dd_codec) =? 8) with false in E.
      change (N.of_nat (csize dd_codec) =? 24) with true in E. cbv iota in E. rewrite D5 in E.
      assert (s = s') by congruence. subst s'. split; [auto|]. split; [apply post_refl|].
      eexists. split; [symmetry; apply (f_equal snd) in E; exact E|]. intros Hne.
      destruct (raw_facts _ _ _ _ _ D5) as (_ & _ & Hl).
      destruct (details_leaf_gen vs (mkdet (nh_block h) (nh_nr_entries h) 0 (low_key ks) (high_key ks) 0 0 false) []
        greatest_nil greatest_nil eq_refl ks Hl) as (_ & _ & A3 & A4 & _). auto.
  - (* an internal node *)
    destruct HI as (h & ks & bs & kss & (data & D1 & D2 & D3) & Hv & Hne & F & Ek & Hinc).
    assert (Hh : exists rest, nh_unpack data = Ok (h, rest)).
    { unfold unpack_node_raw in D3. destruct (nh_unpack data) as [[hdr rest]| |] eqn:Eh; try discriminate. cbn [bind] in D3. exists rest.
      repeat match type of D3 with (if ?x then Err else _) = _ => destruct x; [discriminate|] end.
      inv_bind D3. destruct a as [q1 q2]. repeat match type of D3 with (if ?x then Err else _) = _ => destruct x; [discriminate|] end.
      inv_bind D3. destruct a as [q3 q4]. destruct (nh_is_leaf hdr); inv_bind D3; destruct a as [q5 q6]; apply Ok_inj in D3; [discriminate|]. congruence. }
    destruct Hh as [rest Hh]. unfold gather_info in E. rewrite D1, D2, Hh in E. rewrite Hv, N.eqb_refl, D3 in E.
    unfold subtree_info in E. destruct (N.eqb_spec (nh_nr_entries h) 0) as [E0|E0].
    { exfalso. destruct (raw_facts _ _ _ _ _ D3) as (_ & Hn & Hl). cbn [get_keys get_header] in *. unfold nlen in Hn. destruct bs; [congruence|]. cbn [length] in Hl. lia. }
    assert (Hrd : forall x, In x bs -> ready x s).
    { intros x Hx. clear - F Hr Hx. induction F as [|b' ks' bs9 kss9 (q & Q1 & _ & _ & _ & Q5) F IH]; [destruct Hx|].
      destruct Hx as [->|Hx]; [eapply Hr; eauto|auto]. }
    destruct bs as [|b0 bs0]; [congruence|]. cbn [hd] in E.
    destruct (get b0 s) as [s1 r1] eqn:Eg.
    assert (N1 : r1 <> Panic) by (intros ->; congruence).
    destruct (Hget b0 s s1 r1 Hf (Hrd b0 (or_introl eq_refl)) Eg N1) as (G1 & G2 & G3).
    assert (Hfirst : exists q, K b0 = Some q /\ same_part p q).
    { inversion F as [|? ? ? ? (q & Q1 & Q2 & _) F']; subst. eauto. }
    destruct Hfirst as (q & Hq & Hsame). destruct (G3 q Hq) as (first & -> & Hfit).
    set (bs := b0 :: bs0) in *.
    assert (Hrd1 : forall x, In x bs -> ready x s1) by (intros x Hx; eapply ready_post; eauto).
    destruct (match first with NDev _ => _ | NMap _ => _ | NDet _ => _ end) as [s2 r2] eqn:E2.
    assert (N2 : r2 <> Panic) by (intros ->; congruence).
    assert (Hres : allfit s2 /\ post s1 s2 /\ exists i, r2 = Ok i /\ fits p i).
    { destruct p as [pk|pk|pk], q as [qk|qk|qk]; try (exfalso; exact Hsame); destruct first as [fi|fi|fi]; try (exfalso; exact Hfit); unfold wrap in E2;
        destruct (push_children _ _ _ _ _ _) as [s3 r3] eqn:E3; cbn [fst snd] in E2; assert (s3 = s2) by congruence; subst s3;
        assert (N3 : r3 <> Panic) by (intros ->; congruence); cbn [part_keys] in Ek; subst pk.
      - destruct (push_parts sel_dev dev_push PDev di_low di_high di_pushed) with (bs := bs) (i := dev_new (nh_block h)) (done := @nil N) (kss := kss) (s := s1) (s' := s2) (r := r3) as (I1 & I2 & i' & I3 & I4); auto.
        + intros n kk Hn. destruct n; try (exfalso; exact Hn). exists i. auto.
        + intros i c Hc. unfold dev_push. rewrite Hc. eexists. split; [reflexivity|]. cbn. auto.
        + clear - F. induction F as [|b' ks' bs9 kss9 (q & Q1 & Q2 & Q3 & Q4 & _) F IH]; constructor; auto.
          destruct q; try destruct Q2. cbn [part_keys] in Q3. subst. auto.
        + intros Hx. discriminate.
        + split; [auto|]. split; [auto|]. exists (NDev i'). split; [subst r3; congruence|]. exact I4.
      - destruct (push_parts sel_map map_push PMap mi_low mi_high mi_pushed) with (bs := bs) (i := map_new (nh_block h)) (done := @nil N) (kss := kss) (s := s1) (s' := s2) (r := r3) as (I1 & I2 & i' & I3 & I4); auto.
        + intros n kk Hn. destruct n; try (exfalso; exact Hn). exists i. auto.
        + intros i c Hc. unfold map_push. rewrite Hc. eexists. split; [reflexivity|]. cbn. auto.
        + clear - F. induction F as [|b' ks' bs9 kss9 (q & Q1 & Q2 & Q3 & Q4 & _) F IH]; constructor; auto.
          destruct q; try destruct Q2. cbn [part_keys] in Q3. subst. auto.
        + intros Hx. discriminate.
        + split; [auto|]. split; [auto|]. exists (NMap i'). split; [subst r3; congruence|]. exact I4.
      - destruct (push_parts sel_det det_push PDet ti_low ti_high ti_pushed) with (bs := bs) (i := det_new (nh_block h)) (done := @nil N) (kss := kss) (s := s1) (s' := s2) (r := r3) as (I1 & I2 & i' & I3 & I4); auto.
        + intros n kk Hn. destruct n; try (exfalso; exact Hn). exists i. auto.
        + intros i c Hc. unfold det_push. rewrite Hc. eexists. split; [reflexivity|]. cbn. auto.
        + clear - F. induction F as [|b' ks' bs9 kss9 (q & Q1 & Q2 & Q3 & Q4 & _) F IH]; constructor; auto.
          destruct q; try destruct Q2. cbn [part_keys] in Q3. subst. auto.
        + intros Hx. discriminate.
        + split; [auto|]. split; [auto|]. exists (NDet i'). split; [subst r3; congruence|]. exact I4. }
    destruct Hres as (A1 & A2 & i & -> & A3).
    destruct (set_referenced nr bs s2) as [s3 r3] eqn:E3. destruct (set_ref_same bs s2 s3 r3 E3) as [K1 K2].
    destruct r3 as [[]| |]; [|congruence|congruence]. assert (s3 = s') by congruence. subst s3. split.
    { intros x j pp Hx. rewrite K1 in Hx. apply A1; auto. }
    split; [|exists i; split; [congruence|auto]].
    eapply post_trans; [exact G2|]. destruct A2 as [P1 P2]. split; intros x; [rewrite K1; auto|]. rewrite K1, K2. exact (P2 x).
Qed.
End Node.

Lemma get_info_good fuel : good (get_info nr eng fuel).
Proof using HK.
  induction fuel as [|fuel IH]; intros b s s' r Hf Hr E Hp; cbn [get_info] in E.
  - destruct (k_examined s b) eqn:Ex; [|destruct (negb _); congruence].
    assert (s = s') by congruence. subst s'. split; [auto|]. split; [apply post_refl|]. intros p Hk.
    unfold ready in Hr. rewrite Hk in Hr. specialize (Hr b p Hk (Nat.le_refl _) Ex). destruct (k_infos s b) as [i|] eqn:Ek; [|congruence].
    exists i. split; [congruence|eauto].
  - destruct (k_examined s b) eqn:Ex.
    { assert (s = s') by congruence. subst s'. split; [auto|]. split; [apply post_refl|]. intros p Hk.
      unfold ready in Hr. rewrite Hk in Hr. specialize (Hr b p Hk (Nat.le_refl _) Ex). destruct (k_infos s b) as [i|] eqn:Ek; [|congruence].
      exists i. split; [congruence|eauto]. }
    destruct (negb _); [congruence|].
    set (s1 := mkcol (upd (k_examined s) b true) (k_referenced s) (k_infos s)) in *.
    destruct (gather_info nr eng (get_info nr eng fuel) b s1) as [s2 r2] eqn:E2.
    assert (N2 : r2 <> Panic) by (intros ->; congruence).
    assert (Hf1 : allfit s1) by exact Hf.
    assert (Hfin : forall (Hg : allfit s2 /\ post s1 s2) (Hk : forall p, K b = Some p -> exists i, r2 = Ok i /\ fits p i),
      allfit s' /\ post s s' /\ forall p, K b = Some p -> exists i, r = Ok i /\ fits p i).
    { intros [Q1 [Q2 Q3]] Hk. destruct r2 as [i| |]; [| |congruence].
      - assert (s' = mkcol (k_examined s2) (k_referenced s2) (upd (k_infos s2) b (Some i)) /\ r = Ok i) as [-> ->] by (split; congruence).
        split; [|split].
        + intros x j p Hx Hkx. cbn [k_infos] in Hx. unfold upd in Hx. destruct (N.eqb_spec x b) as [Eq|Eq]; [|eauto].
          subst x. destruct (Hk p Hkx) as (i' & Hi & Hfi). assert (j = i') by congruence. subst j. auto.
        + split.
          * intros x Hx. cbn [k_infos]. unfold upd. destruct (x =? b); [discriminate|]. apply Q2. exact Hx.
          * intros x p Hkx Hx. cbn [k_infos k_examined] in *. unfold upd. destruct (N.eqb_spec x b) as [Eq|Eq]; [right; discriminate|].
            destruct (Q3 x p Hkx Hx) as [H|H]; [|auto]. left. unfold s1 in H. cbn [k_examined] in H. unfold upd in H.
            destruct (N.eqb_spec x b); [congruence|auto].
        + intros p Hkb. destruct (Hk p Hkb) as (i' & Hi & Hfi). exists i'. split; [congruence|auto].
      - assert (s' = s2 /\ r = Err) as [-> ->] by (split; congruence).
        assert (Hnk : forall p, K b <> Some p) by (intros p Hkb; destruct (Hk p Hkb) as (i & Hi & _); discriminate).
        split; [auto|]. split; [|intros p Hkb; destruct (Hnk p Hkb)]. split; [exact Q2|].
        intros x p Hkx Hx. destruct (Q3 x p Hkx Hx) as [H|H]; [|auto]. left. unfold s1 in H. cbn [k_examined] in H. unfold upd in H.
        destruct (N.eqb_spec x b) as [Eq|Eq]; [subst x; destruct (Hnk p Hkx)|auto]. }
    unfold ready in Hr. destruct (K b) as [p|] eqn:Ekb.
    + destruct (gather_part _ IH b p s1 s2 r2 Ekb Hf1) as (A1 & A2 & A3); auto.
      { intros x q Hx Hl. unfold ready. rewrite Hx. intros y q' Hy Hly Hey. unfold s1 in Hey. cbn [k_examined] in Hey. unfold upd in Hey.
        destruct (N.eqb_spec y b) as [Eq|Eq]; [subst y; lia|]. apply (Hr y q' Hy); auto. lia. }
      apply Hfin; [auto|]. intros p' Hp'. assert (p' = p) by congruence. subst p'. auto.
    + assert (Hpre : pre None s1).
      { intros y q' Hy _ Hey. unfold s1 in Hey. cbn [k_examined] in Hey. unfold upd in Hey.
        destruct (N.eqb_spec y b) as [Eq|Eq]; [congruence|]. apply (Hr y q' Hy); auto. }
      apply Hfin; [|discriminate]. eapply gather_any; [exact IH|exact Hf1| |exact E2|exact N2].
      intros x. unfold ready. destruct (K x); [|auto]. intros y q' Hy _ Hey. apply (Hpre y q' Hy); auto.
Qed.

Lemma collect_all s : collect_infos nr eng = Ok s -> forall b p, K b = Some p -> exists i, k_infos s b = Some i /\ fits p i.
Proof using HK.
  unfold collect_infos.
  assert (G : forall bs s0, allfit s0 -> pre None s0 -> collect_blocks nr eng bs s0 = Ok s ->
     allfit s /\ (forall x, k_infos s0 x <> None -> k_infos s x <> None) /\ forall b p, In b bs -> K b = Some p -> k_infos s b <> None).
  { induction bs as [|b bs IH]; intros s0 H0 P0 E; cbn [collect_blocks] in E.
    { assert (s0 = s) by congruence. subst s0. conj; auto. }
    destruct (get_info nr eng (N.to_nat nr) b s0) as [s1 r] eqn:Eg.
    assert (Hp : r <> Panic) by (intros ->; discriminate).
    assert (Hrd : ready b s0).
    { unfold ready. destruct (K b); [|auto]. intros y q Hy _. apply (P0 y q Hy). exact I. }
    destruct (get_info_good _ b s0 s1 r H0 Hrd Eg Hp) as (A1 & A2 & A3).
    destruct (IH s1 A1 (pre_post _ _ _ P0 A2)) as (B1 & B2 & B3). { destruct r; auto. discriminate. }
    split; [auto|]. split; [intros x Hx; apply B2, A2, Hx|]. intros x p [<-|Hx] Hk; [|eauto].
    apply B2. destruct (A3 p Hk) as (i & -> & _). cbn [get_info] in Eg.
    (* the result is recorded *)
    clear - Eg. destruct (N.to_nat nr) as [|f]; cbn [get_info] in Eg.
    - destruct (k_examined s0 b); [|destruct (negb _); congruence]. assert (s0 = s1) by congruence. subst s1. destruct (k_infos s0 b); congruence.
    - destruct (k_examined s0 b); [assert (s0 = s1) by congruence; subst s1; destruct (k_infos s0 b); congruence|]. destruct (negb _); [congruence|].
      destruct (gather_info _ _ _ _ _) as [s2 [j| |]]; [|congruence|congruence].
      assert (s1 = mkcol (k_examined s2) (k_referenced s2) (upd (k_infos s2) b (Some j))) by congruence. subst s1. cbn [k_infos]. unfold upd. rewrite N.eqb_refl. discriminate. }
  intros E b p Hk. destruct (G (range 0 nr) col_new ltac:(intros x i q Hx; cbn in Hx; discriminate Hx) ltac:(intros x q _ _ Hx; cbn in Hx; discriminate Hx) E) as (A1 & _ & A3).
  specialize (A3 b p). destruct (HK b p Hk) as [Hb _].
  assert (Hn : k_infos s b <> None) by (apply A3; [apply in_range; lia|auto]).
  destruct (k_infos s b) as [i|] eqn:Ei; [|congruence]. exists i. split; [auto|eauto].
Qed.
End All.
