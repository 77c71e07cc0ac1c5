(** Proofs about delta compression and the pack VM. *)
From Verif Require Import Base Csum_Model Codec_Model Codec_Spec Codec_Proofs NodeCodec_Proofs SbCodec_Proofs Pack_Model.

(** ** Wrapping arithmetic *)
Lemma wadd_lt a b : wadd a b < W64.
Proof. apply N.mod_lt. discriminate. Qed.
Lemma wsub_lt a b : wsub a b < W64.
Proof. apply N.mod_lt. discriminate. Qed.
Lemma wmul_lt a b : wmul a b < W64.
Proof. apply N.mod_lt. discriminate. Qed.
Lemma wmul_succ c d : d < W64 -> wmul (c + 1) d = wadd (wmul c d) d.
Proof.
  intros Hd. unfold wmul, wadd. rewrite N.mul_add_distr_r, N.mul_1_l.
  rewrite (N.add_mod_idemp_l (c * d)) by discriminate. reflexivity.
Qed.
Lemma wadd_assoc a m d : wadd (wadd a m) d = wadd a (wadd m d).
Proof.
  unfold wadd. rewrite N.add_mod_idemp_l, N.add_mod_idemp_r by discriminate.
  f_equal. lia.
Qed.
Lemma wsub_assoc a m d : a < W64 -> m < W64 -> d < W64 -> wsub (wsub a m) d = wsub a (wadd m d).
Proof. unfold wsub, wadd, W64. intros. dlia. Qed.
Lemma wadd_wsub x b a : x < W64 -> b < W64 -> a < W64 -> (wadd x b = a <-> x = wsub a b).
Proof. unfold wadd, wsub, W64. intros. split; intros; dlia. Qed.

(** ** to_delta / from_delta *)
Definition u64s (l : list N) : Prop := Forall (fun n => n < W64) l.

Lemma span_spec test step f : (forall c, step (f c) = f (c + 1)) ->
  forall l c c' r, (forall x k, In x l -> c + 1 <= k -> test x k = true -> x = f k) ->
  span_count test (c + 1) l = (c', r) ->
  c < c' /\ exists pre, emit_steps step (N.to_nat (c' - c - 1)) (f c) = (f (c' - 1), pre) /\ l = pre ++ r.
Proof.
  intros Hs. induction l as [|n l IH]; intros c c' r Ht H; cbn [span_count] in H.
  - injection H as <- <-. split; [lia|]. exists [].
    replace (c + 1 - c - 1) with 0 by lia. replace (c + 1 - 1) with c by lia. auto.
  - destruct (test n (c + 1)) eqn:E.
    + apply IH in H.
      2:{ intros x k Hx Hk. apply Ht; [right; auto | lia]. }
      destruct H as [Hc [pre [He Hl]]]. split; [lia|].
      exists (n :: pre).
      replace (N.to_nat (c' - c - 1)) with (S (N.to_nat (c' - (c + 1) - 1))) by lia.
      cbn [emit_steps]. rewrite Hs, He.
      rewrite (Ht n (c + 1)) by first [exact E | lia | left; reflexivity]. subst l. auto.
    + injection H as <- <-. split; [lia|]. exists [].
      replace (c + 1 - c - 1) with 0 by lia. replace (c + 1 - 1) with c by lia. auto.
Qed.

Lemma span_progress test n l : test n 1 = true -> forall c' r,
  span_count test 1 (n :: l) = (c', r) -> 2 <= c' /\ (length r <= length l)%nat.
Proof.
  intros H c' r E. cbn [span_count] in E. rewrite H in E.
  assert (forall l c c' r, span_count test c l = (c', r) -> c <= c' /\ (length r <= length l)%nat) as G.
  { clear. induction l as [|x l IH]; intros c c' r E; cbn [span_count] in E.
    - injection E as <- <-. simpl. lia.
    - destruct (test x c).
      + apply IH in E. simpl. lia.
      + injection E as <- <-. lia. }
  apply G in E. lia.
Qed.

Lemma const_steps n b : emit_steps (fun x => x) n b = (b, repeat b n).
Proof. induction n; cbn [emit_steps repeat]; auto. rewrite IHn. auto. Qed.

(** What to_delta produces: each delta has a positive count and 64-bit
    operands, and replaying them gives the words back. *)
Definition delta_ok (d : delta) : Prop :=
  match d with
  | DBase n => n < W64
  | DConst c => 1 <= c
  | DPos d c | DNeg d c => 1 <= c /\ d < W64
  end.
Definition delta_count (d : delta) : N :=
  match d with DBase _ => 1 | DConst c | DPos _ c | DNeg _ c => c end.

Lemma from_delta1_pos base d c : 1 <= c -> base < W64 -> d < W64 ->
  fst (emit_steps (fun b => wadd b d) (N.to_nat c) base) = wadd base (wmul d c).
Proof.
  intros Hc Hb Hd. assert (forall n b, b < W64 -> fst (emit_steps (fun b => wadd b d) n b) = wadd b (wmul d (N.of_nat n))) as G.
  { induction n; intros b Hb'; cbn [emit_steps].
    - cbn [fst]. change (N.of_nat 0) with 0. unfold wmul. rewrite N.mul_0_r. unfold wadd.
      rewrite N.mod_0_l by discriminate. rewrite N.add_0_r, N.mod_small; auto.
    - destruct (emit_steps _ n (wadd b d)) as [b' l] eqn:E. cbn [fst].
      specialize (IHn (wadd b d) (wadd_lt _ _)). rewrite E in IHn. cbn [fst] in IHn. rewrite IHn.
      rewrite Nat2N.inj_succ, wadd_assoc. f_equal. unfold wadd, wmul.
      rewrite N.add_mod_idemp_r by discriminate. f_equal. lia. }
  rewrite G by auto. rewrite N2Nat.id. auto.
Qed.

Lemma to_delta_loop_spec fuel : forall base l, (length l <= fuel)%nat -> base < W64 -> u64s l ->
  from_delta_loop base (to_delta_loop fuel base l) = l /\
  Forall delta_ok (to_delta_loop fuel base l) /\
  Forall (fun d => match d with DBase _ => False | _ => True end) (to_delta_loop fuel base l).
Proof.
  induction fuel as [|fuel IH]; intros base l Hl Hb Hu.
  - destruct l; [|simpl in Hl; lia]. cbn. auto.
  - destruct l as [|n l]; [cbn; auto|].
    inversion Hu as [|? ? Hn Hu']; subst. cbn [to_delta_loop].
    destruct (N.ltb_spec n base) as [Hlt|Hge].
    + destruct (span_count (fun x c => wadd x (wmul c (base - n)) =? base) 1 (n :: l)) as [c r] eqn:E.
      assert (base - n < W64) as Hd by (unfold W64 in *; lia).
      pose proof E as E2.
      apply span_progress in E2.
      2:{ apply N.eqb_eq. unfold wmul. rewrite N.mul_1_l. unfold wadd. rewrite (N.mod_small (base - n)) by auto.
          rewrite N.mod_small; lia. }
      destruct E2 as [Hc Hr].
      pose (f := fun c => wsub base (wmul c (base - n))).
      assert (f 0 = base) as F0.
      { unfold f, wmul. rewrite N.mul_0_l. unfold wsub. rewrite N.mod_0_l by discriminate. unfold W64 in *. dlia. }
      apply (span_spec _ (fun b => wsub b (base - n)) f) with (c := 0) in E.
      2:{ intros k. unfold f. rewrite wsub_assoc by (auto using wmul_lt).
          rewrite wmul_succ by auto. auto. }
      2:{ intros x k Hx Hk Ht. apply N.eqb_eq in Ht. apply wadd_wsub in Ht; auto using wmul_lt.
          eapply Forall_forall in Hu; [exact Hu|exact Hx]. }
      destruct E as [_ [pre [E1 E2]]].
      assert (u64s r) as Hur by (unfold u64s in *; rewrite E2 in Hu; apply Forall_app in Hu; apply Hu).
      assert (wsub base (wmul (base - n) (c - 1)) = f (c - 1)) as Eb.
      { unfold f, wmul. rewrite N.mul_comm. auto. }
      destruct (IH (wsub base (wmul (base - n) (c - 1))) r) as [I1 [I2 I3]]; auto using wsub_lt; [simpl in Hl; lia|].
      split; [|split; constructor; auto; cbn; lia].
      cbn [from_delta_loop from_delta1].
      rewrite F0 in E1. replace (c - 0 - 1) with (c - 1) in E1 by lia. rewrite E1.
      rewrite <- Eb, I1. auto.
    + destruct (N.eqb_spec n base) as [Heq|Hne].
      * destruct (span_count (fun x _ => x =? base) 1 (n :: l)) as [c r] eqn:E.
        pose proof E as E2. apply span_progress in E2; [|apply N.eqb_eq; auto].
        destruct E2 as [Hc Hr].
        apply (span_spec _ (fun b => b) (fun _ => base)) with (c := 0) in E; auto.
        2:{ intros x k Hx Hk Ht. apply N.eqb_eq in Ht. auto. }
        destruct E as [_ [pre [E1 E2]]].
        rewrite const_steps in E1. injection E1 as E1.
        assert (u64s r) as Hur by (unfold u64s in *; rewrite E2 in Hu; apply Forall_app in Hu; apply Hu).
        destruct (IH base r) as [I1 [I2 I3]]; auto; [simpl in Hl; lia|].
        split; [|split; constructor; auto; cbn; lia].
        cbn [from_delta_loop from_delta1].
        replace (c - 1) with (c - 0 - 1) by lia. rewrite E1, I1. auto.
      * destruct (span_count (fun x c => x =? wadd base (wmul c (n - base))) 1 (n :: l)) as [c r] eqn:E.
        assert (n - base < W64) as Hd by (unfold W64 in *; lia).
        pose proof E as E2. apply span_progress in E2.
        2:{ apply N.eqb_eq. unfold wmul. rewrite N.mul_1_l. unfold wadd. rewrite (N.mod_small (n - base)) by auto.
            rewrite N.mod_small; lia. }
        destruct E2 as [Hc Hr].
        pose (f := fun c => wadd base (wmul c (n - base))).
        assert (f 0 = base) as F0.
        { unfold f, wmul. rewrite N.mul_0_l. unfold wadd. rewrite N.mod_0_l by discriminate.
          rewrite N.add_0_r, N.mod_small; auto. }
        apply (span_spec _ (fun b => wadd b (n - base)) f) with (c := 0) in E.
        2:{ intros k. unfold f. rewrite wadd_assoc, wmul_succ by auto. auto. }
        2:{ intros x k Hx Hk Ht. apply N.eqb_eq in Ht. auto. }
        destruct E as [_ [pre [E1 E2]]].
        assert (u64s r) as Hur by (unfold u64s in *; rewrite E2 in Hu; apply Forall_app in Hu; apply Hu).
        assert (wadd base (wmul (n - base) (c - 1)) = f (c - 1)) as Eb.
        { unfold f, wmul. rewrite N.mul_comm. auto. }
        destruct (IH (wadd base (wmul (n - base) (c - 1))) r) as [I1 [I2 I3]]; auto using wadd_lt; [simpl in Hl; lia|].
        split; [|split; constructor; auto; cbn; lia].
        cbn [from_delta_loop from_delta1].
        rewrite F0 in E1. replace (c - 0 - 1) with (c - 1) in E1 by lia. rewrite E1.
        rewrite <- Eb, I1. auto.
Qed.

Lemma to_delta_spec ns : u64s ns ->
  from_delta (to_delta ns) = ns /\ Forall delta_ok (to_delta ns).
Proof.
  intros H. destruct ns as [|b r]; [cbn; auto|].
  inversion H; subst. destruct (to_delta_loop_spec (length r) b r) as [A [B _]]; auto.
  unfold from_delta. cbn [to_delta from_delta_loop from_delta1]. rewrite A. split; auto.
Qed.

(** from_delta does not depend on the initial base here: the first delta sets it. *)
Lemma to_delta_base ns base : u64s ns -> from_delta_loop base (to_delta ns) = ns.
Proof.
  intros H. destruct ns as [|b r]; [cbn; auto|].
  pose proof (proj1 (to_delta_spec _ H)) as E. exact E.
Qed.

Lemma emit_steps_length step n b : length (snd (emit_steps step n b)) = n.
Proof.
  revert b; induction n; intros; cbn [emit_steps]; auto.
  specialize (IHn (step b)). destruct (emit_steps step n (step b)). cbn in *. auto.
Qed.
Lemma from_delta1_length base d : nlen (snd (from_delta1 base d)) = delta_count d.
Proof.
  unfold nlen. destruct d; cbn [from_delta1 delta_count]; try rewrite emit_steps_length; cbn [snd length];
    try rewrite repeat_length; lia.
Qed.

(** The counts add up to the number of words. *)
Lemma counts_sum base ds : nlen (from_delta_loop base ds) = fold_right N.add 0 (map delta_count ds).
Proof.
  revert base; induction ds as [|d ds IH]; intros; cbn [from_delta_loop map fold_right]; auto.
  pose proof (from_delta1_length base d) as E. destruct (from_delta1 base d) as [b l]. cbn [snd] in E.
  unfold nlen in *. rewrite app_length, Nat2N.inj_add, E, IH. auto.
Qed.

(** ** The VM: fuel *)
Lemma res_bind_ok {A B} (x : res A) (f : A -> res B) b : bind x f = Ok b -> exists a, x = Ok a /\ f a = Ok b.
Proof. destruct x; cbn; intros; try discriminate. eauto. Qed.

Ltac inv_bind H :=
  match type of H with
  | bind ?x _ = Ok _ =>
      let a := fresh "a" in let E := fresh "E" in
      apply res_bind_ok in H; destruct H as [a [E H]]
  end.

Lemma read_u8_inv i b r : read_u8 i = Ok (b, r) -> i = b :: r.
Proof. destruct i; cbn; congruence. Qed.
Lemma width_inv n i v r : unpack_with_width n i = Ok (v, r) -> (length r < length i)%nat.
Proof.
  unfold unpack_with_width.
  repeat (destruct (_ =? _)); try discriminate; intros H; apply p_le_inv in H;
    destruct H as [a [-> [Hl _]]]; rewrite app_length; lia.
Qed.

Lemma vm_fuel_enough f :
  (forall base count i r, vm_instr f base count i = Ok r ->
     (length (snd r) < length i)%nat /\
     forall g, (2 * length i <= g)%nat -> vm_instr g base count i = Ok r) /\
  (forall base target em i r, vm_exec f base target em i = Ok r ->
     (length (snd r) <= length i)%nat /\
     forall g, (2 * length i + 1 <= g)%nat -> vm_exec g base target em i = Ok r).
Proof.
  induction f as [|f [IHi IHe]]; [split; intros; discriminate|].
  split.
  - intros base count i r H. cbn [vm_instr] in H.
    inv_bind H. destruct a as [b i1]. apply read_u8_inv in E. subst i.
    cbn [length] in *.
    set (Q := fun X : nat -> res (N * list N * list N) =>
       (length (snd r) <= length i1)%nat /\ forall g, (2 * S (length i1) <= S g)%nat -> X g = Ok r).
    assert (Q (fun g => vm_instr (S g) base count (b :: i1))) as HQ.
    2:{ destruct HQ as [Q1 Q2]. split; [lia|]. intros g Hg. destruct g; [lia|]. apply Q2. lia. }
    cbn [vm_instr read_u8 bind].
    assert (forall X : nat -> res (N * list N * list N), (forall g, X g = X 0%nat) -> X 0%nat = Ok r ->
        (length (snd r) <= length i1)%nat -> Q X) as Qc.
    { intros X H1 H2 H3. split; auto. intros. rewrite H1. auto. }
    unfold Q.
    repeat match goal with
    | |- context [if N.shiftr b 4 =? ?t then _ else _] =>
        destruct (N.shiftr b 4 =? t)
    end; try discriminate.
    all: try (destruct (Nat.eqb count 1); [|discriminate]).
    all: repeat (match type of H with context [emit_steps ?s ?c ?b] =>
           destruct (emit_steps s c b) as [? ?] eqn:?Es end).
    (* the purely local instructions *)
    + inv_bind H. destruct a as [v i2]. rewrite E. cbn [bind]. apply width_inv in E.
      injection H as <-. cbn [snd]. split; [lia|auto].
    + injection H as <-. cbn [snd]. split; [lia|auto].
    + inv_bind H. destruct a as [v i2]. rewrite E. cbn [bind]. apply width_inv in E.
      destruct (emit_steps _ _ _). injection H as <-. cbn [snd]. split; [lia|auto].
    + injection H as <-. cbn [snd]. split; [lia|auto].
    + inv_bind H. destruct a as [v i2]. rewrite E. cbn [bind]. apply width_inv in E.
      destruct (emit_steps _ _ _). injection H as <-. cbn [snd]. split; [lia|auto].
    + injection H as <-. cbn [snd]. split; [lia|auto].
    + inv_bind H. destruct a as [v i2]. rewrite E. cbn [bind]. apply read_u8_inv in E. subst.
      injection H as <-. cbn [snd length]. split; [lia|auto].
    + apply IHi in H. destruct H as [H1 H2]. split; [lia|]. intros. apply H2. lia.
    + inv_bind H. destruct a as [v i2]. rewrite E. cbn [bind]. apply read_u8_inv in E. subst.
      apply IHi in H. cbn [length] in *. destruct H as [H1 H2]. split; [lia|]. intros. apply H2. lia.
    + inv_bind H. destruct a as [v i2]. rewrite E. cbn [bind]. apply p_take_inv in E.
      destruct E as [-> _]. injection H as <-. cbn [snd]. rewrite app_length. split; [lia|auto].
    + inv_bind H. destruct a as [v i2]. rewrite E. cbn [bind]. apply width_inv in E.
      inv_bind H. destruct a as [w i3]. rewrite E0. cbn [bind]. apply p_take_inv in E0.
      destruct E0 as [-> _]. injection H as <-. cbn [snd]. rewrite app_length in E. split; [lia|auto].
    + inv_bind H. destruct a as [v i2]. rewrite E. cbn [bind]. apply read_u8_inv in E. subst.
      cbn [length] in *.
      inv_bind H. destruct a as [[b1 hb] i3]. apply IHe in E. destruct E as [E1 E2]. cbn [snd] in E1.
      inv_bind H. rename a into high.
      inv_bind H. destruct a as [[b2 lb] i4]. apply IHe in E0. destruct E0 as [E3 E4]. cbn [snd] in E3.
      inv_bind H. rename a into low. injection H as <-. cbn [snd].
      split; [lia|]. intros g Hg. rewrite E2 by lia. cbn [bind]. rewrite E. cbn [bind].
      rewrite E4 by lia. cbn [bind]. rewrite E0. auto.
  - intros base target em i r H. cbn [vm_exec] in H.
    destruct (Nat.ltb_spec (length em) target) as [Hlt|Hge].
    + inv_bind H. destruct a as [[b1 o] i1]. apply IHi in E. destruct E as [E1 E2]. cbn [snd] in E1.
      apply IHe in H. destruct H as [H1 H2]. split; [lia|].
      intros g Hg. destruct g; [lia|]. cbn [vm_exec].
      destruct (Nat.ltb_spec (length em) target); [|lia].
      rewrite E2 by lia. cbn [bind]. apply H2. lia.
    + injection H as <-. cbn [snd]. split; [lia|].
      intros g Hg. destruct g; [lia|]. cbn [vm_exec].
      destruct (Nat.ltb_spec (length em) target); [lia|auto].
Qed.

(** Fuel monotonicity. *)
Lemma vm_mono f :
  (forall g base count i r, (f <= g)%nat -> vm_instr f base count i = Ok r -> vm_instr g base count i = Ok r) /\
  (forall g base target em i r, (f <= g)%nat -> vm_exec f base target em i = Ok r -> vm_exec g base target em i = Ok r).
Proof.
  induction f as [|f [IHi IHe]]; [split; intros; discriminate|].
  split.
  - intros g base count i r Hg H. destruct g; [lia|].
    cbn [vm_instr] in *. destruct (read_u8 i) as [[b i1]| |]; cbn [bind] in *; try discriminate.
    repeat match goal with
    | |- context [if N.shiftr b 4 =? ?t then _ else _] => destruct (N.shiftr b 4 =? t); [exact H || idtac|]
    end; try discriminate.
    + apply IHi; [lia|auto].
    + inv_bind H. destruct a as [v i2]. rewrite E. cbn [bind]. apply IHi; [lia|auto].
    + inv_bind H. destruct a as [v i2]. rewrite E. cbn [bind].
      inv_bind H. destruct a as [[b1 hb] i3]. erewrite IHe by (try exact E0; lia). cbn [bind].
      inv_bind H. rewrite E1. cbn [bind].
      inv_bind H. destruct a0 as [[b2 lb] i4]. erewrite IHe by (try exact E2; lia). cbn [bind]. auto.
  - intros g base target em i r Hg H. destruct g; [lia|]. cbn [vm_exec] in *.
    destruct (Nat.ltb (length em) target); auto.
    inv_bind H. destruct a as [[b1 o] i1]. erewrite IHi by (try exact E; lia). cbn [bind].
    apply IHe; [lia|auto].
Qed.

Lemma Ok_inj {A} (a b : A) : Ok a = Ok b -> a = b.
Proof. congruence. Qed.
Ltac okinj H := apply Ok_inj in H; match type of H with _ = ?x => subst x end.

(** ** Running code *)

(** One instruction at the front of the input. *)
Definition run1 (b : N) (c o : list N) (b' : N) : Prop :=
  exists f, forall rest, vm_instr f b 1 (c ++ rest) = Ok (b', o, rest).

(** A sequence of instructions, each of which starts while output is still due. *)
Inductive runs : N -> list N -> list N -> N -> Prop :=
| runs_nil b : runs b [] [] b
| runs_cons b c1 o1 b1 c2 o2 b2 :
    run1 b c1 o1 b1 -> runs b1 c2 o2 b2 -> o1 ++ o2 <> [] ->
    runs b (c1 ++ c2) (o1 ++ o2) b2.

Lemma runs_app b c1 o1 b1 c2 o2 b2 : runs b c1 o1 b1 -> runs b1 c2 o2 b2 ->
  runs b (c1 ++ c2) (o1 ++ o2) b2.
Proof.
  induction 1; intros; cbn [app]; auto.
  rewrite <- !app_assoc. econstructor; eauto.
  intros E. rewrite app_assoc in E. apply app_eq_nil in E. tauto.
Qed.

Lemma runs_one b c o b' : run1 b c o b' -> o <> [] -> runs b c o b'.
Proof.
  intros. rewrite <- (app_nil_r c), <- (app_nil_r o). econstructor; eauto.
  - constructor.
  - rewrite app_nil_r. auto.
Qed.

Lemma exec_runs b c o b' : runs b c o b' -> exists f, forall em rest,
  vm_exec f b (length em + length o) em (c ++ rest) = Ok (b', em ++ o, rest).
Proof.
  induction 1 as [b|b c1 o1 b1 c2 o2 b2 H1 H2 [f IH] Hne].
  - exists 1%nat. intros. cbn [vm_exec app length]. rewrite Nat.add_0_r, Nat.ltb_irrefl, app_nil_r. auto.
  - destruct H1 as [f1 H1]. exists (S (Nat.max f f1)). intros em rest. cbn [vm_exec].
    destruct (Nat.ltb_spec (length em) (length em + length (o1 ++ o2))) as [_|Hge].
    2:{ destruct (o1 ++ o2); [congruence|cbn [length] in Hge; lia]. }
    rewrite <- app_assoc.
    erewrite (proj1 (vm_mono f1)) by (try apply H1; lia). cbn [bind].
    erewrite (proj2 (vm_mono f)).
    3:{ rewrite app_length. rewrite <- (IH (em ++ o1) rest). f_equal. rewrite app_length. lia. }
    + rewrite app_assoc. auto.
    + lia.
Qed.

(** From the VM's initial state, with the model's fuel. *)
Lemma run_runs c o b' rest : runs 0 c o b' -> vm_run (length o) (c ++ rest) = Ok (b', o, rest).
Proof.
  intros H. apply exec_runs in H. destruct H as [f H]. specialize (H [] rest).
  cbn [length plus app] in H. apply (proj2 (vm_fuel_enough f)) in H. destruct H as [_ H].
  unfold vm_run. apply H. unfold vm_fuel. lia.
Qed.

Lemma words_app a b : words (a ++ b) = words a ++ words b.
Proof. unfold words. apply flat_map_app. Qed.
Lemma words_length l : length (words l) = (8 * length l)%nat.
Proof. induction l; cbn [words flat_map length]; auto. rewrite app_length, le_enc_length. fold (words l). lia. Qed.
Lemma words_concat l : words l = concat (map (le_enc 8) l).
Proof. unfold words. apply flat_map_concat_map. Qed.

(** A tag byte decodes to the tag and the nibble. *)
Lemma tag_byte t n : t < 16 -> n < 16 ->
  N.shiftr (N.lor (N.shiftl t 4) n) 4 = t /\ N.land (N.lor (N.shiftl t 4) n) 15 = n.
Proof.
  intros Ht Hn. rewrite lor_shiftl_add by exact Hn. change (2 ^ 4) with 16.
  rewrite N.shiftr_div_pow2. change (2 ^ 4) with 16.
  change 15 with (N.ones 4). rewrite N.land_ones. change (2 ^ 4) with 16. split; dlia.
Qed.

Lemma pack_tag_ok t n x : pack_tag t n = Ok x -> n < 16 /\ x = [N.lor (N.shiftl t 4) n].
Proof. unfold pack_tag. destruct (N.ltb_spec n 16); intros H1; [injection H1 as <-; auto|discriminate]. Qed.

Lemma count8 c : c < 4096 -> N.shiftr c 8 < 16 /\ N.lor (N.shiftl (N.shiftr c 8) 8) (N.land c 255) = c.
Proof.
  intros H. change 255 with (N.ones 8). rewrite N.land_ones.
  rewrite lor_shiftl_add by (apply N.mod_lt; discriminate).
  rewrite N.shiftr_div_pow2. change (2 ^ 8) with 256. split; dlia.
Qed.

(** The wide operand forms: the bytes are a tag with nibble w, then an operand that reads back. *)
Lemma pack_wide_spec t n x : n < W64 -> pack_wide t n = Ok x ->
  exists w body, x = N.lor (N.shiftl t 4) w :: body /\ w < 16 /\ (length body <= 8)%nat /\
    forall rest, unpack_with_width w (body ++ rest) = Ok (n, rest).
Proof.
  unfold pack_wide, pack_tag. intros Hn H. unfold W64 in Hn.
  destruct (N.leb_spec n 255); [|destruct (N.leb_spec n 65535); [|destruct (N.leb_spec n 4294967295)]];
  match type of H with context [?w <? 16] => change (w <? 16) with true in H; cbn [bind] in H;
    apply (f_equal (fun r => match r with Ok a => a | _ => [] end)) in H; cbn [app] in H; subst x; exists w
  end; eexists; (split; [reflexivity|split; [reflexivity|split; [rewrite le_enc_length; lia|]]]); intros rest;
    unfold unpack_with_width; cbn [N.eqb Pos.eqb]; apply p_le_app.
  - change (256 ^ N.of_nat 1) with 256. lia.
  - change (256 ^ N.of_nat 2) with 65536. lia.
  - change (256 ^ N.of_nat 4) with 4294967296. lia.
  - change (256 ^ N.of_nat 8) with 18446744073709551616. lia.
Qed.

Ltac tag_step t n :=
  cbn [vm_instr app read_u8 bind];
  let A := fresh "A" in let B := fresh "B" in
  destruct (tag_byte t n) as [A B]; [reflexivity | assumption || reflexivity | rewrite A, B; clear A B].

(** A count prefix makes the following instruction run [count] times. *)
Lemma run_count c h b body o b' f : 1 <= c -> pack_count c = Ok h ->
  (forall rest, vm_instr f b (N.to_nat c) (body ++ rest) = Ok (b', o, rest)) ->
  run1 b (h ++ body) o b' /\ (length h <= 2)%nat /\ (c = 1 -> h = []) /\ (c < 16 -> (length h <= 1)%nat).
Proof.
  unfold pack_count. intros Hc Hp H.
  destruct (N.eqb_spec c 1) as [->|Hn].
  - okinj Hp. split; [|cbn; repeat split; auto; lia]. exists f. exact H.
  - destruct (N.ltb_spec c 16).
    + apply pack_tag_ok in Hp. destruct Hp as [Hlt ->]. split; [|cbn; repeat split; auto; lia].
      exists (S f). intros rest. tag_step T_Count c. cbn [N.eqb Pos.eqb T_Count T_Set T_Pos T_PosW T_Neg T_NegW T_Const T_Const8 T_Count]. apply H.
    + destruct (N.ltb_spec c 4096); [|discriminate].
      inv_bind Hp. apply pack_tag_ok in E. destruct E as [Hlt ->]. okinj Hp.
      split; [|cbn; repeat split; auto; lia].
      exists (S f). intros rest. tag_step T_Count8 (N.shiftr c 8).
      cbn [N.eqb Pos.eqb T_Count T_Set T_Pos T_PosW T_Neg T_NegW T_Const T_Const8 T_Count T_Count8 bind read_u8].
      rewrite (proj2 (count8 c H1)). apply H.
Qed.

Ltac tags := cbn [N.eqb Pos.eqb T_Count T_Set T_Pos T_PosW T_Neg T_NegW T_Const T_Const8 T_Count T_Count8 T_Lit T_LitW T_ShiftedRun bind read_u8].

(** One packed delta. *)
Lemma run_delta b d c : delta_ok d -> pack_delta d = Ok c ->
  run1 b c (words (snd (from_delta1 b d))) (fst (from_delta1 b d)) /\
  (length c <= 9 * N.to_nat (delta_count d))%nat.
Proof.
  intros Hd Hp. destruct d as [n|k|d k|d k]; cbn [pack_delta delta_ok] in *.
  - apply pack_wide_spec in Hp; auto. destruct Hp as [w [body [-> [Hw [Hl Hu]]]]].
    split; [|cbn [length delta_count]; lia].
    exists 1%nat. intros rest. tag_step T_Set w. tags. rewrite Hu. cbn [bind]. auto.
  - destruct (N.ltb_spec k 16).
    + apply pack_tag_ok in Hp. destruct Hp as [_ ->]. split; [|cbn [length delta_count]; lia].
      exists 1%nat. intros rest. tag_step T_Const k. tags. auto.
    + destruct (N.ltb_spec k 4096); [|discriminate].
      inv_bind Hp. apply pack_tag_ok in E. destruct E as [Hlt ->]. okinj Hp.
      split; [|cbn [length delta_count app]; lia].
      exists 1%nat. intros rest. tag_step T_Const8 (N.shiftr k 8). tags.
      rewrite (proj2 (count8 k H0)). auto.
  - destruct Hd as [Hk Hd]. inv_bind Hp. inv_bind Hp. okinj Hp.
    assert (exists f, forall rest, vm_instr f b (N.to_nat k) (a0 ++ rest) =
      Ok (fst (from_delta1 b (DPos d k)), words (snd (from_delta1 b (DPos d k))), rest)) as [f Hf].
    { exists 1%nat. intros rest. destruct (N.ltb_spec d 16).
      - apply pack_tag_ok in E0. destruct E0 as [_ ->]. tag_step T_Pos d. tags.
        cbn [from_delta1]. destruct (emit_steps _ _ _). auto.
      - apply pack_wide_spec in E0; auto. destruct E0 as [w [body [-> [Hw [Hl Hu]]]]].
        tag_step T_PosW w. tags. rewrite Hu. cbn [bind from_delta1]. destruct (emit_steps _ _ _). auto. }
    destruct (run_count _ _ _ _ _ _ _ Hk E Hf) as [R1 [R2 [R3 R4]]]. split; auto.
    assert (length a0 <= 9)%nat.
    { destruct (N.ltb_spec d 16).
      - apply pack_tag_ok in E0. destruct E0 as [_ ->]. cbn; lia.
      - apply pack_wide_spec in E0; auto. destruct E0 as [w [body [-> [Hw [Hl Hu]]]]]. cbn [length]. lia. }
    rewrite app_length. cbn [delta_count].
    destruct (N.eqb_spec k 1) as [->|]; [rewrite R3 by auto; cbn [length]; lia|lia].
  - destruct Hd as [Hk Hd]. inv_bind Hp. inv_bind Hp. okinj Hp.
    assert (exists f, forall rest, vm_instr f b (N.to_nat k) (a0 ++ rest) =
      Ok (fst (from_delta1 b (DNeg d k)), words (snd (from_delta1 b (DNeg d k))), rest)) as [f Hf].
    { exists 1%nat. intros rest. destruct (N.ltb_spec d 16).
      - apply pack_tag_ok in E0. destruct E0 as [_ ->]. tag_step T_Neg d. tags.
        cbn [from_delta1]. destruct (emit_steps _ _ _). auto.
      - apply pack_wide_spec in E0; auto. destruct E0 as [w [body [-> [Hw [Hl Hu]]]]].
        tag_step T_NegW w. tags. rewrite Hu. cbn [bind from_delta1]. destruct (emit_steps _ _ _). auto. }
    destruct (run_count _ _ _ _ _ _ _ Hk E Hf) as [R1 [R2 [R3 R4]]]. split; auto.
    assert (length a0 <= 9)%nat.
    { destruct (N.ltb_spec d 16).
      - apply pack_tag_ok in E0. destruct E0 as [_ ->]. cbn; lia.
      - apply pack_wide_spec in E0; auto. destruct E0 as [w [body [-> [Hw [Hl Hu]]]]]. cbn [length]. lia. }
    rewrite app_length. cbn [delta_count].
    destruct (N.eqb_spec k 1) as [->|]; [rewrite R3 by auto; cbn [length]; lia|lia].
Qed.

Lemma delta_count_pos d : delta_ok d -> 1 <= delta_count d.
Proof. destruct d; cbn; lia. Qed.

Lemma run_deltas ds : forall b c, Forall delta_ok ds -> pack_deltas ds = Ok c ->
  (exists b', runs b c (words (from_delta_loop b ds)) b') /\
  (length c <= 9 * length (from_delta_loop b ds))%nat.
Proof.
  induction ds as [|d ds IH]; intros b c Hok Hp; cbn [pack_deltas from_delta_loop] in *.
  - okinj Hp. split; [|cbn; lia]. exists b. constructor.
  - inversion Hok as [|? ? Hd Hds]; subst. inv_bind Hp. inv_bind Hp. okinj Hp.
    destruct (run_delta b d a Hd E) as [R1 R2].
    pose proof (from_delta1_length b d) as Hlen. pose proof (delta_count_pos d Hd).
    destruct (from_delta1 b d) as [b1 l]. cbn [fst snd] in *. unfold nlen in Hlen.
    destruct (IH b1 a0 Hds E0) as [[b' R3] R4].
    split.
    + exists b'. rewrite words_app. apply runs_app with b1; auto. apply runs_one; auto.
      intros E1. apply (f_equal (@length N)) in E1. rewrite words_length in E1. cbn [length] in E1. lia.
    + rewrite !app_length. lia.
Qed.

Lemma pack_u64s_runs ns b c : u64s ns -> pack_u64s ns = Ok c ->
  (exists b', runs b c (words ns) b') /\ (length c <= 9 * length ns)%nat.
Proof.
  intros Hu Hp. pose proof (run_deltas (to_delta ns) b c (proj2 (to_delta_spec _ Hu)) Hp) as H.
  rewrite (to_delta_base ns b Hu) in H. exact H.
Qed.

(** Packing succeeds whenever no run is longer than 4095. *)
Lemma pack_tag_total t n : n < 16 -> pack_tag t n = Ok [N.lor (N.shiftl t 4) n].
Proof. unfold pack_tag. destruct (N.ltb_spec n 16); auto; lia. Qed.
Lemma pack_wide_total t n : exists c, pack_wide t n = Ok c.
Proof.
  unfold pack_wide. rewrite !pack_tag_total by reflexivity. cbn [bind].
  repeat destruct (_ <=? _); eauto.
Qed.
Lemma pack_count_total c : c < 4096 -> exists h, pack_count c = Ok h.
Proof.
  intros. unfold pack_count. destruct (c =? 1); eauto. destruct (N.ltb_spec c 16).
  - rewrite pack_tag_total by auto. eauto.
  - destruct (N.ltb_spec c 4096); [|lia]. rewrite pack_tag_total by (apply count8; auto). cbn [bind]. eauto.
Qed.
Lemma pack_delta_total d : delta_count d < 4096 -> exists c, pack_delta d = Ok c.
Proof.
  destruct d as [n|k|d k|d k]; cbn [delta_count pack_delta]; intros H.
  - apply pack_wide_total.
  - destruct (N.ltb_spec k 16); [rewrite pack_tag_total by auto; eauto|].
    destruct (N.ltb_spec k 4096); [|lia]. rewrite pack_tag_total by (apply count8; auto). cbn [bind]. eauto.
  - destruct (pack_count_total k H) as [h ->]. cbn [bind].
    destruct (N.ltb_spec d 16); [rewrite pack_tag_total by auto; cbn [bind]; eauto|].
    destruct (pack_wide_total T_PosW d) as [c ->]. cbn [bind]. eauto.
  - destruct (pack_count_total k H) as [h ->]. cbn [bind].
    destruct (N.ltb_spec d 16); [rewrite pack_tag_total by auto; cbn [bind]; eauto|].
    destruct (pack_wide_total T_NegW d) as [c ->]. cbn [bind]. eauto.
Qed.
Lemma pack_deltas_total ds : Forall (fun d => delta_count d < 4096) ds -> exists c, pack_deltas ds = Ok c.
Proof.
  induction 1 as [|d ds Hd Hds [c IH]]; cbn [pack_deltas]; eauto.
  destruct (pack_delta_total d Hd) as [c1 ->]. rewrite IH. cbn [bind]. eauto.
Qed.
Lemma pack_u64s_total ns : u64s ns -> nlen ns <= 4096 -> exists c, pack_u64s ns = Ok c.
Proof.
  intros Hu Hl. apply pack_deltas_total. destruct ns as [|b r]; [constructor|].
  cbn [to_delta]. constructor; [reflexivity|].
  inversion Hu; subst. destruct (to_delta_loop_spec (length r) b r) as [A [B _]]; auto.
  assert (nlen r < 4096) as Hr by (unfold nlen in *; cbn [length] in Hl; lia).
  rewrite <- A in Hr. rewrite counts_sum in Hr.
  revert Hr. generalize (to_delta_loop (length r) b r). clear.
  induction l as [|d l IH]; cbn [map fold_right]; constructor; [lia|]. apply IH. lia.
Qed.

(** ** Shifted runs and literals *)
Lemma mask24_land n : N.land n mask24 = n mod 2 ^ 24.
Proof. change mask24 with (N.ones 24). apply N.land_ones. Qed.

Lemma combine_split ns : u64s ns -> combine (unshift_high ns) (unshift_low ns) = ns.
Proof.
  unfold unshift_high, unshift_low. induction 1 as [|n ns Hn _ IH]; cbn [map combine]; auto.
  rewrite IH. f_equal. unfold combine1. rewrite !mask24_land.
  rewrite N.mod_mod by discriminate. rewrite N.shiftr_div_pow2.
  assert (N.shiftl (n / 2 ^ 24) 24 mod W64 = N.shiftl (n / 2 ^ 24) 24) as ->.
  { apply N.mod_small. rewrite N.shiftl_mul_pow2. unfold W64 in *. change (2 ^ 24) with 16777216. dlia. }
  rewrite lor_shiftl_add by (apply N.mod_lt; discriminate). change (2 ^ 24) with 16777216. dlia.
Qed.

Lemma unpack_words ns : u64s ns -> forall r, unpack_u64s (length ns) (words ns ++ r) = Ok ns.
Proof.
  intros H r. unfold unpack_u64s. rewrite words_concat.
  rewrite (p_count_app p_u64 (le_enc 8) (fun v => v < W64)); auto.
  intros. apply p_u64_app. auto.
Qed.

Lemma unshift_high_u64 ns : u64s ns -> u64s (unshift_high ns).
Proof.
  unfold u64s, unshift_high. rewrite Forall_map. apply Forall_impl. intros n Hn.
  rewrite N.shiftr_div_pow2. unfold W64 in *. change (2 ^ 24) with 16777216. dlia.
Qed.
Lemma unshift_low_u64 ns : u64s ns -> u64s (unshift_low ns).
Proof.
  unfold u64s, unshift_low. rewrite Forall_map. apply Forall_impl. intros n Hn.
  rewrite mask24_land. unfold W64 in *. change (2 ^ 24) with 16777216. dlia.
Qed.

Lemma pack_shifted_runs ns b c : u64s ns -> pack_shifted_u64s ns = Ok c ->
  exists b', run1 b c (words ns) b'.
Proof.
  intros Hu H. unfold pack_shifted_u64s in H.
  inv_bind H. apply pack_tag_ok in E. destruct E as [Hn ->].
  inv_bind H. inv_bind H. okinj H.
  assert (nlen ns < 4096) as Hlen.
  { rewrite N.shiftr_div_pow2 in Hn. change (2 ^ 8) with 256 in Hn. dlia. }
  destruct (pack_u64s_runs _ b _ (unshift_high_u64 _ Hu) E) as [[b1 R1] _].
  destruct (pack_u64s_runs _ b1 _ (unshift_low_u64 _ Hu) E0) as [[b2 R2] _].
  apply exec_runs in R1, R2. destruct R1 as [f1 R1], R2 as [f2 R2].
  exists b2. exists (S (Nat.max f1 f2)). intros rest.
  cbn [app]. rewrite <- !app_assoc. cbn [app].
  tag_step T_ShiftedRun (N.shiftr (nlen ns) 8). tags.
  rewrite (proj2 (count8 _ Hlen)). unfold nlen. rewrite Nat2N.id.
  specialize (R1 [] (a0 ++ rest)). cbn [length plus app] in R1.
  rewrite words_length in R1. unfold unshift_high in R1 at 1. rewrite map_length in R1.
  erewrite (proj2 (vm_mono f1)) by (try apply R1; lia). cbn [bind].
  pose proof (unpack_words _ (unshift_high_u64 _ Hu) []) as U1. rewrite app_nil_r in U1.
  unfold unshift_high in U1 at 1. rewrite map_length in U1. rewrite U1. cbn [bind].
  specialize (R2 [] rest). cbn [length plus app] in R2.
  rewrite words_length in R2. unfold unshift_low in R2 at 1. rewrite map_length in R2.
  erewrite (proj2 (vm_mono f2)) by (try apply R2; lia). cbn [bind].
  pose proof (unpack_words _ (unshift_low_u64 _ Hu) []) as U2. rewrite app_nil_r in U2.
  unfold unshift_low in U2 at 1. rewrite map_length in U2. rewrite U2. cbn [bind].
  rewrite combine_split by auto. auto.
Qed.

Lemma pack_shifted_total ns : u64s ns -> nlen ns < 4096 -> exists c, pack_shifted_u64s ns = Ok c.
Proof.
  intros Hu Hl. unfold pack_shifted_u64s. rewrite pack_tag_total by (apply count8; auto). cbn [bind].
  destruct (pack_u64s_total (unshift_high ns)) as [h ->].
  { apply unshift_high_u64; auto. } { unfold nlen, unshift_high in *. rewrite map_length. lia. }
  destruct (pack_u64s_total (unshift_low ns)) as [l ->].
  { apply unshift_low_u64; auto. } { unfold nlen, unshift_low in *. rewrite map_length. lia. }
  cbn [bind]. eauto.
Qed.

Lemma pack_literal_runs bs b c : nlen bs < W64 -> pack_literal bs = Ok c -> run1 b c bs b.
Proof.
  intros Hl H. unfold pack_literal in H. inv_bind H. okinj H.
  exists 1%nat. intros rest. rewrite <- app_assoc.
  destruct (N.ltb_spec (nlen bs) 16).
  - apply pack_tag_ok in E. destruct E as [_ ->]. tag_step T_Lit (nlen bs). tags.
    cbn [Nat.eqb]. rewrite p_take_app by (unfold nlen; lia). auto.
  - apply pack_wide_spec in E; auto. destruct E as [w [body [-> [Hw [_ Hu]]]]].
    tag_step T_LitW w. tags. cbn [Nat.eqb]. rewrite Hu. cbn [bind].
    rewrite p_take_app by (unfold nlen; lia). auto.
Qed.

Lemma pack_literal_total bs : exists c, pack_literal bs = Ok c.
Proof.
  unfold pack_literal. destruct (N.ltb_spec (nlen bs) 16).
  - rewrite pack_tag_total by auto. cbn [bind]. eauto.
  - destruct (pack_wide_total T_LitW (nlen bs)) as [c ->]. cbn [bind]. eauto.
Qed.

(** ** Blocks *)
Lemma p_count_u64_inv n i vs r : bytes i -> p_count p_u64 n i = Ok (vs, r) ->
  i = words vs ++ r /\ length vs = n /\ u64s vs /\ bytes r.
Proof.
  intros Hb H. pose proof (p_count_inv u64_codec _ n i vs r u64_lossless Hb H) as [E [Hl Hr]].
  cbn [cpack u64_codec] in E. rewrite words_concat. split; [auto|]. split; [auto|]. split; [exact Hr|]. rewrite E in Hb. apply bytes_app in Hb. apply Hb.
Qed.

Lemma unpack_of_runs c o b' rest : runs 0 c o b' -> vm_unpack (length o) (c ++ rest) = Ok (o, rest).
Proof. intros H. unfold vm_unpack. rewrite (run_runs _ _ _ _ H). cbn [bind]. rewrite Nat.eqb_refl. auto. Qed.

(** A leaf whose values are not 64-bit words and whose keys fill the block. *)
Definition empty_tail (buf : list N) : Prop :=
  match summarise_node buf with
  | Ok s => ns_leaf s = true /\ ns_vsize s <> 8 /\ ns_max s = 508
  | _ => False
  end.

Lemma runs_lit_unless_empty tail d b : nlen tail < W64 ->
  match tail with [] => Ok [] | _ => pack_literal tail end = Ok d -> runs b d tail b.
Proof.
  intros Hl H. destruct tail as [|x t]; [okinj H; constructor|].
  apply runs_one; [|discriminate]. apply pack_literal_runs; auto.
Qed.

Lemma pack_block_spec kind buf c : bytes buf -> nlen buf = 4096 -> pack_block kind buf = Ok c ->
  (kind = NODE /\ empty_tail buf /\ exists c', c = c' ++ [144] /\ exists b', runs 0 c' buf b') \/
  ((kind <> NODE \/ ~ empty_tail buf) /\ exists b', runs 0 c buf b').
Proof.
  intros Hb Hlen Hp.
  assert (forall c, pack_literal buf = Ok c -> exists b', runs 0 c buf b') as Lit.
  { intros. exists 0. apply runs_one. apply pack_literal_runs; auto. unfold W64; lia. intros ->. discriminate. }
  destruct kind; cbn [pack_block] in Hp; try (right; split; [left; discriminate|]; apply Lit; auto; fail); try discriminate.
  unfold pack_btree_node in Hp. inv_bind Hp. rename a into info.
  inv_bind Hp. destruct a as [hdr i]. apply p_take_inv in E0. destruct E0 as [-> Hh].
  apply bytes_app in Hb. destruct Hb as [Hb1 Hb2].
  unfold nlen in Hlen. rewrite app_length in Hlen.
  inv_bind Hp. destruct a as [keys i2]. unfold run64 in E0.
  apply p_count_u64_inv in E0; auto. destruct E0 as [-> [Hk [Hku Hb3]]].
  rewrite app_length, words_length in Hlen.
  assert (forall b, exists c, pack_literal hdr = Ok c /\ run1 b c hdr b) as HL.
  { intros. destruct (pack_literal_total hdr) as [x Hx]. exists x. split; auto. apply pack_literal_runs; auto. unfold nlen. rewrite Hh. reflexivity. }
  assert (hdr <> []) as Hhe by (intros ->; discriminate).
  destruct (HL 0) as [a1 [Ea1 Ra1]]. apply runs_one in Ra1; auto.
  assert (nlen i2 < W64) as Hi2 by (unfold W64, nlen; lia).
  destruct (ns_leaf info) eqn:Elf.
  - destruct (N.eqb_spec (ns_vsize info) 8) as [Ev|Ev].
    + right. split; [right; unfold empty_tail; rewrite E; tauto|].
      inv_bind Hp. destruct a as [values tail]. apply p_count_u64_inv in E0; auto.
      destruct E0 as [-> [Hv [Hvu Hb4]]]. rewrite Ea1 in Hp. cbn [bind] in Hp.
      inv_bind Hp. inv_bind Hp. inv_bind Hp. okinj Hp.
      destruct (pack_u64s_runs keys 0 _ Hku E0) as [[b1 R1] _].
      destruct (pack_shifted_runs values b1 _ Hvu E1) as [b2 R2].
      rewrite app_length, words_length in Hlen.
      assert (runs b2 a2 tail b2) as R3. { apply runs_lit_unless_empty; auto. unfold W64, nlen; lia. }
      exists b2. apply runs_app with 0; auto. apply runs_app with b1; auto.
      destruct (words values ++ tail) eqn:Ee.
      * (* no output left: then no values and no tail; the block would be too short *)
        exfalso. apply app_eq_nil in Ee. destruct Ee as [Ee ->]. apply (f_equal (@length N)) in Ee.
        rewrite words_length in Ee. cbn [length] in *. lia.
      * rewrite <- Ee. apply runs_cons with b2; auto. rewrite Ee. discriminate.
    + rewrite Ea1 in Hp. cbn [bind] in Hp. inv_bind Hp. inv_bind Hp. okinj Hp.
      destruct (pack_u64s_runs keys 0 _ Hku E0) as [[b1 R1] _].
      pose proof (pack_literal_runs i2 b1 _ Hi2 E1) as R2.
      destruct i2 as [|x t].
      * left. split; auto. cbn [length] in Hlen. split.
        { unfold empty_tail. rewrite E. repeat split; auto. lia. }
        exists (a1 ++ a). rewrite <- app_assoc. split.
        { f_equal. f_equal. vm_compute in E1. congruence. }
        exists b1. rewrite app_nil_r. apply runs_app with 0; auto.
      * right. split.
        { right. unfold empty_tail. rewrite E. intros [_ [_ Hm]]. cbn [length] in Hlen. lia. }
        exists b1. apply runs_app with 0; auto. apply runs_app with b1; auto. apply runs_one; auto. discriminate.
  - right. split; [right; unfold empty_tail; rewrite E; rewrite Elf; intros [? _]; discriminate|].
    inv_bind Hp. destruct a as [values tail]. apply p_count_u64_inv in E0; auto.
    destruct E0 as [-> [Hv [Hvu Hb4]]]. rewrite Ea1 in Hp. cbn [bind] in Hp.
    inv_bind Hp. inv_bind Hp. inv_bind Hp. okinj Hp.
    destruct (pack_u64s_runs keys 0 _ Hku E0) as [[b1 R1] _].
    destruct (pack_u64s_runs values b1 _ Hvu E1) as [[b2 R2] _].
    rewrite app_length, words_length in Hlen.
    assert (runs b2 a2 tail b2) as R3. { apply runs_lit_unless_empty; auto. unfold W64, nlen; lia. }
    exists b2. apply runs_app with 0; auto. apply runs_app with b1; auto. apply runs_app with b2; auto.
Qed.

Lemma summarise_total data : (32 <= length data)%nat -> exists s, summarise_node data = Ok s.
Proof.
  intros Hl. unfold summarise_node, p_u32, p_u64, p_le, p_take.
  repeat (match goal with |- context [Nat.ltb (length ?l) ?n] =>
    destruct (Nat.ltb_spec (length l) n) as [Hx|_]; [rewrite ?skipn_length in Hx; lia|] end;
    cbn [bind]). eauto.
Qed.
