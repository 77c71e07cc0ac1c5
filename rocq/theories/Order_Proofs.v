(** The order of device writes in a restore that hands its state from call to call (C20). *)
From Verif Require Import Base Csum_Model Codec_Model SpaceMap_Model Utils_Model Batcher_Model Builder_Model Walker_Model Array_Model SmWrite_Model Restore_Spec RestoreSafe_Proofs Restore_Proofs.

(** ** Array builders stay away from block 0 *)
Section Arrays.
Context (pre : list block) {V : Type} (c : codec V) (dflt : V).
Notation KP := (K pre).
Lemma safe_write_array_block vs : safe KP (write_array_block c vs) any.
Proof.
  unfold write_array_block. eapply safe_bind; [apply safe_alloc|intros b Hb]. eapply safe_bind with (Q := any); [apply safe_lift; intros; exact I|intros data _].
  eapply safe_bind; [apply safe_write; exact Hb|intros _ _]. apply safe_ret. exact I.
Qed.
Lemma safe_emit_blocks k : forall a, safe KP (emit_blocks c dflt k a) any.
Proof.
  induction k as [|k IH]; intros a; cbn [emit_blocks]; [apply safe_ret; exact I|]. eapply safe_bind with (Q := any); [|intros; apply IH].
  unfold emit_block. eapply safe_bind with (Q := any); [apply safe_write_array_block|intros; apply safe_ret; exact I].
Qed.
Lemma safe_abb_push i v a : safe KP (abb_push c dflt i v a) any.
Proof.
  unfold abb_push. apply safe_if; [apply safe_fail|]. eapply safe_bind with (Q := any); [apply safe_emit_blocks|intros a' _]. apply safe_if; [apply safe_fail|apply safe_ret; exact I].
Qed.
Lemma safe_ab_complete a : safe KP (ab_complete c dflt a) any.
Proof.
  unfold ab_complete, abb_complete. eapply safe_bind with (Q := any).
  - eapply safe_bind with (Q := any); [apply safe_emit_blocks|intros; apply safe_ret; exact I].
  - intros bs _. eapply safe_bind; [apply safe_btree_build; apply values_nz; eauto|intros; apply safe_ret; exact I].
Qed.
End Arrays.

(** ** Sequences of calls *)
Section Calls.
Context {E R : Type} (visit : E -> R -> st wb R) (is_commit : E -> bool).
Fixpoint run (es : list E) (r : R) : st wb R := match es with [] => ret r | e :: t => r' <~ visit e r ;; run t r' end.
(** before the superblock is announced; between that and its end; afterwards *)
Context (fresh active done : R -> Prop).
Definition clean (w : wb) : Prop := wb_log w = [] /\ wb_queue w = [].
Hypothesis H_fresh : forall e r w w' x, fresh r -> clean w -> visit e r w = (w', x) ->
  match x with Ok r' => fresh r' /\ clean w' \/ active r' /\ K [] w' | _ => Forall nzb (wb_log w') end.
Hypothesis H_active : forall e r, is_commit e = false -> active r -> safe (K []) (visit e r) active.
Hypothesis H_commit : forall e r w w' x, is_commit e = true -> active r -> K [] w -> visit e r w = (w', x) ->
  match x with
  | Ok r' => exists tail data, wb_log w' = tail ++ [mkblock 0 data] /\ Forall nzb tail /\ wb_queue w' = [] /\ K (tail ++ [mkblock 0 data]) w' /\ done r'
  | _ => K [] w'
  end.
Hypothesis H_done : forall pre e r, done r -> safe (K pre) (visit e r) done.

Lemma run_done pre : forall es r w w' x, done r -> K pre w -> run es r w = (w', x) -> K pre w'.
Proof.
  induction es as [|e es IH]; intros r w w' x Hr Hk H; cbn [run] in H; [injection H as <- _; auto|].
  unfold bindst in H. pose proof (H_done pre e r Hr w Hk) as X. destruct (visit e r w) as [w1 [r1| |]] eqn:Ev.
  - destruct X as [X1 X2]. eapply IH; eauto.
  - injection H as <- _. exact X.
  - injection H as <- _. exact X.
Qed.
Definition commits (es : list E) (r : R) (w w' : wb) : Prop :=
  exists es1 e es2 w1 r1 before data after, es = es1 ++ e :: es2 /\ is_commit e = true /\ run (es1 ++ [e]) r w = (w1, Ok r1) /\ done r1 /\
    wb_log w1 = before ++ [mkblock 0 data] /\ wb_queue w1 = [] /\ wb_log w' = before ++ mkblock 0 data :: after /\ Forall nzb (before ++ after) /\ exists x, run es2 r1 w1 = (w', x).
Lemma commits_cons e es r r1 w w1 w' : visit e r w = (w1, Ok r1) -> commits es r1 w1 w' -> commits (e :: es) r w w'.
Proof.
  intros Hv (es1 & c & es2 & w2 & r2 & l1 & d & l2 & -> & A & B & C). exists (e :: es1), c, es2, w2, r2, l1, d, l2. split; [reflexivity|]. split; auto. split; auto.
  cbn [app run]. unfold bindst. rewrite Hv. exact B.
Qed.
Lemma run_active : forall es r w w' x, active r -> K [] w -> run es r w = (w', x) -> Forall nzb (wb_log w') \/ commits es r w w'.
Proof.
  assert (KF : forall w, K [] w -> Forall nzb (wb_log w)) by (intros w (_ & (t & A & B) & _); rewrite A; exact B).
  induction es as [|e es IH]; intros r w w' x Hr Hk H; cbn [run] in H; [injection H as <- _; left; auto|].
  unfold bindst in H. destruct (visit e r w) as [w1 o] eqn:Ev. destruct (is_commit e) eqn:Ec.
  - pose proof (H_commit e r w w1 o Ec Hr Hk Ev) as X. destruct o as [r1| |]; [|injection H as <- _; left; auto|injection H as <- _; left; auto].
    right. destruct X as (l1 & d & X1 & X2 & X3 & X4 & X5). pose proof (run_done _ _ _ _ _ _ X5 X4 H) as (_ & (l2 & Y1 & Y2) & _).
    exists [], e, es, w1, r1, l1, d, l2. conj; auto.
    + cbn [app run]. unfold bindst. rewrite Ev. reflexivity.
    + rewrite Y1, <- app_assoc. reflexivity.
    + apply Forall_app. auto.
    + eauto.
  - pose proof (H_active e r Ec Hr w Hk) as X. rewrite Ev in X. destruct o as [r1| |]; [|injection H as <- _; left; auto|injection H as <- _; left; auto].
    destruct X as [X1 X2]. destruct (IH _ _ _ _ X2 X1 H) as [Y|Y]; [left; exact Y|right; eapply commits_cons; eauto].
Qed.
Lemma run_order : forall es r w w' x, fresh r -> clean w -> run es r w = (w', x) -> Forall nzb (wb_log w') \/ commits es r w w'.
Proof.
  induction es as [|e es IH]; intros r w w' x Hr Hk H; cbn [run] in H; [injection H as <- _; left; destruct Hk as [-> _]; constructor|].
  unfold bindst in H. destruct (visit e r w) as [w1 o] eqn:Ev. pose proof (H_fresh e r w w1 o Hr Hk Ev) as X. destruct o as [r1| |]; [|injection H as <- _; left; auto|injection H as <- _; left; auto].
  destruct X as [[X1 X2]|[X1 X2]]; [destruct (IH _ _ _ _ X1 X2 H) as [Y|Y]|destruct (run_active _ _ _ _ _ X1 X2 H) as [Y|Y]]; auto; right; eapply commits_cons; eauto.
Qed.
End Calls.

(** allocating the superblock, the first allocation of all *)
Lemma first_alloc w w' b : clean w -> wb_alloc w = (w', Ok b) -> b_loc b = 0 -> K [] w'.
Proof.
  intros [H1 H2] Ea Eb. unfold wb_alloc, bindst, wb_alloc_loc in Ea. destruct (sm_alloc (wb_sm w)) as [sm' [[x|]| |]] eqn:Es; try discriminate.
  injection Ea as <- <-. cbn [b_loc] in Eb. subst x. apply alloc_free in Es as [_ ->]. unfold K. cbn. rewrite H1, H2. split; [reflexivity|]. split; [exists []; auto|constructor].
Qed.
Lemma alloc_clean w w' x : clean w -> wb_alloc w = (w', x) -> clean w'.
Proof.
  intros [H1 H2]. unfold wb_alloc, bindst, wb_alloc_loc. destruct (sm_alloc (wb_sm w)) as [sm' [[y|]| |]]; intros H; injection H as <- _; split; cbn; auto.
Qed.
Lemma clean_new d good sm batch junk : clean (wb_new d good sm batch junk).
Proof. split; reflexivity. Qed.
