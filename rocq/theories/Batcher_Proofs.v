From Verif Require Import Base Csum_Model Csum_Proofs Codec_Model SpaceMap_Model SpaceMap_Spec SpaceMap_Proofs Batcher_Model Batcher_Spec.

Arguments put_log : simpl never.
Arguments find_queued : simpl never.

(** ** The state monad *)
Lemma bindst_ok {S A B} (m : st S A) (f : A -> st S B) s s' b :
  bindst m f s = (s', Ok b) -> exists s1 a, m s = (s1, Ok a) /\ f a s1 = (s', Ok b).
Proof. unfold bindst. destruct (m s) as [s1 [a| |]]; intros H; try discriminate. eauto. Qed.
Ltac inv_st H :=
  let s := fresh "w" in let a := fresh "a" in let E := fresh "E" in
  apply bindst_ok in H as (s & a & E & H).

(** ** The view through the queue *)
Definition wb_view (w : wb) : disk := fun x =>
  match find_queued (wb_queue w) x with Some b => b_data b | None => wb_disk w x end.

Lemma put_log_app d g a b : put_log d g (a ++ b) = put_log (put_log d g a) g b.
Proof. unfold put_log. apply fold_left_app. Qed.

Lemma find_queued_snoc q b x :
  find_queued (q ++ [b]) x = if x =? b_loc b then Some b else find_queued q x.
Proof.
  unfold find_queued. rewrite rev_app_distr. cbn [rev app find]. rewrite N.eqb_sym. reflexivity.
Qed.
Lemma find_queued_in q x b : find_queued q x = Some b -> In b q /\ b_loc b = x.
Proof. intros H. apply find_some in H as [H E]. rewrite <- in_rev in H. apply N.eqb_eq in E. auto. Qed.

Lemma put_log_queue d g q x : Forall (fun b => g (b_loc b) = true) q ->
  put_log d g q x = match find_queued q x with Some b => b_data b | None => d x end.
Proof.
  revert x. induction q as [|b q IH] using rev_ind; intros x F; [reflexivity|].
  apply Forall_app in F as [F Fb]. inversion Fb; subst.
  rewrite put_log_app, find_queued_snoc. unfold put_log at 1. cbn [fold_left]. rewrite H1. unfold put_block, upd.
  destruct (N.eqb_spec x (b_loc b)); auto.
Qed.

Lemma replace_first_some l b l' : replace_first l b = Some l' ->
  map b_loc l' = map b_loc l /\
  (forall y, In y l' -> y = b \/ In y l) /\
  forall x, find (fun y => b_loc y =? x) l' = if x =? b_loc b then Some b else find (fun y => b_loc y =? x) l.
Proof.
  revert l'. induction l as [|y l IH]; cbn [replace_first]; intros l' H; [discriminate|].
  destruct (N.eqb_spec (b_loc y) (b_loc b)) as [E|E].
  - injection H as <-. cbn [map find]. conj; [congruence| |].
    + intros z [<-|Hz]; auto. right; right; auto.
    + intros x. destruct (N.eqb_spec (b_loc b) x), (N.eqb_spec x (b_loc b)), (N.eqb_spec (b_loc y) x); auto; congruence.
  - destruct (replace_first l b) as [r'|]; [|discriminate]. injection H as <-.
    destruct (IH r' eq_refl) as (A & B & C). cbn [map find]. conj; [congruence| |].
    + intros z [<-|Hz]; [right; left; auto|]. destruct (B z Hz); [auto|right; right; auto].
    + intros x. rewrite C. destruct (N.eqb_spec (b_loc y) x), (N.eqb_spec x (b_loc b)); auto. congruence.
Qed.

Lemma write_hit_some q b q' : write_hit q b = Some q' ->
  length q' = length q /\ (forall y, In y q' -> y = b \/ In y q) /\
  forall x, find_queued q' x = if x =? b_loc b then Some b else find_queued q x.
Proof.
  unfold write_hit, find_queued. destruct (replace_first (rev q) b) as [r|] eqn:E; [|discriminate].
  intros [= <-]. apply replace_first_some in E as (A & B & C). conj.
  - apply (f_equal (@length N)) in A. rewrite !map_length, rev_length in A. rewrite rev_length. auto.
  - intros y Hy. rewrite <- in_rev in Hy. rewrite in_rev. auto.
  - intros x. rewrite rev_involutive. apply C.
Qed.

(** ** Each call *)
Record wb_inv (n max : N) (w : wb) : Prop := {
  wi_sm : sm_inv n max (wb_sm w);
  wi_good : Forall (fun b => wb_good w (b_loc b) = true) (wb_queue w) }.

Lemma wb_alloc_loc_spec n max w w' r : sm_inv n max (wb_sm w) -> wb_alloc_loc w = (w', r) ->
  sm_inv n max (wb_sm w') /\
  wb_base w' = wb_base w /\ wb_log w' = wb_log w /\ wb_good w' = wb_good w /\
  wb_batch w' = wb_batch w /\ wb_queue w' = wb_queue w /\ wb_junk w' = wb_junk w /\
  ((exists b, r = Ok b /\ b < n /\ sm_counts (wb_sm w) b = 0 /\
     sm_counts (wb_sm w') = upd (sm_counts (wb_sm w)) b 1 /\ wb_allocs w' = b :: wb_allocs w) \/
   (r = Err /\ (forall b, b < n -> sm_counts (wb_sm w) b <> 0) /\ wb_sm w' = wb_sm w /\ wb_allocs w' = wb_allocs w)).
Proof.
  intros I H. unfold wb_alloc_loc in H. destruct (sm_alloc (wb_sm w)) as [s x] eqn:E.
  apply (sm_alloc_spec n max) in E; auto. destruct E as [I' [(b & H1 & H2 & -> & H4 & H5 & _)|(H1 & -> & ->)]].
  - injection H as <- <-. cbn. conj; auto. left. exists b. conj; auto.
  - injection H as <- <-. cbn. conj; auto.
Qed.

Lemma wb_flush_view w : Forall (fun b => wb_good w (b_loc b) = true) (wb_queue w) ->
  forall x, wb_view (fst (wb_flush w)) x = wb_view w x.
Proof.
  intros F x. unfold wb_view, wb_flush, wb_disk; cbn. rewrite put_log_app, put_log_queue; auto.
Qed.

Lemma wb_flush_disk w : Forall (fun b => wb_good w (b_loc b) = true) (wb_queue w) ->
  forall x, wb_disk (fst (wb_flush w)) x = wb_view w x.
Proof.
  intros F x. unfold wb_view, wb_flush, wb_disk; cbn. rewrite put_log_app, put_log_queue; auto.
Qed.

Lemma wb_write_spec w loc data kind w' r : wb_good w loc = true ->
  Forall (fun b => wb_good w (b_loc b) = true) (wb_queue w) ->
  wb_write (mkblock loc data) kind w = (w', r) ->
  wb_base w' = wb_base w /\ wb_good w' = wb_good w /\ wb_sm w' = wb_sm w /\ wb_batch w' = wb_batch w /\
  wb_allocs w' = wb_allocs w /\ wb_junk w' = wb_junk w /\
  Forall (fun b => wb_good w' (b_loc b) = true) (wb_queue w') /\
  match write_checksum data kind with
  | Ok d => r = Ok tt /\ (forall x, wb_view w' x = if x =? loc then d else wb_view w x) /\
            (1 <= wb_batch w -> nlen (wb_queue w) <= wb_batch w -> nlen (wb_queue w') <= wb_batch w)
  | Err => r = Err /\ w' = w
  | Panic => r = Panic /\ w' = w
  end.
Proof.
  intros G F H. unfold wb_write, bindst, lift in H. cbn [b_data b_loc] in H.
  destruct (write_checksum data kind) as [d| |]; try (injection H as <- <-; conj; auto; fail).
  set (b := mkblock loc d) in *.
  destruct (write_hit (wb_queue w) b) as [q|] eqn:E.
  - injection H as <- <-. cbn. apply write_hit_some in E as (L & Q & C). conj; auto.
    + rewrite Forall_forall in *. intros y Hy. destruct (Q y Hy) as [->|]; auto.
    + intros x. unfold wb_view, set_queue, wb_disk; cbn. rewrite C. cbn [b_loc b].
      destruct (N.eqb_spec x loc); auto.
    + unfold nlen. rewrite L. auto.
  - injection H as <- <-. cbn [fst wb_flush].
    destruct (N.eqb_spec (nlen (wb_queue w)) (wb_batch w)); cbn; conj; auto.
    + intros x. unfold wb_view, set_queue, wb_disk; cbn.
      change [b] with ([] ++ [b]). rewrite find_queued_snoc. cbn [b_loc b].
      destruct (N.eqb_spec x loc); auto. change (find_queued [] x) with (@None block). cbn [wb_base wb_log wb_good]. rewrite put_log_app, put_log_queue; auto.
    + apply Forall_app. split; auto.
    + intros x. unfold wb_view, set_queue, wb_disk; cbn. rewrite find_queued_snoc. cbn [b_loc b].
      destruct (N.eqb_spec x loc); auto.
    + intros. unfold nlen in *. rewrite app_length. cbn. lia.
Qed.

Lemma wb_read_spec w loc : wb_good w loc = true -> wb_read loc w = (w, Ok (mkblock loc (wb_view w loc))).
Proof.
  intros G. unfold wb_read, wb_view. destruct (find_queued (wb_queue w) loc) as [b|]; auto. rewrite G. auto.
Qed.

Lemma wb_step_spec n max w o w' x : wb_inv n max w -> writes_good (wb_good w) o ->
  wb_step w o = (w', x) ->
  wb_inv n max w' /\ wb_good w' = wb_good w /\
  direct_spec (wb_good w) n (wb_view w) (sm_counts (wb_sm w)) (wb_allocs w) o x
              (wb_view w') (sm_counts (wb_sm w')) (wb_allocs w').
Proof.
  intros [I G] Hw H. destruct o; cbn [wb_step writes_good direct_spec] in *.
  - destruct (wb_alloc w) as [w1 r] eqn:E. injection H as <- <-. unfold wb_alloc, bindst in E.
    destruct (wb_alloc_loc w) as [w2 r2] eqn:E2. apply (wb_alloc_loc_spec n max) in E2; auto.
    destruct E2 as (A1 & A2 & A3 & A4 & A5 & A6 & A7 & [(b & -> & B1 & B2 & B3 & B4)|(-> & B1 & B2 & B3)]).
    + injection E as <- <-. split; [constructor; auto; rewrite A4, A6; auto|]. split; [auto|].
      split; [intros; unfold wb_view, wb_disk; rewrite A2, A3, A4, A6; auto|].
      left. exists (mkblock b (wb_junk w2 b)). cbn [b_loc]. conj; auto; try discriminate. rewrite B3. intros; apply upd_spec.
    + injection E as <- <-. split; [constructor; auto; rewrite A4, A6; auto|]. split; [auto|].
      split; [intros; unfold wb_view, wb_disk; rewrite A2, A3, A4, A6; auto|].
      right. conj; auto. congruence.
  - destruct (wb_alloc_zeroed w) as [w1 r] eqn:E. injection H as <- <-. unfold wb_alloc_zeroed, bindst in E.
    destruct (wb_alloc_loc w) as [w2 r2] eqn:E2. apply (wb_alloc_loc_spec n max) in E2; auto.
    destruct E2 as (A1 & A2 & A3 & A4 & A5 & A6 & A7 & [(b & -> & B1 & B2 & B3 & B4)|(-> & B1 & B2 & B3)]).
    + injection E as <- <-. split; [constructor; auto; rewrite A4, A6; auto|]. split; [auto|].
      split; [intros; unfold wb_view, wb_disk; rewrite A2, A3, A4, A6; auto|].
      left. eexists. split; [reflexivity|]. cbn [b_loc]. conj; auto; try discriminate. rewrite B3. intros; apply upd_spec.
    + injection E as <- <-. split; [constructor; auto; rewrite A4, A6; auto|]. split; [auto|].
      split; [intros; unfold wb_view, wb_disk; rewrite A2, A3, A4, A6; auto|].
      right. conj; auto. congruence.
  - destruct (wb_write (mkblock loc data) kind w) as [w1 r] eqn:E. injection H as <- <-.
    apply wb_write_spec in E; auto. destruct E as (A1 & A2 & A3 & A4 & A5 & A6 & A7 & A8).
    split; [constructor; [rewrite A3; auto|auto]|]. split; [auto|]. split; [congruence|]. split; [auto|].
    unfold write_checksum in *. destruct (negb (Nat.eqb (length data) BLOCK_SIZE)).
    + destruct A8 as [-> ->]. auto.
    + destruct (csum_salt kind).
      * destruct A8 as (-> & A8 & _). auto.
      * destruct A8 as [-> ->]. auto.
  - destruct (wb_read loc w) as [w1 r] eqn:E. injection H as <- <-.
    assert (w1 = w). { unfold wb_read in E. destruct (find_queued (wb_queue w) loc); injection E as <- <-; auto. }
    subst w1. split; [constructor; auto|]. conj; auto. intros Hg. rewrite wb_read_spec in E by auto.
    congruence.
  - injection H as <- <-. split; [constructor; cbn; auto|]. split; [auto|]. conj; auto.
    intros. apply wb_flush_view; auto.
  - injection H as <- <-. split; [constructor; cbn; auto|]. conj; auto.
Qed.

Lemma wb_run_spec n max os : forall w w' outs, wb_inv n max w -> Forall (writes_good (wb_good w)) os ->
  wb_run w os = (w', outs) ->
  wb_inv n max w' /\ wb_good w' = wb_good w /\
  direct_history (wb_good w) n (wb_view w) (sm_counts (wb_sm w)) (wb_allocs w) os outs
                 (wb_view w') (sm_counts (wb_sm w')) (wb_allocs w').
Proof.
  induction os as [|o os IH]; intros w w' outs I F H; cbn [wb_run] in H.
  - injection H as <- <-. cbn. auto.
  - destruct (wb_step w o) as [w1 x] eqn:E1, (wb_run w1 os) as [w2 xs] eqn:E2.
    injection H as <- <-. inversion F; subst.
    apply (wb_step_spec n max) in E1 as (I1 & G1 & S1); auto.
    apply IH in E2 as (I2 & G2 & S2); auto; [|rewrite G1; auto].
    rewrite G1 in *. conj; auto. cbn. eexists _, _, _. eauto.
Qed.

Lemma wb_run_queue os : forall w w' outs, 1 <= wb_batch w -> nlen (wb_queue w) <= wb_batch w ->
  wb_run w os = (w', outs) -> wb_batch w' = wb_batch w /\ nlen (wb_queue w') <= wb_batch w.
Proof.
  induction os as [|o os IH]; intros w w' outs Hb Hq H; cbn [wb_run] in H.
  - injection H as <- <-. auto.
  - destruct (wb_step w o) as [w1 x] eqn:E1, (wb_run w1 os) as [w2 xs] eqn:E2. injection H as <- <-.
    assert (wb_batch w1 = wb_batch w /\ nlen (wb_queue w1) <= wb_batch w) as [B Q].
    { assert (AL : forall w0 r0, wb_alloc_loc w = (w0, r0) -> wb_batch w0 = wb_batch w /\ wb_queue w0 = wb_queue w).
      { intros w0 r0 E. unfold wb_alloc_loc in E. destruct (sm_alloc (wb_sm w)) as [s [[l|]| |]]; injection E as <- <-; auto. }
      destruct o; cbn [wb_step] in E1.
      - unfold wb_alloc, bindst in E1. destruct (wb_alloc_loc w) as [w0 r0] eqn:E. destruct (AL _ _ eq_refl) as [P Q].
        destruct r0; injection E1 as <- <-; rewrite P, Q; (split; [reflexivity|exact Hq]).
      - unfold wb_alloc_zeroed, bindst in E1. destruct (wb_alloc_loc w) as [w0 r0] eqn:E. destruct (AL _ _ eq_refl) as [P Q].
        destruct r0; injection E1 as <- <-; rewrite P, Q; (split; [reflexivity|exact Hq]).
      - unfold wb_write, bindst, lift in E1. cbn [b_data b_loc] in E1.
        destruct (write_checksum data kind) as [d| |]; try (injection E1 as <- <-; auto; fail).
        destruct (write_hit (wb_queue w) (mkblock loc d)) as [q|] eqn:E.
        + injection E1 as <- <-. cbn. apply write_hit_some in E as (L & _). unfold nlen in *. rewrite L. auto.
        + injection E1 as <- <-. destruct (N.eqb_spec (nlen (wb_queue w)) (wb_batch w)); cbn; [split; [reflexivity|unfold nlen; cbn; lia]|].
          unfold nlen in *. rewrite app_length. cbn. lia.
      - unfold wb_read in E1. destruct (find_queued (wb_queue w) loc); injection E1 as <- <-; auto.
      - injection E1 as <- <-. cbn. split; [reflexivity|unfold nlen; cbn; lia].
      - injection E1 as <- <-. cbn. auto. }
    apply IH in E2; rewrite ?B in *; auto.
Qed.
