(** C14, C15: the in-core space maps. *)
From Verif Require Import Base Codec_Model SpaceMap_Model SpaceMap_Spec SpaceMap_Proofs.

(** C14: every history of operations on a CoreSpaceMap returns what counters
    per block would return ([sm_spec]), the counters end up equal, and
    get_nr_allocated is the number of non-zero counters.  What is missing for
    the full property: an inc that meets a saturated block fails after having
    incremented the blocks before it (see the refutation below), and a range
    whose end passes 2^64 is excluded. *)
Theorem C14_core_history_partial : forall n max ops s outs,
  n < 2 ^ 64 -> 1 <= max -> Forall op_no_overflow ops ->
  sm_run (sm_new n max) ops = (s, outs) ->
  sm_history n max (fun _ => 0) ops outs (sm_counts s) /\
  (forall b, b < n -> sm_get s b = Ok (sm_counts s b)) /\
  sm_nalloc s = nr_used n (sm_counts s).
Proof.
  intros n max ops s outs Hn Hm F H.
  destruct (sm_run_spec n max ops Hn _ _ _ (sm_new_inv n max Hm) F H) as [I Hh].
  split; [exact Hh|]. split.
  - intros b Hb. rewrite (sm_get_spec n max) by exact I.
    destruct (N.ltb_spec b n); [reflexivity|lia].
  - apply (inv_nalloc n max); exact I.
Qed.

(** Everything but inc is atomic: if it fails, no counter changed. *)
Theorem C14_failure_atomic : forall n max ops s outs o s' x b,
  n < 2 ^ 64 -> 1 <= max -> Forall op_no_overflow (ops ++ [o]) ->
  sm_run (sm_new n max) ops = (s, outs) -> sm_step s o = (s', x) ->
  (match o with OInc _ len => len <= 1 | _ => True end) ->
  (match x with RCount (Ok _) | RUnit (Ok _) | RBool (Ok _) | RBlock (Ok _) => False | _ => True end) ->
  sm_counts s' b = sm_counts s b.
Proof.
  intros n max ops s outs o s' x b Hn Hm F H Hs Ho Hx.
  apply Forall_app in F as [F F2]. inversion F2; subst.
  destruct (sm_run_spec n max ops Hn _ _ _ (sm_new_inv n max Hm) F H) as [I _].
  destruct (sm_step_spec n max s o s' x Hn I H2 Hs) as [_ Sp].
  destruct o, x; cbn in Sp; try contradiction.
  - destruct Sp as [-> _]; reflexivity.
  - destruct Sp as [(_ & _ & -> & _)|(_ & _ & ->)]; [contradiction|reflexivity].
  - destruct Sp as [(_ & _ & -> & _)|[(_ & _ & ->)|(_ & -> & sat & S1 & _ & _ & S2)]];
      [contradiction|reflexivity|]. rewrite S2.
    destruct (N.leb_spec b0 b), (N.ltb_spec b sat); cbn [andb]; auto; lia.
  - destruct Sp as [(_ & _ & -> & _)|(_ & _ & ->)]; [contradiction|reflexivity].
  - destruct Sp as [(y & _ & _ & -> & _)|(_ & _ & ->)]; [contradiction|reflexivity].
  - destruct Sp as [-> _]; reflexivity.
  - destruct Sp as [-> _]; reflexivity.
  - destruct Sp as [-> _]; reflexivity.
Qed.

(** inc over a range that contains a saturated block fails half way. *)
Theorem C14_inc_not_atomic_refuted :
  exists ops s s', sm_run (sm_new 4 255) ops = (s, map (fun _ => RCount (Ok 0)) ops) /\
    sm_step s (OInc 0 2) = (s', RUnit Err) /\ sm_counts s 0 = 0 /\ sm_counts s' 0 = 1.
Proof. eexists [OSet 1 255], _, _. repeat split. Qed.

(** A range whose end wraps past 2^64 is accepted and nothing is counted. *)
Theorem C14_inc_overflow_accepted_refuted :
  exists s', sm_step (sm_new 4 255) (OInc (2 ^ 64 - 1) 2) = (s', RUnit (Ok tt)) /\
             forall b, sm_counts s' b = 0.
Proof. eexists. split; [vm_compute; reflexivity|intros b; reflexivity]. Qed.

Example C14_history_example :
  exists s, sm_run (sm_new 3 255) [OInc 0 2; ODec 1; OAlloc; OAlloc; OAlloc; OGet 2; ONrAllocated; OGet 3; ODec 3]
   = (s, [RUnit (Ok tt); RBool (Ok true); RBlock (Ok (Some 1)); RBlock (Ok (Some 2)); RBlock (Ok None);
          RCount (Ok 1); RCount (Ok 3); RCount Err; RBool Err]).
Proof. eexists. vm_compute. reflexivity. Qed.

(** C14, RestrictedSpaceMap: after any sequence of in-range incs a block is
    marked iff some range contained it, and nr_allocated counts the marks. *)
Theorem C14_restricted_marks : forall n incs,
  n < 2 ^ 64 -> Forall (fun p => 1 <= snd p /\ fst p + snd p <= n) incs ->
  let s := rsm_incs (rsm_new n) incs in
  (forall b, b < n -> rsm_get s b = Ok (N.min 1 (nr_covering incs b))) /\
  r_nalloc s = nr_used n (nr_covering incs).
Proof.
  intros n incs Hn F. destruct (rsm_incs_spec incs (rsm_new n) Hn F) as (A & B & C).
  { cbn. symmetry. apply nr_used_0. }
  cbn [rsm_new r_nr] in *. split.
  - intros b Hb. unfold rsm_get. rewrite A, C. cbn. destruct (N.leb_spec n b); [lia|].
    destruct (N.ltb_spec 0 (nr_covering incs b)); f_equal; lia.
  - rewrite B. unfold nr_used. f_equal. apply filter_ext_in. intros x _. unfold rcnt. rewrite C. cbn.
    destruct (N.ltb_spec 0 (nr_covering incs x)), (N.eqb_spec (nr_covering incs x) 0); auto; lia.
Qed.

(** C14, RestrictedTwoSpaceMap: counts saturate at two. *)
Theorem C14_two_counts : forall n incs,
  Forall (fun p => fst p + snd p <= n) incs ->
  let s := tsm_incs (tsm_new n) incs in
  (forall b, tsm_get s b = N.min 2 (nr_covering incs b)) /\ t_nalloc s = nr_used n (nr_covering incs).
Proof.
  intros n incs F. destruct (tsm_incs_spec incs (tsm_new n) F) as (A & B & C).
  { cbn. symmetry. apply nr_used_0. }
  { intros; cbn; lia. }
  cbn [tsm_new t_nr t_counts] in *. split.
  - intros b. unfold tsm_get. rewrite C. f_equal.
  - rewrite B. unfold nr_used. f_equal. apply filter_ext_in. intros x _. rewrite C.
    destruct (N.eqb_spec (N.min 2 (0 + nr_covering incs x)) 0), (N.eqb_spec (nr_covering incs x) 0); auto; lia.
Qed.

Example C14_two_example : let s := tsm_incs (tsm_new 5) [(0, 3); (2, 2); (2, 1)] in
  map (tsm_get s) [0; 1; 2; 3; 4] = [1; 1; 2; 1; 0] /\ t_nalloc s = 4.
Proof. vm_compute. auto. Qed.

(** Clearing a block whose count is two does not lower nr_allocated. *)
Theorem C14_two_clear_refuted :
  let s := fst (tsm_set (fst (tsm_set (tsm_new 4) 1 2)) 1 0) in
  (forall b, tsm_get s b = 0) /\ t_nalloc s = 1.
Proof.
  split; [|reflexivity]. intros b. cbn. unfold upd. destruct (b =? 1); reflexivity.
Qed.

(** C15: alloc hands out a block that was free and takes it; it returns none
    only if every block is in use.  No history of operations breaks that. *)
Theorem C15_alloc : forall n max ops s outs s' r,
  n < 2 ^ 64 -> 1 <= max -> Forall op_no_overflow ops ->
  sm_run (sm_new n max) ops = (s, outs) -> sm_alloc s = (s', r) ->
  (exists b, r = Ok (Some b) /\ b < n /\ sm_get s b = Ok 0 /\ sm_get s' b = Ok 1 /\
     (forall x, x <> b -> sm_get s' x = sm_get s x)) \/
  (r = Ok None /\ s' = s /\ forall b, b < n -> exists c, sm_get s b = Ok c /\ c <> 0).
Proof.
  intros n max ops s outs s' r Hn Hm F H Ha.
  destruct (sm_run_spec n max ops Hn _ _ _ (sm_new_inv n max Hm) F H) as [I _].
  destruct (sm_alloc_spec n max s s' r I Ha) as [I' [(b & H1 & H2 & H3 & H4 & _)|(H1 & H2 & H3)]]; [left|right].
  - exists b. rewrite !(sm_get_spec n max) by assumption. destruct (N.ltb_spec b n); [|lia].
    repeat split; auto; [congruence|rewrite H4, upd_same; auto|].
    intros x Hx. rewrite !(sm_get_spec n max) by assumption. rewrite H4, upd_other by auto. reflexivity.
  - repeat split; auto. intros b Hb. rewrite (sm_get_spec n max) by assumption.
    destruct (N.ltb_spec b n); [|lia]. eauto.
Qed.

(** C15: which block: the first free one from the cursor on, wrapping round. *)
Theorem C15_alloc_order : forall n max ops s outs s' b,
  n < 2 ^ 64 -> 1 <= max -> Forall op_no_overflow ops ->
  sm_run (sm_new n max) ops = (s, outs) -> sm_alloc s = (s', Ok (Some b)) ->
  (sm_begin s <= b -> forall y, sm_begin s <= y < b -> sm_counts s y <> 0) /\
  (b < sm_begin s -> forall y, sm_begin s <= y < n \/ y < b -> sm_counts s y <> 0) /\
  sm_begin s' = b + 1.
Proof.
  intros n max ops s outs s' b Hn Hm F H Ha.
  destruct (sm_run_spec n max ops Hn _ _ _ (sm_new_inv n max Hm) F H) as [I _].
  destruct (sm_alloc_spec n max s s' _ I Ha) as [I' [(x & H1 & H2 & H3 & H4 & H5 & H6 & H7)|(H1 & H2 & H3)]];
    [|discriminate]. injection H3 as <-.
  split; [intros _; exact H6|]. split; [|exact H5].
  intros Hlt y Hy. destruct (H7 Hlt) as [P Q]. destruct Hy as [Hy|Hy]; [apply P|apply Q]; exact Hy.
Qed.

(** C15: find_free returns the first free block of the range, or none if there is none. *)
Theorem C15_find_free : forall n max ops s outs b e,
  n < 2 ^ 64 -> 1 <= max -> Forall op_no_overflow ops -> e <= n ->
  sm_run (sm_new n max) ops = (s, outs) ->
  (exists x, sm_find_free s b e = Ok (Some x) /\ b <= x < e /\ sm_get s x = Ok 0 /\
     forall y, b <= y < x -> sm_get s y <> Ok 0) \/
  (sm_find_free s b e = Ok None /\ forall y, b <= y < e -> sm_get s y <> Ok 0).
Proof.
  intros n max ops s outs b e Hn Hm F He H.
  destruct (sm_run_spec n max ops Hn _ _ _ (sm_new_inv n max Hm) F H) as [I _].
  assert (G : forall y, y < n -> sm_get s y = Ok (sm_counts s y)).
  { intros y Hy. rewrite (sm_get_spec n max) by exact I. destruct (N.ltb_spec y n); [auto|lia]. }
  unfold sm_find_free. rewrite (inv_nr n max s I).
  destruct (find_free_loop_spec n (sm_counts s) b e)
    as [(x & H1 & H2 & H3 & H4 & H5)|[(H1 & H2)|(H1 & H2 & H3 & H4)]]; [left|right|lia].
  - exists x. repeat split; auto; try lia.
    + rewrite G by lia. congruence.
    + intros y Hy. rewrite G by lia. intros E. apply (H4 y Hy). congruence.
  - split; auto. intros y Hy. rewrite G by lia. intros E. apply (H1 y Hy). congruence.
Qed.

Example C15_example :
  let s := fst (sm_run (sm_new 4 255) [OAlloc; OAlloc; OAlloc; ODec 1; OSet 3 7]) in
  sm_begin s = 3 /\ snd (sm_alloc s) = Ok (Some 1) /\
  snd (sm_alloc (fst (sm_alloc s))) = Ok None /\ sm_find_free s 0 4 = Ok (Some 1).
Proof. vm_compute. auto. Qed.

(** The bit-set variants do not have this property: a full RestrictedSpaceMap whose
    cursor is still 0 fails instead of returning none, and a full
    RestrictedTwoSpaceMap panics. *)
Theorem C15_restricted_full_refuted :
  snd (rsm_alloc (rsm_incs (rsm_new 2) [(0, 2)])) = Err /\
  snd (tsm_alloc (tsm_incs (tsm_new 2) [(0, 2)])) = Panic.
Proof. vm_compute. auto. Qed.

Print Assumptions C14_core_history_partial.
Print Assumptions C14_failure_atomic.
Print Assumptions C14_restricted_marks.
Print Assumptions C14_two_counts.
Print Assumptions C15_alloc.
Print Assumptions C15_alloc_order.
Print Assumptions C15_find_free.
