(** Property C20 for cache_restore and era_restore. *)
From Verif Require Import Base Csum_Model Codec_Model SpaceMap_Model Utils_Model Batcher_Model Builder_Model Builder_Proofs Walker_Model Array_Model SmWrite_Model Restore_Spec RestoreSafe_Proofs Restore_Proofs
  Era_Model CacheIo_Model EraIo_Model Order_Proofs Props_Restore.

Ltac sb := eapply safe_bind with (Q := any).
Lemma safe_l {A} pre (r : res A) : safe (K pre) (lift r) any. Proof. apply safe_lift. intros; exact I. Qed.
Lemma kf w : K [] w -> Forall nzb (wb_log w). Proof. intros (_ & (t & A & B) & _). rewrite A. exact B. Qed.
Lemma cleanf w : clean w -> Forall nzb (wb_log w). Proof. intros [-> _]. constructor. Qed.

(** ** cache_restore *)
Definition is_csbe (e : cevent) : bool := match e with CSbE => true | _ => false end.
Definition cfresh (r : crest) : Prop := cr_sb r = None /\ cr_map r = None /\ cr_dirty r = None /\ cr_hint r = None /\ cr_sec r = CNone.
Definition cactive (r : crest) : Prop := cr_sec r <> CNone.
Definition cdone (r : crest) : Prop := cr_sb r = None /\ cr_map r = None /\ cr_dirty r = None /\ cr_hint r = None /\ cr_sec r = CFinalized.

Lemma set_dirty_sec pre c r : safe (K pre) (set_dirty c r) (fun r' => cr_sec r' = cr_sec r).
Proof.
  unfold set_dirty. apply safe_if; [apply safe_ret; reflexivity|]. sb; [apply safe_l|intros d _]. sb; [apply safe_abb_push|intros d' _]. apply safe_ret. reflexivity.
Qed.
Lemma csb_ok sb w w' u : wb_write_cache_sb sb w = (w', Ok u) -> exists data, wb_log w' = wb_log w ++ [mkblock 0 data] /\ wb_sm w' = wb_sm w /\ wb_queue w' = wb_queue w.
Proof.
  unfold wb_write_cache_sb. intros H. bo H as s1 b E. apply lift_ok in E as [-> E1]. bo H as s2 b2 E. apply lift_ok in E as [-> E2]. bo H as s3 data E. apply lift_ok in E as [-> E3].
  destruct (wb_good w 0) eqn:Eg; [|discriminate]. injection H as <- _. exists data. cbn. auto.
Qed.
Lemma csb_fail pre sb : safe_err (K pre) (wb_write_cache_sb sb).
Proof.
  unfold wb_write_cache_sb. eapply safe_err_bind; [apply safe_l|intros l _]. eapply safe_err_bind; [apply safe_l|intros b _]. eapply safe_err_bind; [apply safe_l|intros data _].
  intros w Hw. destruct (wb_good w 0); auto.
Qed.
Lemma sb_tail pre w w4 w5 root data : K pre w -> write_metadata_sm w = (w4, Ok root) -> wb_log w5 = wb_log w4 ++ [mkblock 0 data] -> wb_sm w5 = wb_sm w4 -> wb_queue w5 = wb_queue w4 ->
  exists tail, wb_log w5 = pre ++ tail ++ [mkblock 0 data] /\ Forall nzb tail /\ wb_queue w5 = [] /\ K (pre ++ tail ++ [mkblock 0 data]) w5.
Proof.
  intros HK E9 L Hsm Hq. pose proof (safe_write_metadata_sm pre w HK) as K4. rewrite E9 in K4. destruct K4 as [(K4 & (tail & K5 & K6) & K7) _]. apply metadata_sm_flushed in E9.
  exists tail. rewrite L, K5, <- app_assoc. conj; auto; [congruence|]. unfold K. rewrite Hsm, Hq, E9, L, K5. split; auto. split; [|constructor]. exists []. rewrite app_nil_r, app_assoc. auto.
Qed.
Lemma safe_copt {V} pre (c : codec V) d o : safe (K pre) (complete_opt c d o) any.
Proof. unfold complete_opt. destruct o; [|apply safe_ret; exact I]. sb; [apply safe_ab_complete|intros; apply safe_ret; exact I]. Qed.
Lemma safe_dirty_done pre (o : option (abuilder N)) x y :
  safe (K pre) (match o with None => ret None | Some b => b <~ abb_push u64_codec 0 x y b ;; x <~ ab_complete u64_codec 0 b ;; ret (Some x) end) any.
Proof. destruct o; [|apply safe_ret; exact I]. sb; [apply safe_abb_push|intros b _]. sb; [apply safe_ab_complete|intros; apply safe_ret; exact I]. Qed.
Lemma cache_finalize_err pre v clean r : safe_err (K pre) (cache_finalize v clean r).
Proof.
  unfold cache_finalize. destruct (cr_sb r); [|eapply safe_safe_err, safe_fail with (Q := any)].
  eapply safe_err_bind; [apply safe_copt|intros m _]. eapply safe_err_bind; [apply safe_dirty_done|intros d _]. eapply safe_err_bind; [apply safe_copt|intros h _].
  eapply safe_err_bind; [apply safe_write_metadata_sm|intros sm _]. eapply safe_err_bind; [apply safe_l|intros p _]. eapply safe_err_bind; [apply safe_l|intros x _].
  eapply safe_err_bind; [apply safe_l|intros y _]. eapply safe_err_bind; [apply safe_l|intros z _]. intros w Hw. unfold bindst.
  pose proof (csb_fail pre) as F. match goal with |- context [wb_write_cache_sb ?q w] => specialize (F q w Hw); destruct (wb_write_cache_sb q w) as [w' [u| |]]; auto end.
Qed.
Lemma cache_finalize_order pre v clean r w w' x : K pre w -> cache_finalize v clean r w = (w', x) ->
  match x with
  | Ok r' => exists tail data, wb_log w' = pre ++ tail ++ [mkblock 0 data] /\ Forall nzb tail /\ wb_queue w' = [] /\ K (pre ++ tail ++ [mkblock 0 data]) w' /\ cdone r'
  | _ => K pre w'
  end.
Proof.
  intros HK E. destruct x as [r'| |]; [|pose proof (cache_finalize_err pre v clean r w HK) as X; rewrite E in X; exact X|pose proof (cache_finalize_err pre v clean r w HK) as X; rewrite E in X; exact X].
  unfold cache_finalize in E. destruct (cr_sb r); [|discriminate E].
  bo E as w1 m E1. pose proof (safe_copt pre cm_codec no_mapping (cr_map r) w HK) as K1. rewrite E1 in K1. destruct K1 as [K1 _].
  bo E as w2 d E2. pose proof (safe_dirty_done pre (cr_dirty r) (fst (cr_bits r)) (snd (cr_bits r)) w1 K1) as K2. rewrite E2 in K2. destruct K2 as [K2 _].
  bo E as w3 h E3. pose proof (safe_copt pre hint_codec no_hint (cr_hint r) w2 K2) as K3. rewrite E3 in K3. destruct K3 as [K3 _].
  bo E as w4 sm E4. bo E as w5 p E5. apply lift_ok in E5 as [-> _]. bo E as w6 a1 E6. apply lift_ok in E6 as [-> _]. bo E as w7 a2 E7. apply lift_ok in E7 as [-> _]. bo E as w8 a3 E8. apply lift_ok in E8 as [-> _].
  bo E as w9 u E9. injection E as <- <-. apply csb_ok in E9 as (data & A & B & C). destruct (sb_tail pre w3 w4 w9 sm data K3 E4 A B C) as (tail & T1 & T2 & T3 & T4).
  exists tail, data. conj; auto. unfold cdone. cbn. auto.
Qed.
Lemma cvisit_active v clean e r pre : is_csbe e = false -> cactive r -> safe (K pre) (cvisit v clean e r) cactive.
Proof.
  unfold cactive. intros He Hr. destruct e; cbn [cvisit is_csbe] in *; try discriminate.
  - unfold cache_superblock_b. destruct (cr_sec r); cbn; try congruence; apply safe_fail.
  - unfold in_csec. apply safe_if; [|apply safe_fail]. apply safe_ret. cbn. congruence.
  - unfold in_csec. apply safe_if; [|apply safe_fail]. apply safe_ret. cbn. congruence.
  - unfold cache_mapping. eapply safe_bind with (Q := fun r' => cr_sec r' = cr_sec r); [apply safe_if; [apply set_dirty_sec|apply safe_ret; reflexivity]|]. intros r1 E1.
    sb; [apply safe_l|intros b _]. sb; [apply safe_abb_push|intros b' _]. apply safe_ret. cbn. congruence.
  - unfold in_csec. apply safe_if; [|apply safe_fail]. apply safe_ret. cbn. congruence.
  - unfold in_csec. apply safe_if; [|apply safe_fail]. apply safe_ret. cbn. congruence.
  - unfold cache_hint. sb; [apply safe_l|intros _ _]. sb; [apply safe_l|intros b _]. sb; [apply safe_abb_push|intros b' _]. apply safe_ret. cbn. congruence.
  - apply safe_ret. auto.
  - apply safe_ret. auto.
  - apply safe_ret. auto.
  - unfold in_csec. apply safe_if; [|apply safe_fail]. apply safe_ret. cbn. congruence.
Qed.
(** without builders nothing is written, and nothing changes *)
Lemma cache_idle v clean e r w w' x : cr_sb r = None -> cr_map r = None -> cr_dirty r = None -> cr_hint r = None -> (forall sb, e = CSbB sb -> cr_sec r <> CNone) ->
  cvisit v clean e r w = (w', x) -> w' = w /\ forall r', x = Ok r' -> cr_sb r' = None /\ cr_map r' = None /\ cr_dirty r' = None /\ cr_hint r' = None /\ (cr_sec r = CNone \/ cr_sec r = CFinalized -> cr_sec r' = cr_sec r).
Proof.
  intros H1 H2 H3 H4 Hn E.
  assert (D : forall (y : res crest), (w, y) = (w', x) -> (forall r', y = Ok r' -> r' = r) -> w' = w /\ forall r', x = Ok r' -> cr_sb r' = None /\ cr_map r' = None /\ cr_dirty r' = None /\ cr_hint r' = None /\ (cr_sec r = CNone \/ cr_sec r = CFinalized -> cr_sec r' = cr_sec r)).
  { intros y Ey Hy. injection Ey as <- <-. split; auto. intros r' ->. rewrite (Hy r' eq_refl). auto. }
  destruct e; cbn [cvisit] in E.
  - unfold cache_superblock_b in E. specialize (Hn sb eq_refl). destruct (cr_sec r); cbn in E; try congruence; apply (D Err E); discriminate.
  - unfold cache_finalize in E. rewrite H1 in E. apply (D Err E). discriminate.
  - unfold in_csec in E. destruct (cr_sec r); cbn in E; try (apply (D Err E); discriminate). injection E as <- <-. split; auto. intros r' Hr. injection Hr as <-. cbn. conj; auto. intros [A|A]; discriminate.
  - unfold in_csec in E. destruct (cr_sec r); cbn in E; try (apply (D Err E); discriminate). injection E as <- <-. split; auto. intros r' Hr. injection Hr as <-. cbn. conj; auto. intros [A|A]; discriminate.
  - unfold cache_mapping, bindst in E. destruct (cm_isdirty m && negb (v =? 1)).
    + unfold set_dirty in E. destruct (_ =? fst (cr_bits r)); [cbn in E; rewrite H2 in E; apply (D Panic E); discriminate|]. rewrite H3 in E. apply (D Panic E). discriminate.
    + cbn in E. rewrite H2 in E. apply (D Panic E). discriminate.
  - unfold in_csec in E. destruct (cr_sec r); cbn in E; try (apply (D Err E); discriminate). injection E as <- <-. split; auto. intros r' Hr. injection Hr as <-. cbn. conj; auto. intros [A|A]; discriminate.
  - unfold in_csec in E. destruct (cr_sec r); cbn in E; try (apply (D Err E); discriminate). injection E as <- <-. split; auto. intros r' Hr. injection Hr as <-. cbn. conj; auto. intros [A|A]; discriminate.
  - unfold cache_hint, bindst, unwrap, lift in E. destruct (_ =? 4)%nat; [rewrite H4 in E|]; apply (D Panic E); discriminate.
  - apply (D (Ok r) E). congruence.
  - apply (D (Ok r) E). congruence.
  - apply (D (Ok r) E). congruence.
  - unfold in_csec in E. destruct (cr_sec r); cbn in E; try (apply (D Err E); discriminate). apply (D (Ok r) E). congruence.
Qed.
Lemma cvisit_fresh v cl e r w w' x : cfresh r -> clean w -> cvisit v cl e r w = (w', x) ->
  match x with Ok r' => cfresh r' /\ clean w' \/ cactive r' /\ K [] w' | _ => Forall nzb (wb_log w') end.
Proof.
  intros (H1 & H2 & H3 & H4 & H5) Hw E. assert (Hd : (exists sb, e = CSbB sb) \/ forall sb, e <> CSbB sb) by (destruct e; eauto; right; discriminate). destruct Hd as [(sb & ->)|Hn].
  - cbn [cvisit] in E. unfold cache_superblock_b in E. rewrite H5 in E. cbn [csec_eqb negb] in E. unfold bindst at 1 in E. destruct (wb_alloc w) as [w1 o] eqn:Ea. pose proof (alloc_clean _ _ _ Hw Ea) as Hw1.
    destruct o as [b| |]; [|injection E as <- <-; apply cleanf; auto|injection E as <- <-; apply cleanf; auto].
    destruct (N.eqb_spec (b_loc b) 0) as [Eb|]; cbn [negb] in E; [|injection E as <- <-; apply cleanf; auto].
    pose proof (first_alloc _ _ _ Hw Ea Eb) as K1. unfold bindst in E. pose proof (safe_ab_complete [] u64_codec 0 (abb_new u64_codec 0) w1 K1) as X.
    destruct (ab_complete u64_codec 0 (abb_new u64_codec 0) w1) as [w2 [dr| |]]; cbn in E; injection E as <- <-; [|apply kf; auto|apply kf; auto].
    right. split; [unfold cactive; cbn; congruence|apply X].
  - destruct (cache_idle v cl e r w w' x H1 H2 H3 H4) as [-> Hx]; [intros sb0 Hsb0; exfalso; eapply Hn; eauto|exact E|].
    destruct x as [r'| |]; [|apply cleanf; auto|apply cleanf; auto]. left. split; auto. destruct (Hx r' eq_refl) as (A & B & C & D & F). unfold cfresh. rewrite F; auto.
Qed.
Lemma cvisits_run v cl : forall es r w, cvisits v cl es r w = run (cvisit v cl) es r w.
Proof. induction es as [|e es IH]; intros r w; [reflexivity|]. cbn [cvisits run]. unfold bindst. destruct (cvisit v cl e r w) as [w1 [r1| |]]; auto. Qed.
Lemma cdone_quiet v cl : forall es r w w' x, cdone r -> run (cvisit v cl) es r w = (w', x) -> w' = w.
Proof.
  induction es as [|e es IH]; intros r w w' x Hr H; cbn [run] in H; [injection H as <- _; auto|]. destruct Hr as (H1 & H2 & H3 & H4 & H5). unfold bindst in H. destruct (cvisit v cl e r w) as [w1 o] eqn:Ev.
  destruct (cache_idle v cl e r w w1 o H1 H2 H3 H4) as [-> Hx]; [intros; congruence|exact Ev|]. destruct o as [r1| |]; [|injection H as <- _; auto|injection H as <- _; auto].
  destruct (Hx r1 eq_refl) as (A & B & C & D & F). eapply IH; [|exact H]. unfold cdone. rewrite F; auto.
Qed.
(** Block 0 is written at most once: when the end of the superblock is handled, after all
    blocks queued have been sent, and nothing is written after it.  For every sequence of calls,
    every device (blocks that cannot be written included), version and batch size. *)
Theorem C20_cache_superblock_written_last : forall d good junk nr batch version clean es w r,
  cache_restore d good junk nr batch version clean es = (w, r) ->
  Forall (fun b => ~ to_superblock b) (wb_log w) \/
  exists es1 es2 w1 r1 before data,
    es = es1 ++ CSbE :: es2 /\ cache_restore d good junk nr batch version clean (es1 ++ [CSbE]) = (w1, Ok r1) /\
    wb_log w1 = before ++ [mkblock 0 data] /\ wb_queue w1 = [] /\ w = w1 /\ Forall (fun b => ~ to_superblock b) before.
Proof.
  intros d good junk nr batch v cl es w r H. unfold cache_restore in *. rewrite cvisits_run in H.
  apply (run_order (cvisit v cl) is_csbe cfresh cactive cdone) in H.
  - destruct H as [H|(es1 & e & es2 & w1 & r1 & l1 & data & l2 & -> & He & Hr & Hd & A & B & C & F & (y & G))]; [left; exact H|]. right.
    destruct e; try discriminate He. exists es1, es2, w1, r1, l1, data. rewrite cvisits_run. conj; auto; [eapply cdone_quiet; eauto|]. apply Forall_app in F. tauto.
  - intros e r0 w0 w1 x A B C. eapply cvisit_fresh; eauto.
  - intros e r0 A B. apply cvisit_active; auto.
  - intros e r0 w0 w1 x A B C D. destruct e; try discriminate A. cbn [cvisit] in D. exact (cache_finalize_order [] v cl r0 w0 w1 x C D).
  - intros pre e r0 (H1 & H2 & H3 & H4 & H5) w0 Hk. destruct (cvisit v cl e r0 w0) as [w1 x] eqn:Ev. destruct (cache_idle v cl e r0 w0 w1 x H1 H2 H3 H4) as [-> Hx]; [intros; congruence|exact Ev|].
    destruct x as [r1| |]; auto. split; auto. destruct (Hx r1 eq_refl) as (A & B & C & D & F). unfold cdone. rewrite F; auto.
  - unfold cfresh. cbn. auto.
  - apply clean_new.
Qed.
(** Stop the device after any number of the writes: either the previous superblock is still
    there, or all writes of the restore were issued and none is pending. *)
Theorem C20_cache_crash : forall d good junk nr batch version clean es w r k,
  cache_restore d good junk nr batch version clean es = (w, r) ->
  crashed d good (wb_log w) k 0 = d 0 \/ (wb_queue w = [] /\ firstn k (wb_log w) = wb_log w).
Proof.
  intros d good junk nr batch v cl es w r k H. destruct (C20_cache_superblock_written_last _ _ _ _ _ _ _ _ _ _ H) as [Hn|(es1 & es2 & w1 & r1 & l1 & data & _ & _ & E3 & E4 & -> & E6)].
  - left. unfold crashed. apply put_log_other. rewrite <- (firstn_skipn k) in Hn. apply Forall_app in Hn as [Hn _]. eapply Forall_impl; [|exact Hn]. unfold to_superblock. auto.
  - destruct (Nat.le_gt_cases k (length l1)) as [Hk|Hk].
    + left. unfold crashed. apply put_log_other. rewrite E3, firstn_app. replace (k - length l1)%nat with 0%nat by lia. rewrite app_nil_r.
      rewrite <- (firstn_skipn k) in E6. apply Forall_app in E6 as [E6 _]. exact E6.
    + right. split; auto. apply firstn_all2. rewrite E3, app_length. cbn. lia.
Qed.
Print Assumptions C20_cache_superblock_written_last.
Print Assumptions C20_cache_crash.

(** ** era_restore *)
Definition is_esbe (e : eevent) : bool := match e with ESbE => true | _ => false end.
Definition efresh (r : erest) : Prop := er_sb r = None /\ er_cur r = None /\ er_eras r = None /\ er_sec r = ESNone.
Definition eactive (r : erest) : Prop := er_sec r <> ESNone.
Definition edone (r : erest) : Prop := er_sb r = None /\ er_eras r = None /\ er_sec r = ESFinalized.

Lemma safe_fill pre k : forall s, safe (K pre) (fill k s) any.
Proof. induction k as [|k IH]; intros s; cbn [fill]; [apply safe_ret; exact I|]. unfold ws_push. sb; [apply safe_abb_push|intros; apply IH]. Qed.
Lemma safe_blocks pre r s : safe (K pre) (writeset_blocks r s) any.
Proof.
  unfold writeset_blocks. destruct r as [first len]. sb.
  - apply safe_if; [|apply safe_ret; exact I]. unfold ws_push. sb; [apply safe_abb_push|intros; apply safe_ret; exact I].
  - intros s1 _. apply safe_if; [apply safe_ret; exact I|]. sb; [apply safe_fill|intros s2 _]. unfold ws_push. sb; [apply safe_abb_push|intros; apply safe_ret; exact I].
Qed.
Lemma safe_ws_e pre s : safe (K pre) (writeset_e s) any.
Proof. unfold writeset_e, ws_push. sb; [apply safe_abb_push|intros; apply safe_ab_complete]. Qed.
Lemma esb_ok sb w w' u : wb_write_era_sb sb w = (w', Ok u) -> exists data, wb_log w' = wb_log w ++ [mkblock 0 data] /\ wb_sm w' = wb_sm w /\ wb_queue w' = wb_queue w.
Proof.
  unfold wb_write_era_sb. intros H. bo H as s2 b2 E. apply lift_ok in E as [-> E2]. bo H as s3 data E. apply lift_ok in E as [-> E3].
  destruct (wb_good w 0) eqn:Eg; [|discriminate]. injection H as <- _. exists data. cbn. auto.
Qed.
Lemma esb_fail pre sb : safe_err (K pre) (wb_write_era_sb sb).
Proof.
  unfold wb_write_era_sb. eapply safe_err_bind; [apply safe_l|intros b _]. eapply safe_err_bind; [apply safe_l|intros data _]. intros w Hw. destruct (wb_good w 0); auto.
Qed.
Lemma safe_sets pre (l : list (N * writeset)) : safe (K pre) (btree_build ws_codec noop_inc (map (fun kv => PushValue (fst kv) (snd kv)) l) tt) any.
Proof. eapply safe_true, safe_btree_build. apply values_nz. eauto. Qed.
Lemma era_finalize_err pre r : safe_err (K pre) (era_finalize r).
Proof.
  unfold era_finalize. destruct (er_sb r); [|eapply safe_safe_err, safe_fail with (Q := any)].
  eapply safe_err_bind; [apply safe_sets|intros t _]. destruct (er_eras r); [|eapply safe_safe_err, safe_fail with (Q := any)].
  eapply safe_err_bind; [apply safe_ab_complete|intros x _]. eapply safe_err_bind; [apply safe_write_metadata_sm|intros sm _]. eapply safe_err_bind; [apply safe_l|intros p _].
  intros w Hw. unfold bindst. pose proof (esb_fail pre) as F. match goal with |- context [wb_write_era_sb ?q w] => specialize (F q w Hw); destruct (wb_write_era_sb q w) as [w' [u| |]]; auto end.
Qed.
Lemma era_finalize_order pre r w w' x : K pre w -> era_finalize r w = (w', x) ->
  match x with
  | Ok r' => exists tail data, wb_log w' = pre ++ tail ++ [mkblock 0 data] /\ Forall nzb tail /\ wb_queue w' = [] /\ K (pre ++ tail ++ [mkblock 0 data]) w' /\ edone r'
  | _ => K pre w'
  end.
Proof.
  intros HK E. destruct x as [r'| |]; [|pose proof (era_finalize_err pre r w HK) as X; rewrite E in X; exact X|pose proof (era_finalize_err pre r w HK) as X; rewrite E in X; exact X].
  unfold era_finalize in E. destruct (er_sb r); [|discriminate E].
  bo E as w1 m E1. pose proof (safe_sets pre (er_sets r) w HK) as K1. rewrite E1 in K1. destruct K1 as [K1 _]. destruct (er_eras r) as [b|]; [|discriminate E].
  bo E as w2 d E2. pose proof (safe_ab_complete pre u32_codec 0 b w1 K1) as K2. rewrite E2 in K2. destruct K2 as [K2 _].
  bo E as w4 sm E4. bo E as w5 p E5. apply lift_ok in E5 as [-> _].
  bo E as w9 u E9. injection E as <- <-. apply esb_ok in E9 as (data & A & B & C). destruct (sb_tail pre w2 w4 w9 sm data K2 E4 A B C) as (tail & T1 & T2 & T3 & T4).
  exists tail, data. conj; auto. unfold edone. cbn. auto.
Qed.
Lemma evisit_active e r pre : is_esbe e = false -> eactive r -> safe (K pre) (evisit e r) eactive.
Proof.
  unfold eactive. intros He Hr. destruct e; cbn [evisit is_esbe] in *; try discriminate.
  - unfold era_superblock_b, in_esec. destruct (er_sec r); cbn; try congruence; apply safe_fail.
  - unfold in_esec. apply safe_if; [|apply safe_fail]. apply safe_ret. cbn. congruence.
  - unfold era_writeset_e, in_esec. apply safe_if; [|apply safe_fail]. destruct (er_cur r) as [[[a b] s]|]; [|apply safe_fail]. sb; [apply safe_ws_e|intros root _]. apply safe_ret. cbn. congruence.
  - unfold era_blocks. sb; [apply safe_l|intros c _]. sb; [apply safe_blocks|intros s _]. apply safe_ret. cbn. exact Hr.
  - unfold in_esec. apply safe_if; [|apply safe_fail]. apply safe_ret. cbn. congruence.
  - unfold in_esec. apply safe_if; [|apply safe_fail]. apply safe_ret. cbn. congruence.
  - unfold era_era. sb; [apply safe_l|intros c _]. sb; [apply safe_abb_push|intros s _]. apply safe_ret. cbn. exact Hr.
  - unfold in_esec. apply safe_if; [|apply safe_fail]. apply safe_ret. exact Hr.
Qed.
Definition is_blocks (e : eevent) : bool := match e with EBlocks _ _ => true | _ => false end.
(** in the states before and after the superblock only marking blocks could write *)
Lemma era_idle e r w w' x : er_sb r = None -> er_eras r = None -> (er_sec r = ESNone /\ er_cur r = None \/ er_sec r = ESFinalized) -> (forall sb, e = ESbB sb -> er_sec r <> ESNone) ->
  (is_blocks e = true -> er_cur r = None) -> evisit e r w = (w', x) -> w' = w /\ forall r', x = Ok r' -> r' = r.
Proof.
  intros H1 H2 H3 Hn Hb E. assert (D : forall (y : res erest), (w, y) = (w', x) -> (forall r', y = Ok r' -> r' = r) -> w' = w /\ forall r', x = Ok r' -> r' = r).
  { intros y Ey Hy. injection Ey as <- <-. auto. }
  assert (S : er_sec r = ESNone \/ er_sec r = ESFinalized) by tauto.
  assert (F : forall s m, s <> ESFinalized -> s <> ESNone -> in_esec s r m w = (w', x) -> w' = w /\ forall r', x = Ok r' -> r' = r).
  { intros s m F1 F2 F. unfold in_esec in F. assert (X : esec_eqb (er_sec r) s = false) by (destruct S as [-> | ->]; destruct s; cbn; congruence). rewrite X in F. apply (D Err F). discriminate. }
  destruct e; cbn [evisit is_blocks] in *; try (unfold era_writeset_e in E; apply F in E; [exact E|discriminate|discriminate]).
  - unfold era_superblock_b, in_esec in E. specialize (Hn sb eq_refl). destruct S as [S|S]; [congruence|]. rewrite S in E. apply (D Err E). discriminate.
  - unfold era_finalize in E. rewrite H1 in E. apply (D Err E). discriminate.
  - unfold era_blocks, bindst in E. rewrite (Hb eq_refl) in E. apply (D Panic E). discriminate.
  - unfold era_era, bindst in E. rewrite H2 in E. apply (D Panic E). discriminate.
  - unfold in_esec in E. destruct S as [S|S]; rewrite S in E; cbn [esec_eqb] in E; [apply (D Err E); discriminate|apply (D (Ok r) E); congruence].
Qed.
Lemma evisit_fresh e r w w' x : efresh r -> clean w -> evisit e r w = (w', x) ->
  match x with Ok r' => efresh r' /\ clean w' \/ eactive r' /\ K [] w' | _ => Forall nzb (wb_log w') end.
Proof.
  intros (H1 & H2 & H3 & H5) Hw E. assert (Hd : (exists sb, e = ESbB sb) \/ forall sb, e <> ESbB sb) by (destruct e; eauto; right; discriminate). destruct Hd as [(sb & ->)|Hn].
  - cbn [evisit] in E. unfold era_superblock_b, in_esec in E. rewrite H5 in E. cbn [esec_eqb] in E. unfold bindst at 1 in E. destruct (wb_alloc w) as [w1 o] eqn:Ea. pose proof (alloc_clean _ _ _ Hw Ea) as Hw1.
    destruct o as [b| |]; [|injection E as <- <-; apply cleanf; auto|injection E as <- <-; apply cleanf; auto].
    destruct (N.eqb_spec (b_loc b) 0) as [Eb|]; cbn [negb] in E; injection E as <- <-; [|apply cleanf; auto].
    right. split; [unfold eactive; cbn; congruence|]. exact (first_alloc w w1 b Hw Ea Eb).
  - destruct (era_idle e r w w' x H1 H3) as [-> Hx]; auto; [intros sb0 Hsb0; exfalso; eapply Hn; eauto|].
    destruct x as [r'| |]; [|apply cleanf; auto|apply cleanf; auto]. left. split; auto. rewrite (Hx r' eq_refl). unfold efresh. auto.
Qed.
Lemma evisit_done pre e r : edone r -> safe (K pre) (evisit e r) edone.
Proof.
  intros (H1 & H2 & H3). destruct (is_blocks e) eqn:Eb.
  - destruct e; try discriminate Eb. cbn [evisit]. unfold era_blocks. sb; [apply safe_l|intros c _]. sb; [apply safe_blocks|intros s _]. apply safe_ret. unfold edone. cbn. auto.
  - intros w Hk. destruct (evisit e r w) as [w' x] eqn:Ev. destruct (era_idle e r w w' x H1 H2) as [-> Hx]; auto; [congruence|congruence|].
    destruct x as [r'| |]; auto. split; auto. rewrite (Hx r' eq_refl). unfold edone. auto.
Qed.
Lemma evisits_run : forall es r w, evisits es r w = run evisit es r w.
Proof. induction es as [|e es IH]; intros r w; [reflexivity|]. cbn [evisits run]. unfold bindst. destruct (evisit e r w) as [w1 [r1| |]]; auto. Qed.
Lemma edone_quiet : forall es r w w' x, edone r -> forallb (fun e => negb (is_blocks e)) es = true -> run evisit es r w = (w', x) -> w' = w.
Proof.
  induction es as [|e es IH]; intros r w w' x Hr Hb H; cbn [run] in H; [injection H as <- _; auto|]. pose proof Hr as (H1 & H2 & H3). cbn [forallb] in Hb. apply Bool.andb_true_iff in Hb as [B1 B2].
  unfold bindst in H. destruct (evisit e r w) as [w1 o] eqn:Ev. destruct (era_idle e r w w1 o H1 H2) as [-> Hx]; auto; [congruence|destruct (is_blocks e); discriminate|].
  destruct o as [r1| |]; [|injection H as <- _; auto|injection H as <- _; auto]. rewrite (Hx r1 eq_refl) in H. eauto.
Qed.
(** The same for era_restore.  Only marked blocks of a writeset left open can be written after
    the superblock. *)
Theorem C20_era_superblock_written_last : forall d good junk nr batch es w r,
  era_restore d good junk nr batch es = (w, r) ->
  Forall (fun b => ~ to_superblock b) (wb_log w) \/
  exists es1 es2 w1 r1 before data after,
    es = es1 ++ ESbE :: es2 /\ era_restore d good junk nr batch (es1 ++ [ESbE]) = (w1, Ok r1) /\
    wb_log w1 = before ++ [mkblock 0 data] /\ wb_queue w1 = [] /\ wb_log w = before ++ mkblock 0 data :: after /\
    Forall (fun b => ~ to_superblock b) (before ++ after) /\
    ((forall b l, ~ In (EBlocks b l) es2) -> w = w1).
Proof.
  intros d good junk nr batch es w r H. unfold era_restore in *. rewrite evisits_run in H.
  apply (run_order evisit is_esbe efresh eactive edone) in H.
  - destruct H as [H|(es1 & e & es2 & w1 & r1 & l1 & data & l2 & -> & He & Hr & Hd & A & B & C & F & (y & G))]; [left; exact H|]. right.
    destruct e; try discriminate He. exists es1, es2, w1, r1, l1, data, l2. rewrite evisits_run. conj; auto. intros Hn. eapply edone_quiet; eauto.
    apply forallb_forall. intros e Hin. destruct e; try reflexivity. exfalso. eapply Hn; eauto.
  - intros e r0 w0 w1 x A B C. eapply evisit_fresh; eauto.
  - intros e r0 A B. apply evisit_active; auto.
  - intros e r0 w0 w1 x A B C D. destruct e; try discriminate A. cbn [evisit] in D. exact (era_finalize_order [] r0 w0 w1 x C D).
  - intros pre e r0 A. apply evisit_done. exact A.
  - unfold efresh. cbn. auto.
  - apply clean_new.
Qed.
(** Crash safety, for calls in which no block is marked after the end of the superblock (in
    well-formed XML <marked> is inside <writeset>, which is inside <superblock>). *)
Theorem C20_era_crash : forall d good junk nr batch es w r k,
  (forall es1 es2 b l, es = es1 ++ ESbE :: es2 -> ~ In (EBlocks b l) es2) ->
  era_restore d good junk nr batch es = (w, r) ->
  crashed d good (wb_log w) k 0 = d 0 \/ (wb_queue w = [] /\ firstn k (wb_log w) = wb_log w).
Proof.
  intros d good junk nr batch es w r k Hes H. destruct (C20_era_superblock_written_last _ _ _ _ _ _ _ _ H) as [Hn|(es1 & es2 & w1 & r1 & l1 & data & l2 & E1 & _ & E3 & E4 & _ & E6 & E7)].
  - left. unfold crashed. apply put_log_other. rewrite <- (firstn_skipn k) in Hn. apply Forall_app in Hn as [Hn _]. eapply Forall_impl; [|exact Hn]. unfold to_superblock. auto.
  - rewrite E7 in * by (intros b l; eapply Hes; eauto). apply Forall_app in E6 as [E6 _]. destruct (Nat.le_gt_cases k (length l1)) as [Hk|Hk].
    + left. unfold crashed. apply put_log_other. rewrite E3, firstn_app. replace (k - length l1)%nat with 0%nat by lia. rewrite app_nil_r.
      rewrite <- (firstn_skipn k) in E6. apply Forall_app in E6 as [E6 _]. exact E6.
    + right. split; auto. apply firstn_all2. rewrite E3, app_length. cbn. lia.
Qed.
Print Assumptions C20_era_superblock_written_last.
Print Assumptions C20_era_crash.

(** An example of each: the writes in order, and whether block 0 is the last. *)
Example C20_cache_and_era_examples :
  map b_loc (wb_log (fst (cache_restore (fun _ => repeat 7 4096) (fun _ => true) (fun _ => repeat 0 4096) 20 4 2 true
    [CSbB (mkcirsb [] 128 3 [115; 109; 113] 4); CMapsB; CMap (mkcmap 1 9 true); CMapsE; CHintsB; CHintsE; CSbE; CEof]))) = [1; 2; 3; 4; 5; 6; 7; 8; 9; 8; 10; 0] /\
  map b_loc (wb_log (fst (era_restore (fun _ => repeat 7 4096) (fun _ => true) (fun _ => repeat 0 4096) 20 4
    [ESbB (mkeirsb [] 128 100 5); EWsB 3 100; EBlocks 7 2; EWsE; EEraB; EEra 8 2; EEraE; ESbE; EEof]))) = [1; 2; 3; 4; 5; 6; 7; 8; 0].
Proof. split; vm_compute; reflexivity. Qed.
