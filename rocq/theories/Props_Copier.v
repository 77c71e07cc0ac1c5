(** Properties C30 (the copier reports what it failed to copy) and C29 (shrink's copying). *)
From Verif Require Import Base Codec_Model Utils_Proofs ThinOut_Model ThinOut_Spec Shrink_Model Shrink_Spec Shrink_Proofs Props_Shrink
  Copier_Model Copier_Spec Copier_Proofs CopierRun_Proofs CopierLive_Proofs CopierRescue_Proofs.
From Coq Require Import Permutation.

(** For every list of operations, chunk size, pattern of faults, contents and schedule of the
    two threads: if the copy has ended it returned stats, and those are the truth. *)
Theorem C30_reports : forall A (k : conf A) m ops sched r, (1 <= k_chunk k)%nat -> independent (k_src k) (k_dst k) ops ->
  let s := run k (copy_start k m ops) sched in copy_result s = Some r ->
  exists t, r = Ok t /\ reports (k_src k) (k_dst k) (k_f k) ops m (s_mem s) t.
Proof.
  intros A k m ops sched r Hk Hind s Hr. assert (I : inv k m ops s) by (apply run_inv; [auto|apply start_inv; auto]).
  pose proof I as (log & nr & rbad & nw & wbad & _ & _ & _ & _ & _ & _ & RO & WO & _).
  unfold copy_result in Hr. destruct (s_r s) eqn:Er; cbn [reader_ok] in RO; try contradiction; try discriminate.
  destruct (s_w s) eqn:Ew; cbn [writer_ok] in WO; try contradiction; try discriminate. injection Hr as <-.
  exists (s_stats s). split; auto. apply (done_reports k m ops s I Er Ew).
Qed.
(** The copy ends under every schedule that keeps giving turns to both threads. *)
Theorem C30_ends : forall A (k : conf A) m ops f, (1 <= k_chunk k)%nat -> independent (k_src k) (k_dst k) ops -> fair f ->
  exists n t, copy_result (run k (copy_start k m ops) (map f (seq 0 n))) = Some (Ok t).
Proof.
  intros A k m ops f Hk Hind Hf. destruct (fair_ends k m ops f (copy_start k m ops) Hind (start_inv k m ops Hk) Hf) as (n & Hn).
  destruct (copy_result (run k (copy_start k m ops) (prefix_of f n))) as [r|] eqn:E; [|congruence].
  destruct (C30_reports A k m ops _ r Hk Hind E) as (t & -> & _). exists n, t. exact E.
Qed.
(** At every moment the blocks that are no destinations are as they were. *)
Theorem C30_running : forall A (k : conf A) m ops sched, (1 <= k_chunk k)%nat -> independent (k_src k) (k_dst k) ops ->
  forall d b, ~ (d = k_dst k /\ In b (map c_dst ops)) -> s_mem (run k (copy_start k m ops) sched) d b = m d b.
Proof.
  intros A k m ops sched Hk Hind d b Hn. assert (I : inv k m ops (run k (copy_start k m ops) sched)) by (apply run_inv; [auto|apply start_inv; auto]).
  destruct I as (log & nr & rbad & nw & wbad & E & _ & _ & _ & _ & M & _). apply M. intros [H1 H2]. apply Hn. split; auto.
  rewrite E, app_assoc, map_app. apply in_app_iff. left. exact H2.
Qed.
(** Without faults everything is copied. *)
Theorem C30_no_faults : forall A (k : conf A) m ops sched r, (1 <= k_chunk k)%nat -> independent (k_src k) (k_dst k) ops ->
  (forall n, f_read (k_f k) n = true) -> (forall n, f_write (k_f k) n = true) ->
  let s := run k (copy_start k m ops) sched in copy_result s = Some r ->
  r = Ok (mkst (nlen ops) [] []) /\ forall op, In op ops -> s_mem s (k_dst k) (c_dst op) = m (k_src k) (c_src op).
Proof.
  intros A k m ops sched r Hk Hind Fr Fw s Hr. destruct (C30_reports A k m ops sched r Hk Hind Hr) as (t & -> & log & H1 & H2 & H3 & H4 & H5 & _ & _ & H8 & H9).
  assert (Z : forall ok n, (forall i, ok i = true) -> failures ok n = 0%nat).
  { intros ok n Hok. unfold failures. replace (filter _ _) with (@nil nat); auto. symmetry. induction (seq 0 n) as [|x l IH]; cbn [filter]; auto. rewrite Hok. exact IH. }
  rewrite Z in H8, H9 by auto. apply length_zero_iff_nil in H8, H9. rewrite H8 in H2. rewrite H9 in H3.
  assert (G : forall p, In p log -> snd p = Copied).
  { intros [o [| |]] Hp; auto; exfalso.
    - assert (Hi : In o (with_outcome ReadFailed log)) by (unfold with_outcome; apply in_map_iff; exists (o, ReadFailed); split; auto; apply filter_In; auto). rewrite <- H2 in Hi. destruct Hi.
    - assert (Hi : In o (with_outcome WriteFailed log)) by (unfold with_outcome; apply in_map_iff; exists (o, WriteFailed); split; auto; apply filter_In; auto). rewrite <- H3 in Hi. destruct Hi. }
  assert (Hall : with_outcome Copied log = ops).
  { rewrite <- H1. unfold with_outcome. f_equal. clear - G. induction log as [|p log IH]; cbn [filter]; auto. rewrite (G p) by (left; auto). cbn [outcome_is].
    f_equal. apply IH. intros q Hq. apply G. right. auto. }
  split.
  - f_equal. rewrite Hall in H4. destruct t as [n re we]. cbn in *. subst. reflexivity.
  - intros op Hop. apply H5. rewrite <- H1 in Hop. apply in_map_iff in Hop as ([o x] & <- & Hp). pose proof (G _ Hp) as Ex. cbn in Ex. subst x. exact Hp.
Qed.

(** The copier is made with at least one block per chunk, or not at all. *)
Theorem C30_chunk : forall buffer_size block_size, 0 < block_size ->
  match copier_chunk buffer_size block_size with Ok n => (1 <= n)%nat /\ N.of_nat n * block_size <= buffer_size | Err => buffer_size < block_size | Panic => False end.
Proof.
  intros bu bl Hb. unfold copier_chunk. destruct (N.ltb_spec bu bl) as [H|H]; auto. destruct (N.eqb_spec bl 0); [lia|].
  rewrite N2Nat.id. assert (1 <= bu / bl) by (apply N.div_le_lower_bound; lia). split; [lia|]. rewrite N.mul_comm. apply N.mul_div_le. lia.
Qed.

(** Chunks of two blocks; four operations, two of them adjacent on the destination; the
    second block read and the third block written fail. *)
Definition ex_ops : list cop := [mkop 1 11; mkop 5 10; mkop 2 13; mkop 3 20].
Definition ex_conf : conf N := mkconf false true false 2 (mkf (fun n => negb (Nat.eqb n 1)) (fun _ => 77) (fun n => negb (Nat.eqb n 2)) (fun _ => 88) (fun _ => 99)) (fun _ => 55).
Definition ex_mem : mem N := fun d b => if d then 1000 + b else b.
Definition ex_sched : list bool := concat (repeat [true; false; true; true; false] 10).
Example C30_example : independent false true ex_ops /\
  copy_result (run ex_conf (copy_start ex_conf ex_mem ex_ops) ex_sched) = Some (Ok (mkst 2 [mkop 5 10] [mkop 3 20])) /\
  map (s_mem (run ex_conf (copy_start ex_conf ex_mem ex_ops) ex_sched) true) [10; 11; 12; 13; 20] = [1010; 1; 1012; 2; 99].
Proof.
  split; [|split; vm_compute; reflexivity]. split; [|discriminate]. cbn. repeat constructor; cbn; intuition discriminate.
Qed.
(** Two operations with one destination are both reported as copied. *)
Example C30_same_destination_refuted :
  let ops := [mkop 1 9; mkop 2 9] in
  let k := mkconf false true false 2 (mkf (fun _ => true) (fun _ => 0) (fun _ => true) (fun _ => 0) (fun _ => 0)) (fun _ => 0) in
  let s := run k (copy_start k ex_mem ops) ex_sched in
  copy_result s = Some (Ok (mkst 2 [] [])) /\ s_mem s true 9 = 2.
Proof. split; vm_compute; reflexivity. Qed.

(** The rescue copier, which goes on after errors page by page. *)
Theorem C30_rescue : forall A (f : faults A) src dst pages ops s, independent src dst ops ->
  let r := rescue_copy f src dst pages ops s (mkst 0 [] []) in
  rescued src dst pages ops (q_mem s) (q_mem (fst r)) (snd r) /\
  ((forall c, f_read f c = true) -> (forall c, f_write f c = true) -> t_copied (snd r) = nlen ops).
Proof.
  intros A f src dst pages ops s Hind r.
  destruct (rescue_copy_spec f src dst pages (q_mem s) ops [] s (mkst 0 [] []) [] Hind) as [H1 H2]; auto; try (intros ? []).
Qed.
(** It may report an operation as a read error and as a write error. *)
Example C30_rescue_reports_twice_refuted :
  let f := mkf (fun n => negb (Nat.eqb n 0)) (fun _ => 0) (fun _ => false) (fun _ => 0) (fun _ => 0) in
  snd (rescue_copy f false true 2 [mkop 1 2] (mkrc (fun _ _ _ => 0) (fun _ => 0) 0 0) (mkst 0 [] [])) = mkst 0 [mkop 1 2] [mkop 1 2].
Proof. reflexivity. Qed.

(** ** Shrink *)
Lemma cop_insert_perm o l : Permutation (cop_insert o l) (o :: l).
Proof. induction l as [|p r IH]; cbn [cop_insert]; auto. destruct (c_dst o <=? c_dst p); auto. rewrite IH. apply perm_swap. Qed.
Lemma cop_sort_perm l : Permutation (cop_sort l) l.
Proof. induction l as [|o l IH]; cbn [cop_sort fold_right]; auto. rewrite cop_insert_perm. constructor. exact IH. Qed.
Lemma batches_perm size : forall ops cur, Permutation (concat (batches_from size cur ops)) (cur ++ ops).
Proof.
  induction ops as [|o r IH]; intros cur; cbn [batches_from].
  - cbn [concat]. rewrite !app_nil_r. apply cop_sort_perm.
  - destruct (size <=? nlen (cur ++ [o])).
    + cbn [concat]. rewrite IH, cop_sort_perm, <- app_assoc. reflexivity.
    + rewrite IH, <- app_assoc. reflexivity.
Qed.

Section Batches.
Context {A : Type}.
Variables (ks : nat -> conf A) (scheds : nat -> list bool) (src dst : bool).
Hypothesis Hks : forall n, k_src (ks n) = src /\ k_dst (ks n) = dst /\ (1 <= k_chunk (ks n))%nat.

Lemma independent_sub a b : independent src dst (a ++ b) -> independent src dst a /\ independent src dst b.
Proof using.
  intros [H1 H2]. rewrite map_app, NoDup_app_iff_local in H1. split; split; try tauto; intros E o p Ho Hp; apply H2; auto; apply in_app_iff; auto.
Qed.
Lemma run_batches_spec : forall bs n m m' r, independent src dst (concat bs) -> run_batches ks scheds n m bs = (m', r) ->
  (forall d b, ~ (d = dst /\ In b (map c_dst (concat bs))) -> m' d b = m d b) /\ r <> Some Panic /\
  (r = Some (Ok tt) -> forall op, In op (concat bs) -> m' dst (c_dst op) = m src (c_src op)) /\
  ((forall n i, f_read (k_f (ks n)) i = true) -> (forall n i, f_write (k_f (ks n)) i = true) -> r <> Some Err).
Proof using Hks.
  induction bs as [|b bs IH]; intros n m m' r Hind H; cbn [run_batches concat] in *.
  - injection H as <- <-. conj; auto; try discriminate. intros _ op [].
  - destruct (independent_sub _ _ Hind) as [Hb Hbs]. destruct (Hks n) as (K1 & K2 & K3).
    assert (Hb' : independent (k_src (ks n)) (k_dst (ks n)) b) by (rewrite K1, K2; exact Hb).
    set (s := run (ks n) (copy_start (ks n) m b) (scheds n)) in *.
    assert (Hrun : forall d x, ~ (d = dst /\ In x (map c_dst (b ++ concat bs))) -> s_mem s d x = m d x).
    { intros d x Hx. apply (C30_running A (ks n) m b (scheds n) K3 Hb'). intros [H1 H2]. apply Hx. rewrite K2 in H1. split; auto. rewrite map_app, in_app_iff. auto. }
    destruct (copy_result s) as [q|] eqn:Eq.
    + destruct (C30_reports A (ks n) m b (scheds n) q K3 Hb' Eq) as (t & -> & Hrep). fold s in Hrep.
      destruct (t_rerr t) as [|e1 l1] eqn:E1; [destruct (t_werr t) as [|e2 l2] eqn:E2|].
      * destruct (IH (Datatypes.S n) (s_mem s) m' r Hbs H) as (I1 & I2 & I3 & I4). conj; auto.
        -- intros d x Hx. rewrite I1; [apply Hrun; exact Hx|]. intros [H1 H2]. apply Hx. split; auto. rewrite map_app, in_app_iff. auto.
        -- intros Hok op Hop. apply in_app_iff in Hop as [Hop|Hop].
           ++ rewrite I1.
              ** destruct Hrep as (log & L1 & L2 & L3 & _ & L5 & _). rewrite K1, K2 in *. apply L5. rewrite <- L1 in Hop. apply in_map_iff in Hop as ([o x] & <- & Hx). cbn [fst].
                 destruct x; auto; exfalso.
                 { assert (Hi : In o (with_outcome ReadFailed log)) by (unfold with_outcome; apply in_map_iff; exists (o, ReadFailed); split; auto; apply filter_In; auto). rewrite <- L2, E1 in Hi. destruct Hi. }
                 { assert (Hi : In o (with_outcome WriteFailed log)) by (unfold with_outcome; apply in_map_iff; exists (o, WriteFailed); split; auto; apply filter_In; auto). rewrite <- L3, E2 in Hi. destruct Hi. }
              ** intros [_ Hc]. destruct Hind as [Hnd _]. rewrite map_app, NoDup_app_iff_local in Hnd. destruct Hnd as (_ & _ & Hnd). apply (Hnd (c_dst op)); auto. apply in_map. auto.
           ++ rewrite (I3 Hok op Hop). apply Hrun. intros [Hc1 Hc2]. apply in_map_iff in Hc2 as (o & Eo & Ho). destruct Hind as [_ Hsd].
              apply (Hsd Hc1 op o); auto. apply in_app_iff. auto.
      * injection H as <- <-. conj; auto; try discriminate. intros F1 F2 _.
        destruct (C30_no_faults A (ks n) m b (scheds n) (Ok t) K3 Hb' (F1 n) (F2 n) Eq) as [Et _]. injection Et as ->. discriminate E2.
      * injection H as <- <-. conj; auto; try discriminate. intros F1 F2 _.
        destruct (C30_no_faults A (ks n) m b (scheds n) (Ok t) K3 Hb' (F1 n) (F2 n) Eq) as [Et _]. injection Et as ->. discriminate E1.
    + injection H as <- <-. conj; auto; discriminate.
Qed.
End Batches.

Lemma plan_ops_pairs plan : plan_ops plan = map (fun q => mkop (fst q) (snd q)) (flat_map pairs plan).
Proof. induction plan as [|[[s e] t] plan IH]; [reflexivity|]. cbn [plan_ops flat_map]. rewrite map_app, <- IH. reflexivity. Qed.
Lemma plan_ops_moves nr es plan : runs_fit es -> shrink_plan nr es = Ok plan ->
  NoDup (map c_dst (plan_ops plan)) /\ forall op, In op (plan_ops plan) <-> moves plan (c_src op) (c_dst op).
Proof.
  intros Hfit E. destruct (plan_spec nr es Hfit) as (above & free & I1 & I2 & HA & HF & H). rewrite E in H. destruct H as (H1 & H2 & H3 & H4).
  pose proof (plan_is_ok plan above free H2 I1 H4 H1) as Hok. split.
  - rewrite plan_ops_pairs, H1, map_map. cbn [c_dst]. apply increasing_NoDup in I2. revert I2. clear. revert free.
    induction above as [|x above IH]; intros [|y free] Hn; cbn [combine map]; try constructor; inversion Hn; subst.
    + intros Hc. apply in_map_iff in Hc as ([p q] & Eq & Hc). cbn in Eq. subst q. apply in_combine_r in Hc. contradiction.
    + apply IH; auto.
  - intros op. rewrite plan_ops_pairs, (moves_pairs plan _ _ Hok), in_map_iff. split.
    + intros ([x y] & <- & Hx). exact Hx.
    + intros Hx. exists (c_src op, c_dst op). split; auto. destruct op; reflexivity.
Qed.

(** The data device while thin_shrink copies, on one device behind one mutex, for every
    document with a plan, contents, batch size, chunk size, pattern of faults and schedule,
    at every moment (a schedule may stop anywhere): the blocks in use by the old metadata are
    as they were.  And when the copy has succeeded, every block that moves is in its place. *)
Theorem C29_shrink_copy : forall A nr es plan (ks : nat -> conf A) scheds size dev m m' r,
  runs_fit es -> shrink_plan nr es = Ok plan ->
  (forall n, k_src (ks n) = dev /\ k_dst (ks n) = dev /\ (1 <= k_chunk (ks n))%nat) ->
  copy_regions ks scheds size m plan = (m', r) ->
  (forall b, used_by es b -> m' dev b = m dev b) /\
  (forall b, nr <= b -> m' dev b = m dev b) /\
  r <> Some Panic /\
  (r = Some (Ok tt) -> forall b b', moves plan b b' -> m' dev b' = m dev b) /\
  ((forall n i, f_read (k_f (ks n)) i = true) -> (forall n i, f_write (k_f (ks n)) i = true) -> r <> Some Err).
Proof.
  intros A nr es plan ks scheds size dev m m' r Hfit E Hks H. unfold copy_regions in H.
  destruct (plan_ops_moves nr es plan Hfit E) as [Hnd Hin]. pose proof (C28_plan nr es Hfit) as P. rewrite E in P. destruct P as (P1 & P2 & _).
  pose proof (batches_perm size (plan_ops plan) []) as Q. cbn [app] in Q. fold (batches size (plan_ops plan)) in Q.
  assert (Hdst : forall b, In b (map c_dst (concat (batches size (plan_ops plan)))) -> exists a, moves plan a b).
  { intros b Hb. apply (Permutation_in _ (Permutation_map c_dst Q)) in Hb. apply in_map_iff in Hb as (o & <- & Ho). exists (c_src o). apply Hin. exact Ho. }
  assert (Hind : independent dev dev (concat (batches size (plan_ops plan)))).
  { split; [apply (Permutation_NoDup (l := map c_dst (plan_ops plan))); auto; apply Permutation_map; symmetry; exact Q|].
    intros _ o p Ho Hp Ec. apply (Permutation_in _ Q) in Ho, Hp. apply Hin in Ho, Hp. rewrite <- Ec in Hp. apply P2 in Hp. destruct Hp as [_ Hp]. apply Hp.
    apply P1. eauto. }
  destruct (run_batches_spec ks scheds dev dev Hks _ _ _ _ _ Hind H) as (R1 & R2 & R3 & R4).
  conj; auto.
  - intros b Hb. apply R1. intros [_ Hc]. apply Hdst in Hc as (a & Ha). apply P2 in Ha. tauto.
  - intros b Hb. apply R1. intros [_ Hc]. apply Hdst in Hc as (a & Ha). apply P2 in Ha. lia.
  - intros Hr b b' Hm. specialize (R3 Hr (mkop b b')). cbn [c_src c_dst] in R3. apply R3. apply (Permutation_in _ (Permutation_sym Q)). apply Hin. exact Hm.
Qed.

(** Put together with the rewritten mappings: through every run, old and new, the same thin
    blocks read the same data. *)
Theorem C29_same_data : forall A nr es plan (ks : nat -> conf A) scheds size dev m m',
  runs_fit es -> shrink_plan nr es = Ok plan ->
  (forall n, k_src (ks n) = dev /\ k_dst (ks n) = dev /\ (1 <= k_chunk (ks n))%nat) ->
  copy_regions ks scheds size m plan = (m', Some (Ok tt)) ->
  exists f, remap_events nr plan es = flat_map f es /\
  forall run, In (EvMap run) es -> exists ms, f (EvMap run) = map EvMap ms /\
    map (fun kv => (fst kv, m' dev (bt_block (snd kv)))) (flat_map expand ms) = map (fun kv => (fst kv, m dev (bt_block (snd kv)))) (expand run).
Proof.
  intros A nr es plan ks scheds size dev m m' Hfit E Hks H.
  destruct (C29_shrink_copy A nr es plan ks scheds size dev m m' _ Hfit E Hks H) as (S1 & _ & _ & S3 & _). specialize (S3 eq_refl).
  destruct (C28_rewrite nr es plan Hfit E) as (f & F1 & F2). exists f. split; auto. intros r Hr. specialize (F2 _ Hr). cbn in F2.
  destruct F2 as (ms & F3 & F4 & _). exists ms. split; auto.
  assert (Hused : forall kv, In kv (expand r) -> used_by es (bt_block (snd kv))).
  { intros kv Hkv. unfold expand in Hkv. apply in_map_iff in Hkv as (i & <- & Hi). apply in_range in Hi. exists r. split; auto. cbn. lia. }
  revert F4 Hused. generalize (flat_map expand ms). generalize (expand r). clear - S1 S3. intros l1 l2 F. induction F as [|p q l1 l2 (R1 & R2 & R3) F IH]; intros Hu; cbn [map]; auto.
  f_equal; [|apply IH; intros kv Hkv; apply Hu; right; auto]. rewrite R1. f_equal.
  destruct R3 as [R3|[_ ->]]; [apply S3; exact R3|]. apply S1. apply Hu. left. auto.
Qed.

(** The document of [ex_shrink], batches of two. *)
Definition ex_ks (n : nat) : conf N := mkconf true true true 1 (mkf (fun _ => true) (fun _ => 0) (fun _ => true) (fun _ => 0) (fun _ => 0)) (fun _ => 0).
Example C29_example : shrink_plan 6 ex_shrink = Ok [((6, 7), 0); ((7, 8), 3); ((9, 10), 4)] /\
  snd (copy_regions ex_ks (fun _ => ex_sched) 2 ex_mem [((6, 7), 0); ((7, 8), 3); ((9, 10), 4)]) = Some (Ok tt) /\
  map (fst (copy_regions ex_ks (fun _ => ex_sched) 2 ex_mem [((6, 7), 0); ((7, 8), 3); ((9, 10), 4)]) true) [0; 1; 2; 3; 4; 6; 7; 9] =
    [1006; 1001; 1002; 1007; 1009; 1006; 1007; 1009].
Proof. conj; vm_compute; reflexivity. Qed.

Print Assumptions C30_reports.
Print Assumptions C30_ends.
Print Assumptions C30_running.
Print Assumptions C30_no_faults.
Print Assumptions C30_rescue.
Print Assumptions C29_shrink_copy.
Print Assumptions C29_same_data.
