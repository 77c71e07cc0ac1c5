(** Proofs about the copier: tasks, then the invariant of the two threads. *)
From Verif Require Import Base Codec_Model Utils_Proofs Copier_Model Copier_Spec.
From Coq Require Import Permutation.

Lemma has_iff s i : has s i = true <-> In i s.
Proof. unfold has. rewrite existsb_exists. split; [intros (x & H & E); apply Nat.eqb_eq in E; subst; auto|intros H; exists i; split; auto; apply Nat.eqb_refl]. Qed.
Lemma has_not s i : has s i = false <-> ~ In i s.
Proof. rewrite <- has_iff. destruct (has s i); split; congruence. Qed.

(** ** Tasks *)
Definition flat (o : aop) : list (N * nat) := combine (nseq (a_begin o) (length (a_idx o))) (a_idx o).
Definition awf (o : aop) : Prop := a_end o = a_begin o + nlen (a_idx o).

Lemma take_buf_ok avail i : In i avail -> exists r, take_buf avail i = Ok r /\ Permutation avail (i :: r).
Proof.
  induction avail as [|j r IH]; intros H; [destruct H|]. cbn [take_buf]. destruct (Nat.eqb_spec i j) as [->|Hne].
  - exists r. split; auto.
  - destruct H as [->|H]; [congruence|]. destruct (IH H) as (r' & E & P). rewrite E. cbn [bind]. exists (j :: r'). split; auto.
    rewrite P. apply perm_swap.
Qed.

Lemma nseq_S b n : nseq b (Datatypes.S n) = b :: nseq (b + 1) n.
Proof. reflexivity. Qed.
Lemma op_tasks_ok : forall idx avail b rest, Permutation avail (idx ++ rest) ->
  exists av, op_tasks avail b (length idx) idx = Ok (combine (nseq b (length idx)) idx, av) /\ Permutation av rest.
Proof.
  induction idx as [|i idx IH]; intros avail b rest P; cbn [length op_tasks].
  - exists avail. split; auto.
  - destruct (take_buf_ok avail i) as (r & E & Q); [rewrite P; left; auto|]. rewrite E. cbn [bind].
    destruct (IH r (b + 1) rest) as (av & E2 & Q2).
    { apply (Permutation_cons_inv (a := i)). rewrite <- Q, P. reflexivity. }
    rewrite E2. cbn [bind]. exists av. split; auto.
Qed.
Lemma all_tasks_ok : forall ops avail rest, Forall awf ops -> Permutation avail (flat_map a_idx ops ++ rest) ->
  all_tasks avail ops = Ok (flat_map flat ops).
Proof.
  induction ops as [|o r IH]; intros avail rest W P; cbn [all_tasks flat_map]; auto.
  inversion W as [|? ? W1 W2]; subst. unfold awf in W1.
  replace (N.to_nat (a_end o - a_begin o)) with (length (a_idx o)) by (unfold nlen in W1; lia).
  cbn [flat_map] in P. rewrite <- app_assoc in P. destruct (op_tasks_ok (a_idx o) avail (a_begin o) _ P) as (av & E & Q).
  rewrite E. cbn [bind]. rewrite (IH av rest W2 Q). reflexivity.
Qed.
Lemma nseq_app b n m : nseq b (n + m) = nseq b n ++ nseq (b + N.of_nat n) m.
Proof. revert b. induction n as [|n IH]; intros b; cbn [nseq plus app]; [f_equal; lia|]. rewrite IH. do 3 f_equal. lia. Qed.
Lemma combine_app2 {X Y} : forall (a c : list X) (b d : list Y), length a = length b -> combine (a ++ c) (b ++ d) = combine a b ++ combine c d.
Proof. induction a as [|x a IH]; intros c [|y b] d E; cbn in *; try lia; auto. f_equal. apply IH. lia. Qed.
Lemma nseq_length b n : length (nseq b n) = n.
Proof. revert b. induction n; intros; cbn [nseq length]; auto. Qed.
Lemma aggregate_from_ok : forall ops l, awf l -> Forall awf ops ->
  Forall awf (aggregate_from l ops) /\ flat_map flat (aggregate_from l ops) = flat l ++ flat_map flat ops /\
  flat_map a_idx (aggregate_from l ops) = a_idx l ++ flat_map a_idx ops.
Proof.
  induction ops as [|o r IH]; intros l Wl W; cbn [aggregate_from flat_map].
  - conj; [constructor; auto|reflexivity|reflexivity].
  - inversion W as [|? ? W1 W2]; subst. destruct (N.eqb_spec (a_end l) (a_begin o)) as [E|E].
    + destruct (IH (mkaop (a_begin l) (a_end o) (a_idx l ++ a_idx o))) as (A & B & C); auto.
      { unfold awf, nlen in *. cbn. rewrite app_length. lia. }
      conj; [exact A| |].
      * rewrite B, app_assoc. f_equal. unfold flat. cbn [a_begin a_idx]. rewrite app_length, nseq_app, combine_app2 by (rewrite nseq_length; auto).
        do 3 f_equal. unfold awf, nlen in Wl. lia.
      * rewrite C. cbn [a_idx]. rewrite app_assoc. reflexivity.
    + destruct (IH o W1 W2) as (A & B & C). conj; [constructor; auto| |]; cbn [flat_map]; [rewrite B|rewrite C]; reflexivity.
Qed.
Lemma aop_insert_perm o l : Permutation (aop_insert o l) (o :: l).
Proof. induction l as [|p r IH]; cbn [aop_insert]; auto. destruct (a_begin o <=? a_begin p); auto. rewrite IH. apply perm_swap. Qed.
Lemma aop_sort_perm l : Permutation (aop_sort l) l.
Proof. induction l as [|o l IH]; cbn [aop_sort fold_right]; auto. rewrite aop_insert_perm. constructor. exact IH. Qed.

Lemma flat_map_perm {X Y} (f : X -> list Y) a b : Permutation a b -> Permutation (flat_map f a) (flat_map f b).
Proof.
  induction 1; cbn [flat_map]; auto.
  - apply Permutation_app_head; auto.
  - rewrite !app_assoc. apply Permutation_app_tail, Permutation_app_comm.
  - etransitivity; eauto.
Qed.
Lemma single_flat l : flat_map flat (single_ops l) = l /\ flat_map a_idx (single_ops l) = map snd l /\ Forall awf (single_ops l).
Proof.
  induction l as [|[b i] l (A & B & C)]; cbn [single_ops map flat_map]; [auto|]. conj.
  - unfold flat at 1. cbn [fst snd a_begin a_idx length nseq combine]. cbn [app]. f_equal. exact A.
  - cbn [a_idx snd]. cbn [app]. f_equal. exact B.
  - constructor; [reflexivity|exact C].
Qed.
Lemma tasks_ok n l : NoDup (map snd l) -> incl (map snd l) (seq 0 n) -> exists ts, tasks_of n l = Ok ts /\ Permutation ts l.
Proof.
  intros Hn Hi. unfold tasks_of. destruct (single_flat l) as (A & B & C). pose proof (aop_sort_perm (single_ops l)) as P.
  set (S := aop_sort (single_ops l)) in *.
  assert (W : Forall awf S) by (eapply Permutation_Forall; [symmetry; exact P|exact C]).
  assert (Hg : Forall awf (aggregate_ops S) /\ flat_map flat (aggregate_ops S) = flat_map flat S /\ flat_map a_idx (aggregate_ops S) = flat_map a_idx S).
  { destruct S as [|o r]; [cbn; auto|]. inversion W; subst. apply aggregate_from_ok; auto. }
  destruct Hg as (G1 & G2 & G3).
  assert (Q : Permutation (flat_map a_idx S) (map snd l)) by (rewrite <- B; apply flat_map_perm; exact P).
  assert (exists rest, Permutation (seq 0 n) (map snd l ++ rest)) as (rest & R).
  { exists (filter (fun i => negb (has (map snd l) i)) (seq 0 n)). apply NoDup_Permutation; [apply seq_NoDup| |].
    - apply NoDup_app_iff_local. conj; auto; [apply NoDup_filter, seq_NoDup|].
      intros x Hx Hc. apply filter_In in Hc as [_ Hc]. apply negb_true_iff, has_not in Hc. contradiction.
    - intros x. rewrite in_app_iff, filter_In, negb_true_iff, has_not. split.
      + intros Hx. destruct (in_dec Nat.eq_dec x (map snd l)); auto.
      + intros [Hx|[Hx _]]; auto. }
  exists (flat_map flat S). split.
  - rewrite <- G2. apply (all_tasks_ok _ _ rest G1). rewrite G3, R. apply Permutation_app_tail. symmetry. exact Q.
  - rewrite <- A. apply flat_map_perm. exact P.
Qed.

(** ** Enumerations *)
Lemma enum_from_fst {X} (l : list X) : forall i, map fst (enum_from i l) = l.
Proof. induction l as [|x l IH]; intros i; cbn [enum_from map fst]; [auto|f_equal; auto]. Qed.
Lemma enum_from_snd {X} (l : list X) : forall i, map snd (enum_from i l) = seq i (length l).
Proof. induction l as [|x l IH]; intros i; cbn [enum_from map snd length seq]; [auto|f_equal; auto]. Qed.
Lemma enum_fst {X} (l : list X) : map fst (enum l) = l.
Proof. apply enum_from_fst. Qed.
Lemma enum_snd {X} (l : list X) : map snd (enum l) = seq 0 (length l).
Proof. apply enum_from_snd. Qed.
Lemma enum_in_fst {X} (l : list X) x i : In (x, i) (enum l) -> In x l.
Proof. intros H. rewrite <- (enum_fst l). apply (in_map fst) in H. exact H. Qed.
Lemma enum_in_snd {X} (l : list X) x i : In (x, i) (enum l) -> (i < length l)%nat.
Proof. intros H. apply (in_map snd) in H. rewrite enum_snd in H. cbn in H. apply in_seq in H. lia. Qed.
Lemma enum_has {X} (l : list X) i : (i < length l)%nat -> exists x, In (x, i) (enum l).
Proof. intros H. assert (Hi : In i (map snd (enum l))) by (rewrite enum_snd; apply in_seq; lia). apply in_map_iff in Hi as ([x j] & E & Hx). cbn in E. subst. eauto. Qed.
Lemma enum_nodup {X} (l : list X) : NoDup (map snd (enum l)).
Proof. rewrite enum_snd. apply seq_NoDup. Qed.
(* a list with distinct images: equal images, equal elements *)
Lemma nodup_map_inj {X Y} (f : X -> Y) l x y : NoDup (map f l) -> In x l -> In y l -> f x = f y -> x = y.
Proof.
  induction l as [|z l IH]; intros Hn Hx Hy E; [destruct Hx|]. cbn [map] in Hn. inversion Hn as [|? ? N1 N2]; subst.
  destruct Hx as [->|Hx], Hy as [->|Hy]; auto.
  - exfalso. apply N1. rewrite E. apply in_map. exact Hy.
  - exfalso. apply N1. rewrite <- E. apply in_map. exact Hx.
Qed.
Lemma enum_inj_idx {X} (l : list X) x y i : In (x, i) (enum l) -> In (y, i) (enum l) -> x = y.
Proof. intros Hx Hy. pose proof (nodup_map_inj snd _ _ _ (enum_nodup l) Hx Hy eq_refl) as E. congruence. Qed.
Lemma enum_inj_dst ops x y i j : NoDup (map c_dst ops) -> In (x, i) (enum ops) -> In (y, j) (enum ops) -> c_dst x = c_dst y -> i = j.
Proof.
  intros Hn Hx Hy E. assert (Hm : NoDup (map (fun p => c_dst (fst p)) (enum ops))) by (rewrite <- map_map, enum_fst; exact Hn).
  pose proof (nodup_map_inj (fun p => c_dst (fst p)) _ _ _ Hm Hx Hy E) as G. congruence.
Qed.

(** The operations of a chunk that were not read, and those read and not written. *)
Definition unread (ops : list cop) (rs : list nat) : list cop := map fst (filter (fun p => negb (has rs (snd p))) (enum ops)).
Definition unwritten (ops : list cop) (rs ws : list nat) : list cop := map fst (filter (fun p => has rs (snd p) && negb (has ws (snd p))) (enum ops)).
Definition chunk_log (ops : list cop) (rs ws : list nat) : list (cop * outcome) :=
  map (fun p => (fst p, if has rs (snd p) then if has ws (snd p) then Copied else WriteFailed else ReadFailed)) (enum ops).

Lemma nodup_full (s l : list nat) : NoDup s -> NoDup l -> incl s l -> length s = length l -> incl l s.
Proof. intros. apply NoDup_length_incl; auto. lia. Qed.
Lemma read_errs_eq ops rs : NoDup rs -> incl rs (seq 0 (length ops)) -> read_errs ops rs = unread ops rs.
Proof.
  intros Hn Hi. unfold read_errs, unread. destruct (Nat.eqb_spec (length rs) (length ops)) as [E|]; auto.
  assert (Hf : incl (seq 0 (length ops)) rs) by (apply nodup_full; auto; [apply seq_NoDup|rewrite seq_length; auto]).
  replace (filter _ _) with (@nil (cop * nat)); auto. symmetry.
  destruct (filter (fun p => negb (has rs (snd p))) (enum ops)) as [|[x i] r] eqn:E2; auto. exfalso.
  assert (H : In (x, i) (filter (fun p => negb (has rs (snd p))) (enum ops))) by (rewrite E2; left; auto).
  apply filter_In in H as [H1 H2]. apply negb_true_iff, has_not in H2. apply H2, Hf, in_seq. apply enum_in_snd in H1. cbn. lia.
Qed.
Lemma write_errs_eq ops rs ws : NoDup rs -> NoDup ws -> incl ws rs -> write_errs ops rs ws = unwritten ops rs ws.
Proof.
  intros Hn Hw Hi. unfold write_errs, unwritten. destruct (Nat.eqb_spec (length ws) (length rs)) as [E|]; auto.
  assert (Hf : incl rs ws) by (apply nodup_full; auto).
  replace (filter _ _) with (@nil (cop * nat)); auto. symmetry.
  destruct (filter (fun p => has rs (snd p) && negb (has ws (snd p))) (enum ops)) as [|[x i] r] eqn:E2; auto. exfalso.
  assert (H : In (x, i) (filter (fun p => has rs (snd p) && negb (has ws (snd p))) (enum ops))) by (rewrite E2; left; auto).
  apply filter_In in H as [H1 H2]. apply andb_true_iff in H2 as [H2 H3]. apply negb_true_iff, has_not in H3. apply has_iff in H2. auto.
Qed.
Lemma filter_map_len {X Y} (f : X -> Y) (p : Y -> bool) l : filter p (map f l) = map f (filter (fun x => p (f x)) l).
Proof. induction l as [|x l IH]; cbn [map filter]; auto. destruct (p (f x)); cbn [map]; rewrite IH; auto. Qed.
Lemma chunk_log_fst ops rs ws : map fst (chunk_log ops rs ws) = ops.
Proof. unfold chunk_log. rewrite map_map. cbn [fst]. apply enum_fst. Qed.
Lemma chunk_log_read ops rs ws : with_outcome ReadFailed (chunk_log ops rs ws) = unread ops rs.
Proof.
  unfold with_outcome, chunk_log, unread. rewrite filter_map_len, map_map. cbn [fst snd]. f_equal. apply filter_ext. intros [x i]. cbn [snd].
  destruct (has rs i); [destruct (has ws i)|]; reflexivity.
Qed.
Lemma chunk_log_write ops rs ws : with_outcome WriteFailed (chunk_log ops rs ws) = unwritten ops rs ws.
Proof.
  unfold with_outcome, chunk_log, unwritten. rewrite filter_map_len, map_map. cbn [fst snd]. f_equal. apply filter_ext. intros [x i]. cbn [snd].
  destruct (has rs i); [destruct (has ws i)|]; reflexivity.
Qed.
Lemma filter_has_len (s l : list nat) : NoDup s -> NoDup l -> incl s l -> length (filter (has s) l) = length s.
Proof.
  intros Hs Hl Hi. apply Permutation_length, NoDup_Permutation; auto; [apply NoDup_filter; auto|].
  intros x. rewrite filter_In, has_iff. split; [tauto|auto].
Qed.
Lemma chunk_log_copied ops rs ws : NoDup ws -> incl ws rs -> incl rs (seq 0 (length ops)) ->
  length (with_outcome Copied (chunk_log ops rs ws)) = length ws.
Proof.
  intros Hn Hi Hr. unfold with_outcome, chunk_log. rewrite filter_map_len, map_map, map_length. cbn [fst snd].
  rewrite (filter_ext _ (fun p => has ws (snd p))).
  - replace (length (filter (fun p => has ws (snd p)) (enum ops))) with (length (filter (has ws) (map snd (enum ops)))) by (rewrite filter_map_len, map_length; reflexivity).
    rewrite enum_snd. apply filter_has_len; [auto|apply seq_NoDup|]. intros x Hx. apply Hr, Hi, Hx.
  - intros [x i]. cbn [snd]. destruct (has rs i) eqn:E1; destruct (has ws i) eqn:E2; auto.
    apply has_iff in E2. apply Hi in E2. apply has_iff in E2. congruence.
Qed.
Lemma unread_len ops rs : NoDup rs -> incl rs (seq 0 (length ops)) -> (length (unread ops rs) + length rs = length ops)%nat.
Proof.
  intros Hn Hi. unfold unread. rewrite map_length.
  replace (length (filter (fun p => negb (has rs (snd p))) (enum ops))) with (length (filter (fun i => negb (has rs i)) (map snd (enum ops)))) by (rewrite filter_map_len, map_length; reflexivity).
  rewrite enum_snd, <- (filter_has_len rs (seq 0 (length ops))) by (auto; apply seq_NoDup).
  rewrite <- (seq_length (length ops) 0) at 3. generalize (seq 0 (length ops)). induction l as [|x l IH]; cbn [filter length]; auto.
  destruct (has rs x); cbn [negb length]; lia.
Qed.
Lemma unwritten_len ops rs ws : NoDup rs -> NoDup ws -> incl ws rs -> incl rs (seq 0 (length ops)) -> (length (unwritten ops rs ws) + length ws = length rs)%nat.
Proof.
  intros Hn Hw Hi Hr. unfold unwritten. rewrite map_length.
  replace (length (filter (fun p => has rs (snd p) && negb (has ws (snd p))) (enum ops))) with (length (filter (fun i => has rs i && negb (has ws i)) (map snd (enum ops)))) by (rewrite filter_map_len, map_length; reflexivity).
  rewrite enum_snd, <- (filter_has_len rs (seq 0 (length ops))), <- (filter_has_len ws (seq 0 (length ops))); auto using seq_NoDup; [|intros x Hx; apply Hr, Hi, Hx].
  generalize (seq 0 (length ops)). induction l as [|x l IH]; cbn [filter length]; auto.
  destruct (has ws x) eqn:E; [apply has_iff, Hi, has_iff in E; rewrite E|destruct (has rs x)]; cbn [andb negb length]; lia.
Qed.

Lemma bit_insert_in s i j : In j (bit_insert s i) <-> In j s \/ j = i.
Proof.
  unfold bit_insert. destruct (has s i) eqn:E.
  - apply has_iff in E. split; [auto|intros [H| ->]; auto].
  - rewrite in_app_iff. cbn. split; intros [H|H]; auto. destruct H as [<-|[]]; auto.
Qed.
Lemma bit_insert_nodup s i : NoDup s -> NoDup (bit_insert s i).
Proof.
  intros H. unfold bit_insert. destruct (has s i) eqn:E; auto. apply has_not in E.
  apply NoDup_app_iff_local. conj; auto; [repeat constructor; intros []|]. intros x Hx [<-|[]]. contradiction.
Qed.
Lemma bit_insert_new s i : ~ In i s -> length (bit_insert s i) = Datatypes.S (length s).
Proof. intros H. unfold bit_insert. rewrite (proj2 (has_not s i) H), app_length. cbn. lia. Qed.
Lemma failures_S ok n : failures ok (Datatypes.S n) = (failures ok n + if ok n then 0 else 1)%nat.
Proof. unfold failures. rewrite seq_S, filter_app, app_length. cbn [plus filter]. destruct (ok n); cbn; lia. Qed.

(** The tasks of a chunk. *)
Definition rpairs (ops : list cop) : list (N * nat) := map (fun p => (c_src (fst p), snd p)) (enum ops).
Definition wpairs (ops : list cop) (rs : list nat) : list (N * nat) :=
  map (fun p => (c_dst (fst p), snd p)) (filter (fun p => has rs (snd p)) (enum ops)).
Lemma read_tasks_ok ops : exists ts, read_tasks ops = Ok ts /\ Permutation ts (rpairs ops).
Proof.
  apply tasks_ok; unfold rpairs; rewrite map_map; cbn [snd]; rewrite enum_snd; [apply seq_NoDup|intros x; auto].
Qed.
Lemma wpairs_snd ops rs : map snd (wpairs ops rs) = filter (has rs) (seq 0 (length ops)).
Proof. unfold wpairs. rewrite map_map. cbn [snd]. rewrite <- enum_snd, filter_map_len. reflexivity. Qed.
Lemma write_tasks_ok ops rs : exists ts, write_tasks ops rs = Ok ts /\ Permutation ts (wpairs ops rs).
Proof.
  apply tasks_ok; fold (wpairs ops rs); rewrite wpairs_snd; [apply NoDup_filter, seq_NoDup|intros x Hx; apply filter_In in Hx; tauto].
Qed.
Lemma rpairs_in ops b i : In (b, i) (rpairs ops) <-> exists op, In (op, i) (enum ops) /\ c_src op = b.
Proof.
  unfold rpairs. rewrite in_map_iff. split; [intros ([x j] & E & H); cbn in E; injection E as <- <-; eauto|intros (op & H & <-); exists (op, i); auto].
Qed.
Lemma wpairs_in ops rs b i : In (b, i) (wpairs ops rs) <-> exists op, In (op, i) (enum ops) /\ In i rs /\ c_dst op = b.
Proof.
  unfold wpairs. rewrite in_map_iff. split.
  - intros ([x j] & E & H). cbn in E. injection E as <- <-. apply filter_In in H as [H1 H2]. cbn in H2. apply has_iff in H2. eauto.
  - intros (op & H & Hi & <-). exists (op, i). split; auto. apply filter_In. split; auto. cbn. apply has_iff. auto.
Qed.
Lemma rpairs_len ops : length (rpairs ops) = length ops.
Proof. unfold rpairs. rewrite map_length, <- (map_length fst), enum_fst. reflexivity. Qed.
Lemma wpairs_len ops rs : NoDup rs -> incl rs (seq 0 (length ops)) -> length (wpairs ops rs) = length rs.
Proof. intros Hn Hi. rewrite <- (map_length snd), wpairs_snd. apply filter_has_len; auto. apply seq_NoDup. Qed.
