(** The invariant of the two threads of SyncCopier::copy, and its consequences. *)
From Verif Require Import Base Codec_Model Utils_Proofs Copier_Model Copier_Spec Copier_Proofs.
From Coq Require Import Permutation.

Lemma chunks_concat {X} n (l : list X) : (1 <= n)%nat -> concat (chunks n l) = l.
Proof.
  intros Hn. unfold chunks. assert (G : forall f (l : list X), (length l <= f)%nat -> concat (chunks_aux f n l) = l).
  { clear l. induction f as [|f IH]; intros l Hl; [destruct l; cbn in *; [auto|lia]|]. destruct l as [|x l]; [reflexivity|].
    cbn [chunks_aux]. cbn [concat]. rewrite IH; [apply firstn_skipn|]. rewrite skipn_length. cbn [length] in *. lia. }
  apply G. lia.
Qed.

Section Run.
Context {A : Type}.
Variable k : conf A.
Variable m0 : mem A.
Variable ops0 : list cop.
Hypothesis Hind : independent (k_src k) (k_dst k) ops0.

(** What a message says is true of the devices as they were. *)
Definition reads_ok (ops : list cop) (rs : list nat) (buf : nat -> A) : Prop :=
  NoDup rs /\ incl rs (seq 0 (length ops)) /\
  forall op i, In (op, i) (enum ops) -> In i rs -> buf i = m0 (k_src k) (c_src op).
Definition msg_ok (g : msg A) : Prop := reads_ok (g_ops g) (g_ok g) (g_buf g).

Definition rops (r : reader A) : list cop := match r with RRead ops _ _ _ _ => ops | RSend g _ => g_ops g | _ => [] end.
Definition rrest (r : reader A) : list cop := match r with RNext cs | RRead _ _ _ _ cs | RSend _ cs => concat cs | _ => [] end.
Definition cops (c : option (msg A)) : list cop := match c with Some g => g_ops g | None => [] end.
Definition wops (w : writer A) : list cop := match w with WLock g _ | WWrite g _ _ _ => g_ops g | _ => [] end.
(** The read errors of what is under way. *)
Definition runread (r : reader A) : list cop := match r with RSend g _ => unread (g_ops g) (g_ok g) | _ => [] end.
Definition cunread (c : option (msg A)) : list cop := match c with Some g => unread (g_ops g) (g_ok g) | None => [] end.
Definition wunread (w : writer A) : list cop := match w with WLock g _ | WWrite g _ _ _ => unread (g_ops g) (g_ok g) | _ => [] end.

(** [nr] blocks of the reader's chunk were read, [bad] of them failed. *)
Definition reader_ok (r : reader A) (nr bad : nat) : Prop :=
  match r with
  | RNext _ => nr = 0%nat /\ bad = 0%nat
  | RRead ops ts rs buf _ => reads_ok ops rs buf /\ exists done, Permutation (done ++ ts) (rpairs ops) /\ incl rs (map snd done) /\
                             nr = length done /\ (bad + length rs = length done)%nat
  | RSend g _ => msg_ok g /\ nr = length (g_ops g) /\ bad = 0%nat
  | RJoin => nr = 0%nat /\ bad = 0%nat
  | RPanic | RErr => False
  end.
Definition writer_ok (w : writer A) (r : reader A) (m : mem A) (nw bad : nat) : Prop :=
  match w with
  | WRecv => nw = 0%nat /\ bad = 0%nat
  | WDone => r = RJoin /\ nw = 0%nat /\ bad = 0%nat
  | WPanic => False
  | WLock g ts => msg_ok g /\ Permutation ts (wpairs (g_ops g) (g_ok g)) /\ nw = 0%nat /\ bad = 0%nat /\
                  forall op, In op (g_ops g) -> m (k_dst k) (c_dst op) = m0 (k_dst k) (c_dst op)
  | WWrite g ts torn ws => msg_ok g /\ exists done, Permutation (done ++ ts) (wpairs (g_ops g) (g_ok g)) /\ NoDup ws /\ incl ws (map snd done) /\
                  nw = length done /\ (bad + length ws = length done)%nat /\
                  (forall op i, In (op, i) (enum (g_ops g)) -> In i ws -> m (k_dst k) (c_dst op) = g_buf g i) /\
                  (forall op i, In (op, i) (enum (g_ops g)) -> ~ In i (g_ok g) -> m (k_dst k) (c_dst op) = m0 (k_dst k) (c_dst op))
  end.

Definition log_ok (log : list (cop * outcome)) (m : mem A) : Prop :=
  (forall op, In (op, Copied) log -> m (k_dst k) (c_dst op) = m0 (k_src k) (c_src op)) /\
  (forall op, In (op, ReadFailed) log -> m (k_dst k) (c_dst op) = m0 (k_dst k) (c_dst op)).

Definition inv (s : cst A) : Prop :=
  exists log nr rbad nw wbad,
    ops0 = map fst log ++ wops (s_w s) ++ cops (s_chan s) ++ rops (s_r s) ++ rrest (s_r s) /\
    t_rerr (s_stats s) = with_outcome ReadFailed log ++ wunread (s_w s) ++ cunread (s_chan s) ++ runread (s_r s) /\
    t_werr (s_stats s) = with_outcome WriteFailed log /\
    t_copied (s_stats s) = nlen (with_outcome Copied log) /\
    log_ok log (s_mem s) /\
    (forall d b, ~ (d = k_dst k /\ In b (map c_dst (map fst log ++ wops (s_w s)))) -> s_mem s d b = m0 d b) /\
    reader_ok (s_r s) nr rbad /\ writer_ok (s_w s) (s_r s) (s_mem s) nw wbad /\
    (match s_chan s with Some g => msg_ok g | None => True end) /\
    (s_w s = WDone -> s_chan s = None) /\
    (s_nr s = length (map fst log) + length (wops (s_w s)) + length (cops (s_chan s)) + nr)%nat /\
    (failures (f_read (k_f k)) (s_nr s) = length (t_rerr (s_stats s)) + rbad)%nat /\
    (s_nw s + length (with_outcome ReadFailed log) = length (map fst log) + nw)%nat /\
    (failures (f_write (k_f k)) (s_nw s) = length (t_werr (s_stats s)) + wbad)%nat.

Lemma with_outcome_app o a b : with_outcome o (a ++ b) = with_outcome o a ++ with_outcome o b.
Proof using. unfold with_outcome. rewrite filter_app, map_app. reflexivity. Qed.
Lemma put_same (m : mem A) d b v : put m d b v d b = v.
Proof using. unfold put. rewrite eqb_reflx, N.eqb_refl. reflexivity. Qed.
Lemma put_other (m : mem A) d b v d' b' : ~ (d' = d /\ b' = b) -> put m d b v d' b' = m d' b'.
Proof using. unfold put. intros H. destruct (Bool.eqb d d') eqn:E; auto. apply eqb_prop in E. destruct (N.eqb_spec b b'); auto. subst. exfalso. auto. Qed.

Lemma src_untouched s op : inv s -> In op ops0 -> s_mem s (k_src k) (c_src op) = m0 (k_src k) (c_src op).
Proof using Hind.
  intros (log & nr & rbad & nw & wbad & E & _ & _ & _ & _ & M & _) Hop. apply M. intros [Ed Hb].
  destruct Hind as [_ Hs]. apply in_map_iff in Hb as (p & Ep & Hp). apply (Hs Ed op p); auto.
  rewrite E, app_assoc, in_app_iff. left. exact Hp.
Qed.

Lemma reader_inv s s' : inv s -> step_reader k s = Some s' -> inv s'.
Proof using Hind.
  intros I0 Hs. pose proof (src_untouched s) as Hsrc. specialize (Hsrc).
  assert (I := I0). destruct I as (log & nr & rbad & nw & wbad & E & R & W & C & L & M & RO & WO & CO & DN & NR & FR & NW & FW).
  destruct s as [r w c m nread nwr t]. cbn [s_r s_w s_chan s_mem s_nr s_nw s_stats] in *.
  unfold step_reader in Hs. cbn [s_r s_w s_chan s_mem s_nr s_nw s_stats] in Hs.
  destruct r as [cs|ops ts rs buf cs|g cs| | |].
  - destruct cs as [|ops cs].
    + injection Hs as <-. exists log, nr, rbad, nw, wbad. cbn [s_r s_w s_chan s_mem s_nr s_nw s_stats rops rrest runread reader_ok concat] in *.
      destruct RO as (-> & ->). conj; auto. destruct w; try exact WO. destruct WO as (Q & _). discriminate Q.
    + destruct (k_shared k && dst_locked _); [discriminate|]. injection Hs as <-. destruct (read_tasks_ok ops) as (ts & Ets & P).
      rewrite Ets. destruct RO as (-> & ->). exists log, 0%nat, 0%nat, nw, wbad.
      cbn [s_r s_w s_chan s_mem s_nr s_nw s_stats rops rrest runread reader_ok concat app] in *.
      conj; auto.
      * unfold reads_ok; conj; [constructor|intros x []|intros ? ? ? []].
      * exists []. cbn [app length map]. conj; auto. intros x [].
      * destruct w; try exact WO. destruct WO as (Q & _). discriminate Q.
  - destruct RO as ((N1 & N2 & N3) & done & P & Idone & -> & Hbad). destruct ts as [|[b i] ts].
    + injection Hs as <-. rewrite app_nil_r in P.
      assert (Hlen : length done = length ops) by (rewrite (Permutation_length P); apply rpairs_len).
      exists log, (length ops), 0%nat, nw, wbad.
      cbn [s_r s_w s_chan s_mem s_nr s_nw s_stats rops rrest runread reader_ok concat t_rerr t_werr t_copied g_ops g_ok] in *.
      rewrite read_errs_eq by auto. conj; auto.
      * rewrite R. rewrite app_nil_r, <- !app_assoc. reflexivity.
      * unfold msg_ok, reads_ok; conj; auto.
      * destruct w; try exact WO. destruct WO as (Q & _). discriminate Q.
      * rewrite NR. lia.
      * rewrite FR, app_length. pose proof (unread_len ops rs N1 N2). lia.
    + assert (Hin : In (b, i) (rpairs ops)) by (rewrite <- P; apply in_app_iff; right; left; auto).
      apply rpairs_in in Hin as (op & Hop & Eb).
      assert (Hop0 : In op ops0) by (rewrite E; apply enum_in_fst in Hop; rewrite !in_app_iff; cbn [rops]; auto).
      assert (Hnew : ~ In i (map snd done)).
      { assert (ND : NoDup (map snd (done ++ (b, i) :: ts))).
        { apply (Permutation_NoDup (l := map snd (rpairs ops))); [apply Permutation_map; symmetry; exact P|].
          unfold rpairs. rewrite map_map. cbn [snd]. apply enum_nodup. }
        rewrite map_app in ND. cbn [map snd] in ND. apply NoDup_remove_2 in ND. rewrite in_app_iff in ND. tauto. }
      assert (Hval : m (k_src k) b = m0 (k_src k) (c_src op)) by (rewrite <- Eb; apply (src_untouched _ op I0 Hop0)).
      assert (P' : Permutation ((done ++ [(b, i)]) ++ ts) (rpairs ops)) by (rewrite <- app_assoc; exact P).
      assert (WO' : forall r', r' <> RJoin -> writer_ok w r' m nw wbad).
      { intros r' _. destruct w; try exact WO. destruct WO as (Q & _). discriminate Q. }
      assert (Hii : (i < length ops)%nat) by (eapply enum_in_snd; eauto).
      destruct (f_read (k_f k) nread) eqn:EF; injection Hs as <-.
      * exists log, (Datatypes.S (length done)), rbad, nw, wbad.
        cbn [s_r s_w s_chan s_mem s_nr s_nw s_stats rops rrest runread reader_ok] in *. conj; auto.
        -- unfold reads_ok; conj.
           ++ apply bit_insert_nodup; auto.
           ++ intros x Hx. apply bit_insert_in in Hx as [Hx| ->]; auto. apply in_seq. lia.
           ++ intros op' j Hj Hin. unfold put_buf. destruct (Nat.eqb_spec i j) as [->|Hne].
              ** rewrite (enum_inj_idx ops op' op j Hj Hop). exact Hval.
              ** apply bit_insert_in in Hin as [Hin|Hc]; [apply (N3 op' j Hj Hin)|congruence].
        -- exists (done ++ [(b, i)]). conj; auto.
           ++ intros x Hx. rewrite map_app, in_app_iff. apply bit_insert_in in Hx as [Hx| ->]; [left; auto|right; left; auto].
           ++ rewrite app_length. cbn. lia.
           ++ rewrite bit_insert_new by (intros Hc; apply Hnew, Idone, Hc). rewrite app_length. cbn. lia.
        -- apply WO'. discriminate.
        -- lia.
        -- rewrite failures_S, EF, FR. lia.
      * exists log, (Datatypes.S (length done)), (Datatypes.S rbad), nw, wbad.
        cbn [s_r s_w s_chan s_mem s_nr s_nw s_stats rops rrest runread reader_ok] in *. conj; auto.
        -- unfold reads_ok; conj; auto. intros op' j Hj Hin. unfold put_buf. destruct (Nat.eqb_spec i j) as [->|Hne]; [exfalso; apply Hnew, Idone, Hin|].
           apply (N3 op' j Hj Hin).
        -- exists (done ++ [(b, i)]). conj; auto.
           ++ intros x Hx. rewrite map_app, in_app_iff. left; auto.
           ++ rewrite app_length. cbn. lia.
           ++ rewrite app_length. cbn. lia.
        -- apply WO'. discriminate.
        -- lia.
        -- rewrite failures_S, EF, FR. lia.
  - destruct RO as (G & -> & ->).
    assert (Hw : w <> WPanic) by (intros ->; exact WO).
    assert (Hs' : match c with None => Some (mkcst (RNext cs) w (Some g) m nread nwr t) | Some _ => None end = Some s') by (destruct w; auto; congruence).
    clear Hs. destruct c as [g'|]; [discriminate|]. injection Hs' as <-.
    exists log, 0%nat, 0%nat, nw, wbad. cbn [s_r s_w s_chan s_mem s_nr s_nw s_stats rops rrest runread reader_ok cops cunread app] in *. conj; auto.
    + rewrite R, app_nil_r. reflexivity.
    + destruct w; try exact WO. destruct WO as (Q & _). discriminate Q.
    + intros ->. destruct WO as (Q & _). discriminate Q.
    + cbn [length] in NR. lia.
  - discriminate.
  - discriminate.
  - discriminate.
Qed.

Lemma dst_in_disjoint a b : NoDup (map c_dst (a ++ b)) -> forall o p, In o a -> In p b -> c_dst o <> c_dst p.
Proof using.
  rewrite map_app, NoDup_app_iff_local. intros (_ & _ & H) o p Ho Hp E. apply (H (c_dst o)); [apply in_map; auto|rewrite E; apply in_map; auto].
Qed.

Lemma log_put log m b v : log_ok log m -> (forall op, In op (map fst log) -> c_dst op <> b) -> log_ok log (put m (k_dst k) b v).
Proof using.
  intros (L1 & L2) H. split; intros op Hop; rewrite put_other; auto; intros [_ Hc]; apply (H op); auto; apply (in_map fst) in Hop; exact Hop.
Qed.

Lemma writer_inv s s' : inv s -> step_writer k s = Some s' -> inv s'.
Proof using Hind.
  intros (log & nr & rbad & nw & wbad & E & R & W & C & L & M & RO & WO & CO & DN & NR & FR & NW & FW) Hs.
  destruct s as [r w c m nread nwr t]. cbn [s_r s_w s_chan s_mem s_nr s_nw s_stats] in *.
  unfold step_writer in Hs. cbn [s_r s_w s_chan s_mem s_nr s_nw s_stats] in Hs.
  destruct w as [|g ts|g ts torn ws| |].
  - destruct WO as (-> & ->). destruct c as [g|].
    + injection Hs as <-. destruct (write_tasks_ok (g_ops g) (g_ok g)) as (ts & Ets & P). rewrite Ets.
      exists log, nr, rbad, 0%nat, 0%nat. cbn [s_r s_w s_chan s_mem s_nr s_nw s_stats wops wunread cops cunread app length] in *. conj; auto; try discriminate.
      * intros d b Hn. apply M. intros [H1 H2]. apply Hn. split; auto. rewrite map_app in *. cbn [map] in H2. rewrite app_nil_r in H2. apply in_app_iff. auto.
      * cbn [writer_ok]. conj; auto. intros op Hop. apply M. intros [_ Hc]. rewrite app_nil_r in Hc.
        apply in_map_iff in Hc as (p & Ep & Hp). destruct Hind as [Hnd _]. rewrite E in Hnd.
        apply (dst_in_disjoint _ _ Hnd p op Hp); [apply in_app_iff; auto|auto].
      * lia.
    + assert (Hr : r = RJoin /\ s' = mkcst r WDone None m nread nwr t).
      { destruct r; try discriminate; try (exfalso; exact RO). injection Hs as <-. auto. }
      destruct Hr as [-> ->]. exists log, nr, rbad, 0%nat, 0%nat.
      cbn [s_r s_w s_chan s_mem s_nr s_nw s_stats wops wunread cops cunread app length] in *. conj; auto. cbn [writer_ok]. auto.
  - destruct WO as (G & P & -> & -> & Wm). destruct (k_shared k && src_locked _); [discriminate|]. injection Hs as <-.
    exists log, nr, rbad, 0%nat, 0%nat. cbn [s_r s_w s_chan s_mem s_nr s_nw s_stats wops wunread] in *. conj; auto; [|discriminate].
    cbn [writer_ok]. split; auto. exists []. cbn [app map length]. conj; auto; [constructor|intros x []|intros ? ? ? []|].
    intros op i Hop _. apply Wm. eapply enum_in_fst; eauto.
  - destruct WO as ((N1 & N2 & N3) & done & P & ND & Iws & -> & Hbad & V1 & V2). destruct ts as [|[b i] ts].
    + injection Hs as <-. rewrite app_nil_r in P.
      assert (Hlen : length done = length (g_ok g)) by (rewrite (Permutation_length P); apply wpairs_len; auto).
      assert (Hsub : incl ws (g_ok g)).
      { intros x Hx. apply Iws in Hx. apply (Permutation_in _ (Permutation_map snd P)) in Hx. rewrite wpairs_snd, filter_In, has_iff in Hx. tauto. }
      exists (log ++ chunk_log (g_ops g) (g_ok g) ws), nr, rbad, 0%nat, 0%nat.
      cbn [s_r s_w s_chan s_mem s_nr s_nw s_stats wops wunread t_rerr t_werr t_copied app] in *.
      rewrite !with_outcome_app, !map_app, chunk_log_fst, chunk_log_read, chunk_log_write, write_errs_eq by auto.
      pose proof (unread_len (g_ops g) (g_ok g) N1 N2). pose proof (unwritten_len (g_ops g) (g_ok g) ws N1 ND Hsub N2).
      conj; auto; try discriminate.
      * rewrite E, <- app_assoc. reflexivity.
      * rewrite R, <- !app_assoc. reflexivity.
      * rewrite W. reflexivity.
      * rewrite C. unfold nlen. rewrite app_length, chunk_log_copied by auto. lia.
      * destruct L as (L1 & L2). split; intros op Hop; apply in_app_iff in Hop as [Hop|Hop]; auto;
          unfold chunk_log in Hop; apply in_map_iff in Hop as ([x i] & Ex & Hx); cbn [fst snd] in Ex;
          (destruct (has (g_ok g) i) eqn:E1; [destruct (has ws i) eqn:E2|]; try discriminate Ex).
        -- injection Ex as <-. apply has_iff in E2. rewrite (V1 x i Hx E2). apply (N3 x i Hx). apply has_iff. exact E1.
        -- injection Ex as <-. apply has_not in E1. apply (V2 x i Hx E1).
      * intros d b Hn. apply M. rewrite map_app in *. rewrite app_nil_r in Hn. exact Hn.
      * cbn [writer_ok]. auto.
      * rewrite !app_length, NR. cbn [length]. lia.
      * rewrite !app_length. lia.
      * rewrite FW, app_length. lia.
    + assert (Hin : In (b, i) (wpairs (g_ops g) (g_ok g))) by (rewrite <- P; apply in_app_iff; right; left; auto).
      apply wpairs_in in Hin as (op & Hop & Hi & Eb).
      assert (Hnew : ~ In i (map snd done)).
      { assert (NDP : NoDup (map snd (done ++ (b, i) :: ts))).
        { apply (Permutation_NoDup (l := map snd (wpairs (g_ops g) (g_ok g)))); [apply Permutation_map; symmetry; exact P|].
          rewrite wpairs_snd. apply NoDup_filter, seq_NoDup. }
        rewrite map_app in NDP. cbn [map snd] in NDP. apply NoDup_remove_2 in NDP. rewrite in_app_iff in NDP. tauto. }
      destruct Hind as [Hnd _]. rewrite E in Hnd.
      assert (Hwn : NoDup (map c_dst (g_ops g))).
      { rewrite map_app, NoDup_app_iff_local in Hnd. destruct Hnd as (_ & Hnd & _). cbn [wops] in Hnd. rewrite map_app, NoDup_app_iff_local in Hnd. tauto. }
      assert (Hlog : forall o, In o (map fst log) -> c_dst o <> b).
      { intros o Ho. rewrite <- Eb. apply (dst_in_disjoint _ _ Hnd o op Ho). cbn [wops]. apply in_app_iff. left. eapply enum_in_fst; eauto. }
      assert (Hmem : forall v d b', ~ (d = k_dst k /\ In b' (map c_dst (map fst log ++ g_ops g))) -> put m (k_dst k) b v d b' = m0 d b').
      { intros v d b' Hn. rewrite put_other; [apply M; exact Hn|]. intros [-> ->]. apply Hn. split; auto. rewrite <- Eb. apply in_map.
        apply in_app_iff. right. eapply enum_in_fst; eauto. }
      assert (Hother : forall v o j, In (o, j) (enum (g_ops g)) -> j <> i -> put m (k_dst k) b v (k_dst k) (c_dst o) = m (k_dst k) (c_dst o)).
      { intros v o j Ho Hj. apply put_other. intros [_ Hc]. apply Hj. rewrite <- Eb in Hc. eapply enum_inj_dst; eauto. }
      assert (P' : Permutation ((done ++ [(b, i)]) ++ ts) (wpairs (g_ops g) (g_ok g))) by (rewrite <- app_assoc; exact P).
      destruct torn.
      * destruct (f_write (k_f k) nwr) eqn:EF; injection Hs as <-.
        -- exists log, nr, rbad, (Datatypes.S (length done)), wbad.
           cbn [s_r s_w s_chan s_mem s_nr s_nw s_stats wops wunread] in *. conj; auto; try discriminate.
           ++ apply log_put; auto.
           ++ cbn [writer_ok]. split; [split; auto|]. exists (done ++ [(b, i)]). conj; auto.
              ** apply bit_insert_nodup; auto.
              ** intros x Hx. rewrite map_app, in_app_iff. apply bit_insert_in in Hx as [Hx| ->]; [left; auto|right; left; auto].
              ** rewrite app_length. cbn. lia.
              ** rewrite bit_insert_new by (intros Hc; apply Hnew, Iws, Hc). rewrite app_length. cbn. lia.
              ** intros o j Ho Hj. destruct (Nat.eq_dec j i) as [->|Hne].
                 { rewrite (enum_inj_idx _ _ _ _ Ho Hop), Eb. apply put_same. }
                 { rewrite (Hother _ o j Ho Hne). apply V1; auto. apply bit_insert_in in Hj as [Hj|Hj]; [auto|congruence]. }
              ** intros o j Ho Hj. rewrite (Hother _ o j Ho); [apply (V2 o j); auto|]. intros ->. contradiction.
           ++ lia.
           ++ rewrite failures_S, EF, FW. lia.
        -- exists log, nr, rbad, (Datatypes.S (length done)), (Datatypes.S wbad).
           cbn [s_r s_w s_chan s_mem s_nr s_nw s_stats wops wunread] in *. conj; auto; try discriminate.
           ++ apply log_put; auto.
           ++ cbn [writer_ok]. split; [split; auto|]. exists (done ++ [(b, i)]). conj; auto.
              ** intros x Hx. rewrite map_app, in_app_iff. left; auto.
              ** rewrite app_length. cbn. lia.
              ** rewrite app_length. cbn. lia.
              ** intros o j Ho Hj. rewrite (Hother _ o j Ho); [apply V1; auto|]. intros ->. apply Hnew, Iws, Hj.
              ** intros o j Ho Hj. rewrite (Hother _ o j Ho); [apply (V2 o j); auto|]. intros ->. contradiction.
           ++ lia.
           ++ rewrite failures_S, EF, FW. lia.
      * injection Hs as <-. exists log, nr, rbad, (length done), wbad.
        cbn [s_r s_w s_chan s_mem s_nr s_nw s_stats wops wunread] in *. conj; auto; try discriminate.
        -- apply log_put; auto.
        -- cbn [writer_ok]. split; [split; auto|]. exists done. conj; auto.
           ++ intros o j Ho Hj. rewrite (Hother _ o j Ho); [apply V1; auto|]. intros ->. apply Hnew, Iws, Hj.
           ++ intros o j Ho Hj. rewrite (Hother _ o j Ho); [apply (V2 o j); auto|]. intros ->. contradiction.
  - discriminate.
  - discriminate.
Qed.

Lemma start_inv : (1 <= k_chunk k)%nat -> inv (copy_start k m0 ops0).
Proof using.
  intros Hk. exists [], 0%nat, 0%nat, 0%nat, 0%nat. unfold copy_start.
  cbn [s_r s_w s_chan s_mem s_nr s_nw s_stats wops wunread cops cunread rops rrest runread app length map reader_ok writer_ok t_rerr t_werr t_copied].
  conj; auto; try discriminate.
  - symmetry. apply chunks_concat. exact Hk.
  - split; intros op [].
Qed.
Lemma run_inv sched : forall s, inv s -> inv (run k s sched).
Proof using Hind.
  induction sched as [|w sched IH]; intros s H; [exact H|]. cbn [run fold_left]. apply IH. unfold step.
  destruct w; [destruct (step_reader k s) eqn:E|destruct (step_writer k s) eqn:E]; auto; [eapply reader_inv|eapply writer_inv]; eauto.
Qed.

Lemma done_reports s : inv s -> s_r s = RJoin -> s_w s = WDone -> reports (k_src k) (k_dst k) (k_f k) ops0 m0 (s_mem s) (s_stats s).
Proof using.
  intros (log & nr & rbad & nw & wbad & E & R & W & C & L & M & RO & WO & CO & DN & NR & FR & NW & FW) Hr Hw.
  specialize (DN Hw). rewrite Hr, Hw, DN in *. cbn [wops wunread cops cunread rops rrest runread app length reader_ok writer_ok] in *.
  destruct RO as (-> & ->). destruct WO as (_ & -> & ->). rewrite !app_nil_r in *. destruct L as (L1 & L2).
  exists log. conj; auto; try congruence.
  - intros d b H. apply M. rewrite <- E. exact H.
  - rewrite E. rewrite NR in FR. rewrite !Nat.add_0_r in FR. symmetry. exact FR.
  - rewrite FW in * || idtac. rewrite E. replace (length (map fst log) - length (t_rerr (s_stats s)))%nat with (s_nw s); [lia|]. rewrite R. lia.
Qed.
End Run.
