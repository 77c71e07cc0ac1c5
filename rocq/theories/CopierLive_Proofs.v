(** The copy always ends: no deadlock, and every action uses up a finite supply. *)
From Verif Require Import Base Codec_Model Utils_Proofs Copier_Model Copier_Spec Copier_Proofs CopierRun_Proofs.
From Coq Require Import Permutation.

Section Live.
Context {A : Type}.
Variable k : conf A.

Definition mchunks (cs : list (list cop)) : nat := list_sum (map (fun c => 3 * length c + 10)%nat cs).
Definition mreader (r : reader A) : nat :=
  match r with
  | RNext cs => (1 + mchunks cs)%nat
  | RRead ops ts _ _ cs => (1 + mchunks cs + length ts + 2 * length ops + 8)%nat
  | RSend g cs => (1 + mchunks cs + 2 * length (g_ops g) + 7)%nat
  | _ => 0%nat
  end.
Definition mchan (c : option (msg A)) : nat := match c with Some g => (2 * length (g_ops g) + 5)%nat | None => 0%nat end.
Definition mwriter (w : writer A) : nat :=
  match w with
  | WRecv => 1%nat
  | WLock _ ts => (2 * length ts + 3)%nat
  | WWrite _ ts torn _ => (2 * length ts + 2 - (if torn then match ts with [] => 0 | _ => 1 end else 0))%nat
  | _ => 0%nat
  end.
Definition moves_left (s : cst A) : nat := (mreader (s_r s) + mchan (s_chan s) + mwriter (s_w s))%nat.

Lemma reader_decreases s s' : step_reader k s = Some s' -> (moves_left s' < moves_left s)%nat.
Proof using.
  destruct s as [r w c m nr nw t]. unfold step_reader, moves_left. cbn [s_r s_w s_chan s_mem s_nr s_nw s_stats].
  destruct r as [[|ops cs]|ops [|[b i] ts] rs buf cs|g cs| | |]; try discriminate.
  - intros [= <-]. cbn. lia.
  - destruct (_ && _); [discriminate|]. intros [= <-]. destruct (read_tasks_ok ops) as (ts & -> & P). apply Permutation_length in P. rewrite rpairs_len in P.
    cbn [s_r s_w s_chan mreader]. change (mchunks (ops :: cs)) with (3 * length ops + 10 + mchunks cs)%nat. lia.
  - intros [= <-]. cbn [s_r s_w s_chan mreader g_ops length]. lia.
  - intros H. destruct (f_read (k_f k) nr); injection H as <-; cbn [s_r s_w s_chan mreader length]; lia.
  - intros H. destruct w; try (injection H as <-; cbn [s_r s_w s_chan mreader]; lia);
      (destruct c; [discriminate|]; injection H as <-; cbn [s_r s_w s_chan mreader mchan]; lia).
Qed.
Lemma wpairs_len_le ops rs : (length (wpairs ops rs) <= length ops)%nat.
Proof using.
  unfold wpairs. rewrite map_length. transitivity (length (enum ops)); [|rewrite <- (map_length fst), enum_fst; lia].
  generalize (enum ops). induction l as [|x l IH]; cbn [filter length]; auto. destruct (has rs (snd x)); cbn [length]; lia.
Qed.
Lemma writer_decreases s s' : step_writer k s = Some s' -> (moves_left s' < moves_left s)%nat.
Proof using.
  destruct s as [r w c m nr nw t]. unfold step_writer, moves_left. cbn [s_r s_w s_chan s_mem s_nr s_nw s_stats].
  destruct w as [|g ts|g [|[b i] ts] [|] ws| |]; try discriminate.
  - destruct c as [g|].
    + intros [= <-]. destruct (write_tasks_ok (g_ops g) (g_ok g)) as (ts & -> & P). apply Permutation_length in P. pose proof (wpairs_len_le (g_ops g) (g_ok g)).
      cbn [s_r s_w s_chan mchan mwriter]. lia.
    + destruct r; try discriminate; intros [= <-]; cbn [s_r s_w s_chan mchan mwriter]; lia.
  - destruct (_ && _); [discriminate|]. intros [= <-]. cbn [s_r s_w s_chan mwriter]. lia.
  - intros [= <-]. cbn. lia.
  - intros [= <-]. cbn. lia.
  - intros H. destruct (f_write (k_f k) nw); injection H as <-; cbn [s_r s_w s_chan mwriter length]; lia.
  - intros [= <-]. cbn [s_r s_w s_chan mwriter length]. lia.
Qed.

Definition can_move (s : cst A) (who : bool) : Prop := (if who then step_reader k s else step_writer k s) <> None.
Lemma progress m0 ops0 s : inv k m0 ops0 s -> copy_result s = None -> exists who, can_move s who.
Proof using.
  intros (log & nr & rbad & nw & wbad & _ & _ & _ & _ & _ & _ & RO & WO & _ & DN & _) Hres.
  destruct s as [r w c m nread nwr t]. unfold can_move, copy_result in *. unfold step_reader, step_writer. cbn [s_r s_w s_chan s_mem s_nr s_nw s_stats src_locked dst_locked] in *.
  destruct r as [[|ops cs]|ops [|[b i] ts] rs buf cs|g cs| | |].
  - exists true. discriminate.
  - destruct w as [|g ts|g ts torn ws| |]; try (exists true; rewrite andb_false_r; discriminate).
    exists false. destruct ts as [|[b i] ts]; [discriminate|]. destruct torn; discriminate.
  - exists true. discriminate.
  - exists true. discriminate.
  - destruct c as [g'|].
    + destruct w as [|g1 ts|g1 ts torn ws| |].
      * exists false. discriminate.
      * exists false. rewrite andb_false_r. discriminate.
      * exists false. destruct ts as [|[b i] ts]; [discriminate|]. destruct torn; discriminate.
      * specialize (DN eq_refl). discriminate.
      * destruct WO.
    + exists true. destruct w; discriminate.
  - destruct w as [|g1 ts|g1 ts torn ws| |]; try discriminate.
    + exists false. destruct c; discriminate.
    + exists false. rewrite andb_false_r. discriminate.
    + exists false. destruct ts as [|[b i] ts]; [discriminate|]. destruct torn; discriminate.
  - destruct RO.
  - destruct RO.
Qed.
Lemma step_le s who : (moves_left (step k s who) <= moves_left s)%nat.
Proof using.
  unfold step. destruct who; [destruct (step_reader k s) eqn:E|destruct (step_writer k s) eqn:E]; auto.
  - apply reader_decreases in E. lia.
  - apply writer_decreases in E. lia.
Qed.
Lemma step_lt s who : can_move s who -> (moves_left (step k s who) < moves_left s)%nat.
Proof using.
  unfold step, can_move. destruct who; [destruct (step_reader k s) eqn:E|destruct (step_writer k s) eqn:E]; try congruence; intros _.
  - apply reader_decreases in E. lia.
  - apply writer_decreases in E. lia.
Qed.
Lemma step_stuck s who : ~ can_move s who -> step k s who = s.
Proof using. unfold step, can_move. destruct who; [destruct (step_reader k s)|destruct (step_writer k s)]; intros H; auto; exfalso; apply H; discriminate. Qed.

Definition prefix_of (f : nat -> bool) (n : nat) : list bool := map f (seq 0 n).
Lemma run_prefix_S s f n : run k s (prefix_of f (Datatypes.S n)) = step k (run k s (prefix_of f n)) (f n).
Proof using. unfold prefix_of, run. rewrite seq_S, map_app, fold_left_app. reflexivity. Qed.

Lemma fair_ends m0 ops0 f s : independent (k_src k) (k_dst k) ops0 -> inv k m0 ops0 s -> fair f -> exists n, copy_result (run k s (prefix_of f n)) <> None.
Proof using.
  intros Hind Hs Hf.
  assert (Hinv : forall n, inv k m0 ops0 (run k s (prefix_of f n))) by (intros n; apply run_inv; auto).
  assert (G : forall q n, (moves_left (run k s (prefix_of f n)) <= q)%nat -> exists n', copy_result (run k s (prefix_of f n')) <> None).
  { induction q as [q IH] using lt_wf_ind. intros n Hq.
    destruct (copy_result (run k s (prefix_of f n))) eqn:Er; [exists n; congruence|].
    destruct (progress m0 ops0 _ (Hinv n) Er) as (who & Hm). destruct (Hf who n) as (t & Ht & Ew).
    (* up to t, either the supply went down or nothing changed *)
    assert (D : forall d, (moves_left (run k s (prefix_of f (n + d))) < moves_left (run k s (prefix_of f n)))%nat \/
                          run k s (prefix_of f (n + d)) = run k s (prefix_of f n)).
    { induction d as [|d IHd]; [right; f_equal; f_equal; lia|]. replace (n + Datatypes.S d)%nat with (Datatypes.S (n + d)) by lia. rewrite run_prefix_S.
      pose proof (step_le (run k s (prefix_of f (n + d))) (f (n + d)%nat)) as Hle. destruct IHd as [Hlt|Heq]; [left; lia|]. rewrite Heq in *.
      unfold step, can_move in *. destruct (f (n + d)%nat); [destruct (step_reader k (run k s (prefix_of f n))) eqn:E|destruct (step_writer k (run k s (prefix_of f n))) eqn:E]; auto; left.
      - apply reader_decreases in E. exact E.
      - apply writer_decreases in E. exact E. }
    destruct (D (t - n)%nat) as [Hlt|Heq]; replace (n + (t - n))%nat with t in * by lia.
    - apply (IH (moves_left (run k s (prefix_of f t)))) with (n := t); lia.
    - apply (IH (moves_left (run k s (prefix_of f (Datatypes.S t))))) with (n := Datatypes.S t); [|lia].
      rewrite run_prefix_S, Heq, Ew. pose proof (step_lt _ _ Hm). lia. }
  apply (G (moves_left (run k s (prefix_of f 0))) 0%nat). lia.
Qed.
End Live.
