From Verif Require Import Base Codec_Model Pack_Proofs Io_Model Io_Spec Io_Proofs.

Lemma skipn_skipn {A} x y (l : list A) : skipn x (skipn y l) = skipn (x + y) l.
Proof.
  revert l; induction y; intros l; [rewrite Nat.add_0_r; reflexivity|].
  rewrite <- plus_n_Sm. destruct l; [rewrite !skipn_nil; reflexivity|]. apply IHy.
Qed.

Lemma Forall2_length {A B} (P : A -> B -> Prop) l1 l2 : Forall2 P l1 l2 -> length l1 = length l2.
Proof. induction 1; cbn; auto. Qed.

Lemma nth_error_firstn {A} n (l : list A) i : nth_error (firstn n l) i = if Nat.ltb i n then nth_error l i else None.
Proof.
  revert l i; induction n; intros l i; cbn [firstn].
  - destruct i; reflexivity.
  - destruct l as [|a l].
    + destruct (Nat.ltb i (S n)), i; reflexivity.
    + destruct i as [|i]; [reflexivity|]. cbn [nth_error]. rewrite IHn. reflexivity.
Qed.

Lemma firstn_exact {A} n (l r : list A) : length l = n -> firstn n (l ++ r) = l.
Proof. intros <-. rewrite firstn_app, Nat.sub_diag, firstn_all. apply app_nil_r. Qed.
Lemma skipn_exact {A} n (l r : list A) : length l = n -> skipn n (l ++ r) = r.
Proof. intros <-. rewrite skipn_app, Nat.sub_diag, skipn_all. reflexivity. Qed.

(** ** read_blocks *)
Definition val_ok (d : disk) (r : option (list N)) (b : N) : Prop := r = None \/ r = Some (d b).

Lemma nseq_Forall2_app {A} (P : A -> N -> Prop) l1 l2 first n m :
  length l1 = n -> Forall2 P l1 (nseq first n) -> Forall2 P l2 (nseq (first + N.of_nat n) m) ->
  Forall2 P (l1 ++ l2) (nseq first (n + m)).
Proof. intros H A1 A2. rewrite nseq_app. apply Forall2_app; auto. Qed.

Lemma read_blocks_vals dev d : forall fuel c first nb rs c',
  read_blocks dev d fuel c first nb = Ok (rs, c') ->
  length rs = nb /\ Forall2 (val_ok d) rs (nseq first nb) /\
  ((forall c first nb, dev c first nb <> RdErr) -> rs = map (fun b => Some (d b)) (nseq first nb)).
Proof.
  induction fuel as [|f IH]; intros c first nb rs c' H; destruct nb as [|nb]; cbn [read_blocks] in H;
    try discriminate; try (injection H as <- <-; repeat split; constructor).
  destruct (dev c first (S nb)) as [|n] eqn:E.
  - destruct (read_blocks dev d f (S c) (first + 1) nb) as [[r c1]| |] eqn:E1; cbn [bind] in H; try discriminate.
    injection H as <- <-. apply IH in E1 as (A & B & C). cbn [length nseq]. split; [lia|]. split.
    + constructor; [left; reflexivity|exact B].
    + intros G. exfalso. eapply G; eauto.
  - destruct (N.ltb_spec (4096 * N.of_nat (S nb)) n) as [|Hn]; [discriminate|].
    destruct (N.eqb_spec (n mod 4096) 0) as [Hm|]; cbn [negb] in H; [|discriminate].
    set (k := n / 4096) in *.
    assert (Hk : n = 4096 * k) by (subst k; dlia). clearbody k. subst n.
    assert (Hk : (N.to_nat k <= S nb)%nat) by lia.
    destruct (read_blocks dev d f (S c) (first + k) (S nb - N.to_nat k)) as [[r c1]| |] eqn:E1; cbn [bind] in H; try discriminate.
    injection H as <- <-. apply IH in E1 as (A & B & C).
    replace (S nb) with (N.to_nat k + (S nb - N.to_nat k))%nat at 1 2 3 by lia.
    split; [|split].
    + rewrite app_length, map_length, nseq_length. lia.
    + apply nseq_Forall2_app.
      * rewrite map_length, nseq_length. reflexivity.
      * clear. induction (nseq first (N.to_nat k)); constructor; auto. right; reflexivity.
      * rewrite N2Nat.id. exact B.
    + intros G. rewrite (C G), nseq_app, map_app, N2Nat.id. reflexivity.
Qed.

Lemma read_blocks_total dev d : read_dev_ok dev -> forall fuel c first nb, (nb <= fuel)%nat ->
  exists rs c', read_blocks dev d fuel c first nb = Ok (rs, c').
Proof.
  intros D. induction fuel as [|f IH]; intros c first nb Hf; destruct nb as [|nb]; cbn [read_blocks];
    try (eexists _, _; reflexivity); [lia|].
  specialize (D c first (S nb)). destruct (dev c first (S nb)) as [|n].
  - destruct (IH (S c) (first + 1) nb) as (r & c' & ->); [lia|]. eexists _, _; reflexivity.
  - destruct D as (k & -> & Hk); [lia|].
    destruct (N.ltb_spec (4096 * N.of_nat (S nb)) (4096 * k)); [lia|].
    replace ((4096 * k) mod 4096) with 0 by dlia. replace (4096 * k / 4096) with k by dlia. cbn [N.eqb negb].
    destruct (IH (S c) (first + k) (S nb - N.to_nat k)%nat) as (r & c' & E); [lia|].
    rewrite E. eexists _, _; reflexivity.
Qed.

(** ** Buffers *)
Fixpoint bufs_of (batch : list run_op) (issued : nat) : list (option nat) :=
  match batch with
  | [] => []
  | Run b e :: r => map Some (seq issued (N.to_nat (e - b))) ++ bufs_of r (issued + N.to_nat (e - b))
  | Gap b e :: r => repeat None (N.to_nat (e - b)) ++ bufs_of r issued
  end.

Lemma run_blocks_len_cons b e r : length (run_blocks (Run b e :: r)) = (N.to_nat (e - b) + length (run_blocks r))%nat.
Proof. rewrite run_blocks_cons, app_length, range_length. reflexivity. Qed.

Lemma run_bufs_spec locs : forall bs issued rest, skipn issued locs = bs ++ rest ->
  run_bufs locs bs issued = Ok (map Some (seq issued (length bs)), (issued + length bs)%nat).
Proof.
  induction bs as [|b r IH]; intros issued rest H; cbn [run_bufs length seq map].
  - rewrite Nat.add_0_r. reflexivity.
  - assert (Hn : nth_error locs issued = Some b).
    { rewrite <- (firstn_skipn issued locs), H. rewrite nth_error_app2; rewrite firstn_length.
      - replace (issued - _)%nat with O; [reflexivity|].
        assert (length (skipn issued locs) = S (length (r ++ rest))) by (rewrite H; reflexivity).
        rewrite skipn_length in H0. lia.
      - lia. }
    rewrite Hn, N.eqb_refl. rewrite (IH (S issued) rest).
    + cbn [bind]. do 2 f_equal. lia.
    + replace (S issued) with (1 + issued)%nat by lia. rewrite <- skipn_skipn, H. reflexivity.
Qed.

Lemma map_repeat_None {A} (l : list A) : map (fun _ => @None nat) l = repeat None (length l).
Proof. induction l; cbn; congruence. Qed.

Lemma build_bufs_spec locs : forall batch issued rest, skipn issued locs = run_blocks batch ++ rest ->
  build_bufs locs batch issued = Ok (bufs_of batch issued, (issued + length (run_blocks batch))%nat).
Proof.
  induction batch as [|o r IH]; intros issued rest H; cbn [build_bufs bufs_of].
  - cbn. rewrite Nat.add_0_r. reflexivity.
  - destruct o as [b e|b e].
    + rewrite run_blocks_cons, <- app_assoc in H.
      rewrite (run_bufs_spec locs _ issued _ H). cbn [bind]. rewrite range_length.
      rewrite (IH (issued + N.to_nat (e - b))%nat rest).
      * cbn [bind]. rewrite run_blocks_len_cons. do 2 f_equal. lia.
      * rewrite Nat.add_comm, <- skipn_skipn, H, skipn_app, range_length, Nat.sub_diag.
        rewrite skipn_all2 by (rewrite range_length; lia). reflexivity.
    + rewrite (IH issued rest H). cbn [bind]. rewrite map_repeat_None, range_length. reflexivity.
Qed.

Lemma bufs_of_length batch : forall i, length (bufs_of batch i) = N.to_nat (ops_blocks batch).
Proof.
  induction batch as [|[b e|b e] r IH]; intros i; cbn [bufs_of]; auto; rewrite app_length, IH, ops_blocks_cons;
    cbn [op_begin op_end]; [rewrite map_length, seq_length|rewrite repeat_length]; lia.
Qed.

(** Each buffer lies at its block's place in the iovec. *)
Definition buf_at (locs : list N) (o : option nat) (b : N) : Prop :=
  match o with Some i => nth_error locs i = Some b | None => True end.

Lemma nth_error_skipn {A} (l : list A) i j : nth_error (skipn i l) j = nth_error l (i + j).
Proof. revert l; induction i; intros l; [reflexivity|]. destruct l; cbn; auto. destruct j; auto. Qed.

Lemma seq_bufs_at locs : forall bs issued rest, skipn issued locs = bs ++ rest ->
  Forall2 (buf_at locs) (map Some (seq issued (length bs))) bs.
Proof.
  induction bs as [|b r IH]; intros issued rest H; cbn [length seq map]; constructor.
  - cbn [buf_at]. rewrite <- (Nat.add_0_r issued), <- nth_error_skipn, H. reflexivity.
  - apply (IH (S issued) rest). replace (S issued) with (1 + issued)%nat by lia. rewrite <- skipn_skipn, H. reflexivity.
Qed.

Lemma bufs_of_at locs : forall batch issued rest, skipn issued locs = run_blocks batch ++ rest ->
  Forall2 (buf_at locs) (bufs_of batch issued) (all_blocks batch).
Proof.
  induction batch as [|o r IH]; intros issued rest H; cbn [bufs_of all_blocks flat_map]; [constructor|].
  fold (all_blocks r). destruct o as [b e|b e]; cbn [op_begin op_end]; apply Forall2_app.
  - rewrite run_blocks_cons, <- app_assoc in H. rewrite <- (range_length b e). apply (seq_bufs_at _ _ _ _ H).
  - rewrite run_blocks_cons, <- app_assoc in H.
    apply (IH _ rest). rewrite Nat.add_comm, <- skipn_skipn, H, skipn_app, range_length, Nat.sub_diag.
    rewrite skipn_all2 by (rewrite range_length; lia). reflexivity.
  - rewrite <- (range_length b e). clear. induction (range b e); cbn; constructor; cbn; auto.
  - apply (IH _ rest). exact H.
Qed.

(** ** fill *)
Lemma fill_vals d locs : forall bufs rs bs m,
  Forall2 (buf_at locs) bufs bs -> Forall2 (val_ok d) rs bs ->
  (forall i x, m i = Some x -> exists b, nth_error locs i = Some b /\ x = d b) ->
  forall i x, fill m bufs rs i = Some x -> exists b, nth_error locs i = Some b /\ x = d b.
Proof.
  induction bufs as [|u bufs IH]; intros rs bs m H1 H2 Hm; destruct rs as [|v rs]; cbn [fill];
    try (destruct u; apply Hm); try apply Hm.
  inversion H1; subst. inversion H2; subst.
  destruct u as [i|], v as [x|]; try (eapply IH; eauto).
  intros j w. destruct (Nat.eqb_spec j i); [|apply Hm]. intros [= <-]. subst j.
  match goal with H : val_ok _ (Some x) _ |- _ => destruct H as [|H]; [discriminate|injection H as ->] end.
  eexists. split; [|reflexivity]. assumption.
Qed.

Lemma fill_keeps : forall bufs rs m i, m i <> None -> fill m bufs rs i <> None.
Proof.
  induction bufs as [|u bufs IH]; intros rs m i H; destruct rs as [|v rs]; cbn [fill]; auto; destruct u; auto.
  destruct v; auto. apply IH. destruct (Nat.eqb i n); congruence.
Qed.

Lemma fill_sets : forall bufs rs m j i x,
  nth_error bufs j = Some (Some i) -> nth_error rs j = Some (Some x) -> fill m bufs rs i <> None.
Proof.
  induction bufs as [|u bufs IH]; intros rs m j i x H1 H2; destruct j as [|j]; cbn in H1; try discriminate;
    destruct rs as [|v rs]; cbn in H2; try discriminate; cbn [fill].
  - injection H1 as ->. injection H2 as ->. apply fill_keeps. rewrite Nat.eqb_refl. discriminate.
  - destruct u, v; eapply IH; eauto.
Qed.

(** ** select *)
Definition is_some {A} (o : option A) : bool := match o with Some _ => true | None => false end.

Lemma select_run_spec d locs m oks : (forall i x, m i = Some x -> exists b, nth_error locs i = Some b /\ x = d b) ->
  forall bs bi ri rest, skipn bi locs = bs ++ rest -> (ri + length bs <= length oks)%nat ->
  (forall j, (j < length bs)%nat -> nth_error oks (ri + j) = Some true -> m (bi + j)%nat <> None) ->
  exists x, select_run locs m oks bs bi ri = Ok (x, (bi + length bs)%nat, (ri + length bs)%nat) /\
    Forall2 (val_ok d) x bs /\
    (Forall (fun o => o = true) oks -> x = map (fun b => Some (d b)) bs).
Proof.
  intros Hm. induction bs as [|b r IH]; intros bi ri rest H Hl Hs; cbn [select_run length].
  - rewrite !Nat.add_0_r. eexists. split; [reflexivity|]. split; auto.
  - destruct (nth_error oks ri) as [ok|] eqn:Eo.
    2:{ apply nth_error_None in Eo. cbn in Hl. lia. }
    assert (Hb : nth_error locs bi = Some b).
    { rewrite <- (Nat.add_0_r bi), <- nth_error_skipn, H. reflexivity. }
    destruct (IH (S bi) (S ri) rest) as (x & E1 & E2 & E3).
    { replace (S bi) with (1 + bi)%nat by lia. rewrite <- skipn_skipn, H. reflexivity. }
    { cbn in Hl. lia. }
    { intros j Hj. specialize (Hs (S j)). rewrite <- !plus_n_Sm in Hs. cbn [length] in Hs. intros. apply Hs; [lia|auto]. }
    rewrite E1. cbn [bind]. destruct ok.
    + rewrite Hb. specialize (Hs O). rewrite !Nat.add_0_r in Hs.
      destruct (m bi) as [y|] eqn:Ey; [|exfalso; apply Hs; auto; cbn; lia].
      rewrite N.eqb_refl. cbn [bind]. eexists. split; [do 2 f_equal; [f_equal|]; lia|].
      destruct (Hm _ _ Ey) as (b' & Hb' & ->). assert (b' = b) by congruence. subst b'.
      split; [constructor; [right; reflexivity|auto]|]. intros F. cbn. f_equal. auto.
    + eexists. split; [do 2 f_equal; [f_equal|]; lia|]. split; [constructor; [left; reflexivity|auto]|].
      intros F. rewrite Forall_forall in F. apply nth_error_In in Eo. specialize (F _ Eo). discriminate.
Qed.

Lemma select_spec d locs m oks : (forall i x, m i = Some x -> exists b, nth_error locs i = Some b /\ x = d b) ->
  forall batch bi ri rest, skipn bi locs = run_blocks batch ++ rest ->
  (ri + N.to_nat (ops_blocks batch) <= length oks)%nat ->
  (forall j i, nth_error (bufs_of batch bi) j = Some (Some i) -> nth_error oks (ri + j) = Some true -> m i <> None) ->
  exists x, select locs m oks batch bi ri = Ok (x, (bi + length (run_blocks batch))%nat) /\
    Forall2 (val_ok d) x (run_blocks batch) /\
    (Forall (fun o => o = true) oks -> x = map (fun b => Some (d b)) (run_blocks batch)).
Proof.
  intros Hm. induction batch as [|o r IH]; intros bi ri rest H Hl Hs; cbn [select].
  - cbn. rewrite Nat.add_0_r. eexists. split; [reflexivity|]. split; auto.
  - rewrite ops_blocks_cons in Hl. destruct o as [b e|b e]; cbn [op_begin op_end] in Hl.
    + pose proof H as H'. rewrite run_blocks_cons, <- app_assoc in H'.
      cbn [bufs_of] in Hs.
      destruct (select_run_spec d locs m oks Hm (range b e) bi ri _ H') as (x & E1 & E2 & E3).
      { rewrite range_length. lia. }
      { rewrite range_length. intros j Hj. apply Hs. rewrite nth_error_app1 by (rewrite map_length, seq_length; auto).
        rewrite nth_error_map. rewrite (nth_error_nth' _ O) by (rewrite seq_length; auto).
        rewrite seq_nth by auto. reflexivity. }
      rewrite E1. cbn [bind]. rewrite range_length in *.
      destruct (IH (bi + N.to_nat (e - b))%nat (ri + N.to_nat (e - b))%nat rest) as (y & F1 & F2 & F3).
      { rewrite Nat.add_comm, <- skipn_skipn, H', skipn_app, range_length, Nat.sub_diag.
        rewrite skipn_all2 by (rewrite range_length; lia). reflexivity. }
      { lia. }
      { intros j i Hj Ho. apply (Hs (N.to_nat (e - b) + j)%nat).
        - rewrite nth_error_app2; rewrite map_length, seq_length; [|lia].
          replace (_ + j - _)%nat with j by lia. exact Hj.
        - rewrite Nat.add_assoc. exact Ho. }
      rewrite F1. cbn [bind]. eexists. split; [rewrite run_blocks_len_cons, Nat.add_assoc; reflexivity|].
      rewrite run_blocks_cons, map_app. split; [apply Forall2_app; auto|].
      intros F. rewrite (E3 F), (F3 F). reflexivity.
    + destruct (IH bi (ri + N.to_nat (e - b))%nat rest) as (y & F1 & F2 & F3).
      { exact H. }
      { lia. }
      { cbn [bufs_of] in Hs. intros j i Hj Ho. apply (Hs (N.to_nat (e - b) + j)%nat).
        - rewrite nth_error_app2; rewrite repeat_length; [|lia].
          replace (_ + j - _)%nat with j by lia. exact Hj.
        - rewrite Nat.add_assoc. exact Ho. }
      exists y. auto.
Qed.

Lemma read_batches_spec dev d fuel locs max : read_dev_ok dev -> (N.to_nat max <= fuel)%nat ->
  forall batches c i, Forall (good_batch max) batches ->
  skipn i locs = run_blocks (concat batches) ->
  exists rs, read_batches dev fuel d locs batches c i i = Ok rs /\
    Forall2 (val_ok d) rs (run_blocks (concat batches)) /\
    ((forall c first nb, dev c first nb <> RdErr) -> rs = map (fun b => Some (d b)) (run_blocks (concat batches))).
Proof.
  intros D Hf. induction batches as [|batch r IH]; intros c i G H; cbn [read_batches].
  - eexists. split; [reflexivity|]. cbn. split; auto.
  - inversion G as [|? ? Gb Gr]; subst. cbn [concat] in H |- *. rewrite run_blocks_app in H |- *.
    destruct batch as [|o batch]; [contradiction|]. destruct Gb as (Ch & Fo & L).
    rewrite (build_bufs_spec locs (o :: batch) i _ H). cbn [bind].
    pose proof (bufs_of_length (o :: batch) i) as Hlen.
    pose proof (bufs_of_at locs (o :: batch) i _ H) as Hat.
    rewrite (all_blocks_chained _ _ Ch Fo), <- Hlen in Hat.
    set (bufs := bufs_of (o :: batch) i) in *.
    destruct bufs as [|u bufs'] eqn:Eb.
    { exfalso. cbn [length] in Hlen. lia. }
    rewrite <- Eb in *.
    destruct (read_blocks_total dev d D fuel c (op_begin o) (length bufs)) as (rs & c' & E); [lia|].
    rewrite E. cbn [bind]. apply read_blocks_vals in E as (R1 & R2 & R3).
    set (m := fill (fun _ => None) bufs rs).
    destruct (select_spec d locs m (map is_some rs)) with (batch := o :: batch) (bi := i) (ri := O) (rest := run_blocks (concat r))
      as (x & S1 & S2 & S3).
    { subst m. apply (fill_vals d locs bufs rs _ _ Hat R2). discriminate. }
    { exact H. }
    { rewrite map_length. lia. }
    { intros j k Hj Ho. fold bufs in Hj. cbn [Nat.add] in Ho. rewrite nth_error_map in Ho.
      destruct (nth_error rs j) as [[v|]|] eqn:Er; try discriminate.
      subst m. eapply fill_sets; eauto. }
    unfold is_some in S1. rewrite S1. cbn [bind].
    destruct (IH c' (i + length (run_blocks (o :: batch)))%nat Gr) as (y & T1 & T2 & T3).
    { rewrite Nat.add_comm, <- skipn_skipn, H, skipn_app, Nat.sub_diag, skipn_all. reflexivity. }
    rewrite T1. cbn [bind]. eexists. split; [reflexivity|]. split; [apply Forall2_app; auto|].
    intros Hd. rewrite map_app, (T3 Hd), S3; auto. rewrite (R3 Hd). clear.
    induction (nseq (op_begin o) (length bufs)); cbn; constructor; auto.
Qed.

Lemma read_many_spec dev d fuel blocks : read_dev_ok dev -> (N.to_nat 1024 <= fuel)%nat ->
  exists rs, read_many dev fuel d blocks = Ok rs /\ Forall2 (val_ok d) rs blocks /\
    ((forall c first nb, dev c first nb <> RdErr) -> rs = map (fun b => Some (d b)) blocks).
Proof.
  intros D Hf. unfold read_many. destruct blocks as [|b0 r0] eqn:Eb; [eexists; split; [reflexivity|]; split; auto|].
  rewrite <- Eb. clear Eb. clear b0 r0.
  destruct (generate_runs_spec blocks 8 1024) as (bt & -> & G1 & G2); [lia|]. cbn [bind].
  destruct (read_batches_spec dev d fuel blocks 1024 D Hf bt 0%nat 0%nat G2) as (rs & -> & R2 & R3); [auto|].
  cbn [bind]. rewrite G1 in *. pose proof (Forall2_length _ _ _ R2) as E. rewrite E, Nat.eqb_refl. eauto.
Qed.

(** ** Writing *)
Lemma put_blocks_out : forall bufs d first x, x < first \/ first + nlen bufs <= x ->
  put_blocks d first bufs x = d x.
Proof.
  induction bufs as [|b r IH]; intros d first x H; cbn [put_blocks]; auto.
  unfold nlen in *. cbn [length] in H. rewrite IH by lia. apply upd_other. lia.
Qed.
Lemma put_blocks_in : forall bufs d first j x, nth_error bufs j = Some x ->
  put_blocks d first bufs (first + N.of_nat j) = x.
Proof.
  induction bufs as [|b r IH]; intros d first j x H; destruct j as [|j]; cbn in H; try discriminate; cbn [put_blocks].
  - injection H as ->. rewrite put_blocks_out by lia. rewrite N.add_0_r. apply upd_same.
  - replace (first + N.of_nat (S j)) with (first + 1 + N.of_nat j) by lia. auto.
Qed.

Lemma write_blocks_spec dev : forall fuel d c first bufs d' r c',
  write_blocks dev d fuel c first bufs = Ok (d', r, c') ->
  length r = length bufs /\
  (forall x, x < first \/ first + nlen bufs <= x -> d' x = d x) /\
  (forall j x, nth_error r j = Some true -> nth_error bufs j = Some x -> d' (first + N.of_nat j) = x) /\
  ((forall c first nb g, dev c first nb <> WrErr g) -> Forall (fun o => o = true) r).
Proof.
  induction fuel as [|f IH]; intros d c first bufs d' r c' H; destruct bufs as [|b0 bufs]; cbn [write_blocks] in H;
    try discriminate; try (injection H as <- <- <-; conj; auto; intros [|j]; discriminate).
  destruct (dev c first (length (b0 :: bufs))) as [g|n] eqn:E.
  - destruct (write_blocks dev _ f (S c) (first + 1) bufs) as [[[d1 r1] c1]| |] eqn:E1; cbn [bind] in H; try discriminate.
    injection H as <- <- <-. apply IH in E1 as (A & B & C & D). unfold nlen in *. cbn [length] in *. conj.
    + lia.
    + intros x Hx. rewrite B by lia. rewrite put_blocks_out; auto.
      unfold nlen. rewrite map_length, nseq_length. lia.
    + intros [|j] x Hj Hx; cbn in Hj, Hx; [discriminate|].
      replace (first + N.of_nat (S j)) with (first + 1 + N.of_nat j) by lia. eauto.
    + intros G. exfalso. eapply G; eauto.
  - destruct (N.ltb_spec (4096 * nlen (b0 :: bufs)) n) as [|Hn]; [discriminate|].
    destruct (N.eqb_spec (n mod 4096) 0) as [Hm|]; cbn [negb] in H; [|discriminate].
    set (k := n / 4096) in *.
    assert (Hk : n = 4096 * k) by (subst k; dlia). clearbody k. subst n.
    assert (Hk : k <= nlen (b0 :: bufs)) by lia. clear Hn Hm. set (bs := b0 :: bufs) in *. clearbody bs.
    destruct (write_blocks dev _ f (S c) (first + k) _) as [[[d1 r1] c1]| |] eqn:E1; cbn [bind] in H; try discriminate.
    injection H as <- <- <-. apply IH in E1 as (A & B & C & D). unfold nlen in *. rewrite skipn_length in *.
    conj.
    + rewrite app_length, repeat_length. lia.
    + intros x Hx. rewrite B by lia. rewrite put_blocks_out; auto. unfold nlen. rewrite firstn_length. lia.
    + intros j x Hj Hx. destruct (Nat.lt_ge_cases j (N.to_nat k)).
      * rewrite B by lia. apply put_blocks_in. rewrite nth_error_firstn. 
        destruct (Nat.ltb_spec j (N.to_nat k)); [auto|lia].
      * rewrite nth_error_app2 in Hj by (rewrite repeat_length; auto). rewrite repeat_length in Hj.
        replace (first + N.of_nat j) with (first + k + N.of_nat (j - N.to_nat k)) by lia.
        apply C; auto. rewrite nth_error_skipn. replace (_ + _)%nat with j by lia. auto.
    + intros G. apply Forall_app. split; auto. clear. induction (N.to_nat k); cbn; constructor; auto.
Qed.

Lemma write_blocks_total dev : write_dev_ok dev -> forall fuel d c first bufs, (length bufs <= fuel)%nat ->
  exists x, write_blocks dev d fuel c first bufs = Ok x.
Proof.
  intros D. induction fuel as [|f IH]; intros d c first bufs Hf; destruct bufs as [|b0 bufs]; cbn [write_blocks];
    try (eexists; reflexivity); [cbn in Hf; lia|].
  specialize (D c first (length (b0 :: bufs))). destruct (dev c first (length (b0 :: bufs))) as [g|n].
  - destruct (IH (put_blocks d first (map g (nseq first (length (b0 :: bufs))))) (S c) (first + 1) bufs)
      as [[[d1 r1] c1] E]; [cbn in Hf; lia|]. rewrite E. eexists; reflexivity.
  - destruct D as (k & -> & Hk); [cbn; lia|]. fold (nlen (b0 :: bufs)) in *.
    destruct (N.ltb_spec (4096 * nlen (b0 :: bufs)) (4096 * k)); [lia|].
    replace ((4096 * k) mod 4096) with 0 by dlia. replace (4096 * k / 4096) with k by dlia. cbn [N.eqb negb].
    destruct (IH (put_blocks d first (firstn (N.to_nat k) (b0 :: bufs))) (S c) (first + k) (skipn (N.to_nat k) (b0 :: bufs)))
      as [[[d1 r1] c1] E]; [rewrite skipn_length; lia|]. rewrite E. eexists; reflexivity.
Qed.

Fixpoint runs_cover (max : nat) (runs : list (N * nat)) (locs : list N) : Prop :=
  match runs with
  | [] => locs = []
  | (s, n) :: r => (1 <= n <= max)%nat /\ firstn n locs = nseq s n /\ runs_cover max r (skipn n locs)
  end.

Lemma nseq_snoc s n : nseq s (S n) = nseq s n ++ [s + N.of_nat n].
Proof. replace (S n) with (n + 1)%nat by lia. rewrite nseq_app. reflexivity. Qed.

Lemma nogap_loop_spec max : (1 <= max)%nat -> forall locs begin len, (1 <= len <= max)%nat ->
  runs_cover max (nogap_loop max begin len locs) (nseq begin len ++ locs).
Proof.
  intros Hm. induction locs as [|b r IH]; intros begin len Hl; cbn [nogap_loop].
  - cbn [runs_cover]. split; [auto|].
    rewrite firstn_exact, skipn_exact by apply nseq_length. auto.
  - assert (E : (runs_cover max ((begin, len) :: nogap_loop max b 1 r) (nseq begin len ++ b :: r))).
    { cbn [runs_cover]. split; [auto|].
      rewrite firstn_exact, skipn_exact by apply nseq_length. split; auto.
      apply (IH b 1%nat). lia. }
    destruct (N.eqb_spec b (begin + N.of_nat len)) as [->|]; cbn [andb]; auto.
    destruct (Nat.ltb_spec len max); auto.
    replace (nseq begin len ++ begin + N.of_nat len :: r) with (nseq begin (S len) ++ r).
    + apply IH. lia.
    + rewrite nseq_snoc, <- app_assoc. reflexivity.
Qed.

Lemma find_runs_nogap_spec max locs : (1 <= max)%nat -> runs_cover max (find_runs_nogap locs max) locs.
Proof.
  intros Hm. destruct locs as [|b r]; [reflexivity|]. cbn [find_runs_nogap].
  apply (nogap_loop_spec max Hm r b 1%nat). lia.
Qed.

Definition written (blocks : list block) (oks : list bool) (d d' : disk) : Prop :=
  length oks = length blocks /\
  (forall x, ~ In x (map b_loc blocks) -> d' x = d x) /\
  (forall i b, nth_error blocks i = Some b -> nth_error oks i = Some true ->
     (forall j b', (i < j)%nat -> nth_error blocks j = Some b' -> b_loc b' <> b_loc b) ->
     d' (b_loc b) = b_data b).

Lemma write_batches_spec dev fuel max : (1 <= max <= fuel)%nat -> write_dev_ok dev ->
  forall runs blocks d c, runs_cover max runs (map b_loc blocks) ->
  exists d' oks, write_batches dev fuel d runs blocks c = Ok (d', oks) /\ written blocks oks d d' /\ ((forall c first nb g, dev c first nb <> WrErr g) -> Forall (fun o => o = true) oks).
Proof.
  intros Hm D. induction runs as [|[s n] runs IH]; intros blocks d c R; cbn [runs_cover] in R; cbn [write_batches].
  - apply map_eq_nil in R. subst. eexists _, _. split; [reflexivity|]. split; auto. split; auto. split; auto.
    intros [|i] b; discriminate.
  - destruct R as (Hn & R1 & R2). destruct (Nat.eqb_spec n 0); [lia|].
    rewrite firstn_map in R1. rewrite skipn_map in R2.
    assert (Hl : length (firstn n blocks) = n).
    { rewrite <- (map_length b_loc), R1, nseq_length. reflexivity. }
    destruct (write_blocks_total dev D fuel d c s (map b_data (firstn n blocks))) as [[[d1 r1] c1] E].
    { rewrite map_length. lia. }
    rewrite E. cbn [bind]. apply write_blocks_spec in E as (A & B & C & G).
    unfold nlen in B. rewrite map_length, Hl in *.
    destruct (IH (skipn n blocks) d1 c1 R2) as (d' & oks & E & (W1 & W2 & W3) & W4). rewrite E. cbn [bind].
    eexists _, _. split; [reflexivity|].
    assert (Ls : forall x, In x (map b_loc (firstn n blocks)) <-> s <= x < s + N.of_nat n).
    { intros x. rewrite R1. apply in_nseq. }
    split; [|intros; apply Forall_app; auto].
    pose proof (firstn_skipn n blocks) as FS.
    assert (Hb : length blocks = (n + length (skipn n blocks))%nat).
    { rewrite <- FS at 1. rewrite app_length. lia. }
    split; [rewrite app_length; lia|]. split.
    + intros x Hx. rewrite <- FS, map_app, in_app_iff, Ls in Hx.
      rewrite W2 by tauto. apply B. lia.
    + intros i b Hi Ho Hlast. destruct (Nat.lt_ge_cases i n) as [Hlt|Hge].
      * rewrite nth_error_app1 in Ho by lia.
        assert (Hi' : nth_error (firstn n blocks) i = Some b).
        { rewrite nth_error_firstn. destruct (Nat.ltb_spec i n); [auto|lia]. }
        assert (Hloc : b_loc b = s + N.of_nat i).
        { assert (E1 : nth_error (nseq s n) i = Some (b_loc b)).
          { rewrite <- R1, nth_error_map, Hi'. reflexivity. }
          clear -E1. revert s i E1. induction n; intros s i E1; destruct i; cbn in E1; try discriminate.
          - injection E1 as <-. lia.
          - apply IHn in E1. lia. }
        rewrite W2.
        -- rewrite Hloc. apply C; auto. rewrite nth_error_map, Hi'. reflexivity.
        -- intros Hin. apply in_map_iff in Hin as (b' & Eb & Hin). apply In_nth_error in Hin as [j Hj].
           rewrite nth_error_skipn in Hj. apply (Hlast (n + j)%nat b'); auto. lia.
      * rewrite nth_error_app2 in Ho by lia. rewrite A in Ho.
        apply (W3 (i - n)%nat); auto.
        -- rewrite nth_error_skipn. replace (n + (i - n))%nat with i by lia. auto.
        -- intros j b' Hj Hb'. rewrite nth_error_skipn in Hb'. apply (Hlast (n + j)%nat); auto. lia.
Qed.

Lemma write_many_spec dev fuel blocks d : write_dev_ok dev -> (N.to_nat 1024 <= fuel)%nat ->
  exists d' oks, write_many dev fuel d blocks = Ok (d', oks) /\ written blocks oks d d' /\ ((forall c first nb g, dev c first nb <> WrErr g) -> Forall (fun o => o = true) oks).
Proof.
  intros D Hf. apply (write_batches_spec dev fuel (N.to_nat 1024)); auto; [lia|].
  apply find_runs_nogap_spec. lia.
Qed.
