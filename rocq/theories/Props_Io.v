(** C39, C40: batched I/O and the write batcher. *)
From Verif Require Import Base Csum_Model Codec_Model SpaceMap_Model SpaceMap_Spec SpaceMap_Proofs
  Io_Model Io_Spec Io_Proofs IoMany_Proofs Batcher_Model Batcher_Spec Batcher_Proofs.

(** C39: the requested blocks are split into I/Os whose runs, in order, are
    exactly the requested blocks, whatever their order and repetition; each I/O
    covers consecutive blocks, at least one and at most [max]. *)
Theorem C39_batches : forall blocks thr max, 1 <= max ->
  exists batches, generate_runs blocks thr max = Ok batches /\
    run_blocks (concat batches) = blocks /\ Forall (one_io max) batches.
Proof.
  intros blocks thr max Hm. destruct (generate_runs_spec blocks thr max Hm) as (b & H1 & H2 & H3).
  exists b. conj; auto. eapply Forall_impl; [|exact H3]. intros. apply good_batch_one_io. assumption.
Qed.

(** C39: slot i of the result is the contents of block i of the request, or an error;
    with a device that does not fail there are no errors.  For every device that
    moves whole blocks. *)
Theorem C39_read_many : forall dev d fuel blocks, read_dev_ok dev -> (N.to_nat 1024 <= fuel)%nat ->
  exists rs, read_many dev fuel d blocks = Ok rs /\ length rs = length blocks /\
    (forall i b, nth_error blocks i = Some b -> nth_error rs i = Some None \/ nth_error rs i = Some (Some (d b))) /\
    ((forall c first nb, dev c first nb <> RdErr) -> rs = map (fun b => Some (d b)) blocks).
Proof.
  intros dev d fuel blocks D Hf. destruct (read_many_spec dev d fuel blocks D Hf) as (rs & H1 & H2 & H3).
  exists rs. conj; auto.
  - exact (Forall2_length _ _ _ H2).
  - clear H1 H3. revert rs H2. induction blocks as [|x l IH]; intros rs H2 i b Hi; [destruct i; discriminate|].
    inversion H2; subst. destruct i as [|i]; cbn in Hi |- *; [|apply IH; auto].
    injection Hi as ->. match goal with H : val_ok _ _ _ |- _ => destruct H as [->| ->]; auto end.
Qed.

(** C39: write_many writes each block to its own place: one that is reported written
    and not written again later in the list is there, a location not in the list is
    untouched - even when some of the calls fail and leave rubbish behind. *)
Theorem C39_write_many : forall dev d fuel blocks, write_dev_ok dev -> (N.to_nat 1024 <= fuel)%nat ->
  exists d' oks, write_many dev fuel d blocks = Ok (d', oks) /\ length oks = length blocks /\
    (forall x, ~ In x (map b_loc blocks) -> d' x = d x) /\
    (forall i b, nth_error blocks i = Some b -> nth_error oks i = Some true ->
       (forall j b', (i < j)%nat -> nth_error blocks j = Some b' -> b_loc b' <> b_loc b) ->
       d' (b_loc b) = b_data b) /\
    ((forall c first nb g, dev c first nb <> WrErr g) -> Forall (fun o => o = true) oks).
Proof.
  intros dev d fuel blocks D Hf.
  destruct (write_many_spec dev fuel blocks d D Hf) as (d' & oks & H1 & (H2 & H3 & H4) & H5).
  exists d', oks. conj; auto.
Qed.

(** A device that answers with part of a block (the last, incomplete block of a
    file) makes read_many panic; one that answers 0 makes it loop. *)
Theorem C39_short_read_panics_refuted :
  exists dev, (forall c first nb, exists n, dev c first nb = RdBytes n) /\
    forall d fuel, (1 <= fuel)%nat -> read_many dev fuel d [5] = Panic.
Proof.
  exists (fun _ _ _ => RdBytes 100). split; [eauto|].
  intros d fuel Hf. destruct fuel; [lia|]. vm_compute. reflexivity.
Qed.
Theorem C39_eof_loops_refuted :
  exists dev, (forall c first nb, dev c first nb = RdBytes 0) /\
    forall d fuel, read_many dev fuel d [5] = Err.
Proof.
  exists (fun _ _ _ => RdBytes 0). split; [auto|]. intros d fuel.
  assert (L : forall fuel c, read_blocks (fun _ _ _ => RdBytes 0) d fuel c 5 1 = Err).
  { clear fuel. induction fuel as [|f IH]; intros c; [reflexivity|].
    cbn [read_blocks]. change (4096 * N.of_nat 1 <? 0) with false. change (negb (0 mod 4096 =? 0)) with false.
    change (0 / 4096) with 0. cbn [N.to_nat Nat.sub]. rewrite N.add_0_r, IH. reflexivity. }
  unfold read_many. change (generate_runs [5] 8 1024) with (@Ok (list (list run_op)) [[Run 5 6]]). cbn [bind].
  change (read_batches (fun _ _ _ => RdBytes 0) fuel d [5] [[Run 5 6]] 0 0 0)
    with (' (run_results, c) <- read_blocks (fun _ _ _ => RdBytes 0) d fuel 0 5 1 ;;
              let m := fill (fun _ => None) [Some 0%nat] run_results in
              ' (x, bs_index) <-
                 select [5] m (map (fun o => match o with Some _ => true | None => false end) run_results)
                        [Run 5 6] 0 0 ;;
              y <- read_batches (fun _ _ _ => RdBytes 0) fuel d [5] [] c 1 bs_index ;;
              Ok (x ++ y)).
  rewrite L. reflexivity.
Qed.

Example C39_example :
  generate_runs [5; 6; 7; 9; 2; 2; 30] 8 3 =
    Ok [[Run 5 8]; [Gap 8 9; Run 9 10]; [Run 2 3]; [Run 2 3]; [Run 30 31]] /\
  read_many (fun c first nb => if N.eqb first 9 then RdErr else RdBytes 4096) 2000 (fun b => [b]) [9; 10; 3; 3; 4; 8]
    = Ok [None; Some [10]; Some [3]; Some [3]; Some [4]; Some [8]].
Proof. split; vm_compute; reflexivity. Qed.
Example C39_devices_exist :
  read_dev_ok (fun c first nb => if N.eqb first 9 then RdErr else RdBytes 4096) /\
  write_dev_ok (fun c first nb => if Nat.eqb c 3 then WrErr (fun _ => []) else WrBytes (4096 * N.of_nat nb)).
Proof.
  split; intros c first nb H.
  - destruct (first =? 9); auto. exists 1. lia.
  - destruct (Nat.eqb c 3); auto. exists (N.of_nat nb). lia.
Qed.

(** C40: every history of calls returns what an unqueued device and an allocator
    would return ([direct_history]): reads see the last write, allocations are
    fresh and recorded.  After a flush the device holds the last write of every
    block. *)
Theorem C40_transparent : forall d good n max batch junk ops w outs,
  1 <= max -> Forall (writes_good good) ops ->
  wb_run (wb_new d good (sm_new n max) batch junk) ops = (w, outs) ->
  exists cur, direct_history good n d (fun _ => 0) [] ops outs cur (sm_counts (wb_sm w)) (wb_allocs w) /\
    forall x, wb_disk (fst (wb_flush w)) x = cur x.
Proof.
  intros d good n max batch junk ops w outs Hm F H.
  assert (I : wb_inv n max (wb_new d good (sm_new n max) batch junk)).
  { constructor; cbn; auto. apply sm_new_inv; auto. }
  destruct (wb_run_spec n max ops _ _ _ I F H) as (I' & G & Hh).
  exists (wb_view w). split; [exact Hh|]. intros x. apply wb_flush_disk. apply (wi_good _ _ _ I').
Qed.

(** The same from any state of the space map (blocks already in use, cursor
    anywhere), as when metadata is rewritten in place. *)
Theorem C40_transparent_from : forall d good sm n max batch junk ops w outs,
  sm_inv n max sm -> Forall (writes_good good) ops ->
  wb_run (wb_new d good sm batch junk) ops = (w, outs) ->
  exists cur, direct_history good n d (sm_counts sm) [] ops outs cur (sm_counts (wb_sm w)) (wb_allocs w) /\
    forall x, wb_disk (fst (wb_flush w)) x = cur x.
Proof.
  intros d good sm n max batch junk ops w outs I0 F H.
  assert (I : wb_inv n max (wb_new d good sm batch junk)) by (constructor; cbn; auto).
  destruct (wb_run_spec n max ops _ _ _ I F H) as (I' & G & Hh).
  exists (wb_view w). split; [exact Hh|]. intros x. apply wb_flush_disk. apply (wi_good _ _ _ I').
Qed.

(** C40: the queue never grows beyond the batch size. *)
Theorem C40_queue_bounded : forall d good sm batch junk ops w outs, 1 <= batch ->
  wb_run (wb_new d good sm batch junk) ops = (w, outs) -> nlen (wb_queue w) <= batch.
Proof.
  intros d good sm batch junk ops w outs Hb H. apply wb_run_queue in H; cbn in *; auto.
  - apply H.
  - unfold nlen; cbn; lia.
Qed.

(** flush returns success although the device refused a block: the per-block
    results of write_many are dropped. *)
Theorem C40_flush_hides_failure_refuted :
  exists good w outs, wb_run (wb_new (fun _ => []) good (sm_new 4 255) 8 (fun _ => []))
      [BWrite 2 (repeat 7 BLOCK_SIZE) NODE; BFlush] = (w, outs) /\
    outs = [OUnit (Ok tt); OUnit (Ok tt)] /\ wb_disk w 2 = [].
Proof.
  exists (fun _ => false). eexists _, _. split; [vm_compute; reflexivity|]. split; reflexivity.
Qed.

Example C40_example :
  let blk x := repeat x BLOCK_SIZE in
  let summed x := match write_checksum (blk x) NODE with Ok d => d | _ => [] end in
  exists w outs, wb_run (wb_new (fun _ => blk 9) (fun _ => true) (sm_new 4 255) 1 (fun _ => blk 5))
    [BAlloc; BAlloc; BWrite 0 (blk 1) NODE; BWrite 1 (blk 2) NODE; BWrite 1 (blk 3) NODE; BRead 1; BRead 0; BRead 3] = (w, outs) /\
   outs = [OBlock (Ok (mkblock 0 (blk 5))); OBlock (Ok (mkblock 1 (blk 5)));
           OUnit (Ok tt); OUnit (Ok tt); OUnit (Ok tt); OBlock (Ok (mkblock 1 (summed 3)));
           OBlock (Ok (mkblock 0 (summed 1))); OBlock (Ok (mkblock 3 (blk 9)))].
Proof. eexists _, _. split; vm_compute; reflexivity. Qed.

Print Assumptions C39_batches.
Print Assumptions C39_read_many.
Print Assumptions C39_write_many.
Print Assumptions C40_transparent.
Print Assumptions C40_transparent_from.
Print Assumptions C40_queue_bounded.
