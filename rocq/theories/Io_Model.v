(** Model of the batched block I/O: src/io_engine/gaps.rs, utils.rs, sync.rs. *)
From Verif Require Import Base Codec_Model.

(** gaps.rs:1-5 *)
Inductive run_op := Run (b e : N) | Gap (b e : N).
Definition op_begin (o : run_op) : N := match o with Run b _ | Gap b _ => b end.
Definition op_end (o : run_op) : N := match o with Run _ e | Gap _ e => e end.

(** gaps.rs:7-42, the loop; [last] is (begin, end) of the open run.
    [b + 1] is not wrapped: block numbers here are below 2^52 (a byte offset is
    block * 4096). *)
Fixpoint find_runs_loop (thr : N) (last : N * N) (blocks : list N) : list run_op :=
  match blocks with
  | [] => [Run (fst last) (snd last)]
  | b :: r =>
      let '(begin, e) := last in
      if e <? b then
        if thr <? b - e then Run begin e :: find_runs_loop thr (b, b + 1) r
        else Run begin e :: Gap e b :: find_runs_loop thr (b, b + 1) r
      else if b =? e then find_runs_loop thr (begin, b + 1) r
      else Run begin e :: find_runs_loop thr (b, b + 1) r
  end.
Definition find_runs (blocks : list N) (thr : N) : list run_op :=
  match blocks with [] => [] | b :: r => find_runs_loop thr (b, b + 1) r end.

(** gaps.rs:139-188; the Run and Gap cases do the same thing.  [batch] is the
    open batch, [l] the end of its last op. *)
Fixpoint batch_loop (batch : list run_op) (l : N) (runs : list run_op) : list (list run_op) :=
  match runs with
  | [] => [batch]
  | o :: r =>
      if op_begin o =? l then batch_loop (batch ++ [o]) (op_end o) r
      else batch :: batch_loop [o] (op_end o) r
  end.
Definition batch_adjacent (runs : list run_op) : list (list run_op) :=
  match runs with [] => [] | o :: r => batch_loop [o] (op_end o) r end.

(** gaps.rs:252-274 *)
Definition split_op (o : run_op) (remaining : N) : run_op * option run_op * N :=
  match o with
  | Run b e =>
      let len := e - b in
      if len <=? remaining then (Run b e, None, remaining - len)
      else (Run b (b + remaining), Some (Run (b + remaining) e), 0)
  | Gap b e =>
      let len := e - b in
      if len <? remaining then (Gap b e, None, remaining - len)
      else (Gap b (b + remaining), Some (Gap (b + remaining) e), 0)
  end.

(** gaps.rs:276-305.  The loop is unrolled by [fuel]; [Panic] stands for running
    out of it, which the theorems exclude. *)
Fixpoint split_loop (fuel : nat) (max : N) (op : option run_op) (ops : list run_op)
    (remaining : N) (batch : list run_op) : res (list (list run_op)) :=
  match fuel with
  | O => Panic
  | S f =>
      match op with
      | None => Ok (if (match batch with [] => true | _ => false end) then [] else [batch])
      | Some o =>
          let '(first, rest, rem) := split_op o remaining in
          let batch := batch ++ [first] in
          let '(op', ops') := match rest with
                              | Some x => (Some x, ops)
                              | None => match ops with [] => (None, []) | x :: t => (Some x, t) end
                              end in
          if rem =? 0 then
            r <- split_loop f max op' ops' max [] ;; Ok (batch :: r)
          else split_loop f max op' ops' rem batch
      end
  end.
Definition ops_blocks (ops : list run_op) : N :=
  fold_right (fun o n => (op_end o - op_begin o) + n) 0 ops.
Definition split_fuel (ops : list run_op) : nat :=
  (N.to_nat (ops_blocks ops) + 2 * length ops + 1)%nat.
Definition split_contiguous (runs : list run_op) (max : N) : res (list (list run_op)) :=
  match runs with
  | [] => Ok []
  | o :: r => split_loop (split_fuel runs) max (Some o) r max []
  end.

(** gaps.rs:309-317 *)
Fixpoint split_batches (batches : list (list run_op)) (max : N) : res (list (list run_op)) :=
  match batches with
  | [] => Ok []
  | b :: r => x <- split_contiguous b max ;; y <- split_batches r max ;; Ok (x ++ y)
  end.

(** gaps.rs:366-368 *)
Definition generate_runs (blocks : list N) (thr max : N) : res (list (list run_op)) :=
  split_batches (batch_adjacent (find_runs blocks thr)) max.

(** ** utils.rs: VectoredBlockIo *)

(** What one preadv call answered: an error, or a number of bytes. *)
Inductive dev_read := RdErr | RdBytes (n : N).

(** A device: its answer to call number [c], for [nbufs] blocks from block [first]. *)
Definition read_dev := nat -> N -> nat -> dev_read.

(** utils.rs:36-72.  [first] is pos / BLOCK_SIZE, [nbufs] the number of iovecs left
    (block_size = 4096, remaining = 4096 * nbufs), [c] counts the calls made.  [Err]
    here stands for a loop still running after [fuel] calls.  A buffer that was
    read holds the block of the disk at its position. *)
Fixpoint read_blocks (dev : read_dev) (disk : disk) (fuel : nat) (c : nat) (first : N) (nbufs : nat)
  : res (list (option (list N)) * nat) :=
  match nbufs with
  | O => Ok ([], c)
  | S nb =>
      match fuel with
      | O => Err
      | S f =>
          match dev c first nbufs with
          | RdErr =>
              ' (r, c) <- read_blocks dev disk f (S c) (first + 1) nb ;; Ok (None :: r, c)
          | RdBytes n =>
              if 4096 * N.of_nat nbufs <? n then Panic         (* remaining -= n *)
              else if negb (n mod 4096 =? 0) then Panic        (* assert_eq *)
              else
                let k := N.to_nat (n / 4096) in
                ' (r, c) <- read_blocks dev disk f (S c) (first + n / 4096) (nbufs - k) ;;
                Ok (map (fun b => Some (disk b)) (nseq first k) ++ r, c)
          end
      end
  end.

(** ** sync.rs: read_many_ *)

(** sync.rs:88-111, building the iovec of one batch: a buffer is block [i] of the
    request ([Some i]) or a gap buffer ([None]).  [locs] are the locations
    requested, [issued] is issued_minus_gaps. *)
Fixpoint run_bufs (locs : list N) (bs : list N) (issued : nat) : res (list (option nat) * nat) :=
  match bs with
  | [] => Ok ([], issued)
  | b :: r =>
      match nth_error locs issued with
      | None => Panic
      | Some l => if b =? l then ' (x, i) <- run_bufs locs r (S issued) ;; Ok (Some issued :: x, i) else Panic
      end
  end.
Fixpoint build_bufs (locs : list N) (batch : list run_op) (issued : nat) : res (list (option nat) * nat) :=
  match batch with
  | [] => Ok ([], issued)
  | Run b e :: r =>
      ' (x, i) <- run_bufs locs (range b e) issued ;; ' (y, j) <- build_bufs locs r i ;; Ok (x ++ y, j)
  | Gap b e :: r =>
      ' (y, j) <- build_bufs locs r issued ;; Ok (map (fun _ => None) (range b e) ++ y, j)
  end.

(** The memory of the requested blocks after the I/O filled the buffers. *)
Definition mem := nat -> option (list N).
Fixpoint fill (m : mem) (bufs : list (option nat)) (rs : list (option (list N))) : mem :=
  match bufs, rs with
  | Some i :: bufs, Some d :: rs => fill (fun j => if Nat.eqb j i then Some d else m j) bufs rs
  | _ :: bufs, _ :: rs => fill m bufs rs
  | _, _ => m
  end.

(** sync.rs:118-139, selecting the results of one batch: what is pushed for each
    block of the runs, with bs_index and rindex moving on; [run_results[rindex]]
    out of range panics. *)
Fixpoint select_run (locs : list N) (m : mem) (oks : list bool) (bs : list N) (bs_index rindex : nat)
  : res (list (option (list N)) * nat * nat) :=
  match bs with
  | [] => Ok ([], bs_index, rindex)
  | i :: r =>
      match nth_error oks rindex with
      | None => Panic
      | Some false =>
          ' (x, bi, ri) <- select_run locs m oks r (S bs_index) (S rindex) ;; Ok (None :: x, bi, ri)
      | Some true =>
          match nth_error locs bs_index, m bs_index with
          | Some l, Some d =>
              if i =? l then
                ' (x, bi, ri) <- select_run locs m oks r (S bs_index) (S rindex) ;; Ok (Some d :: x, bi, ri)
              else Panic
          | _, _ => Panic
          end
      end
  end.
Fixpoint select (locs : list N) (m : mem) (oks : list bool) (batch : list run_op) (bs_index rindex : nat)
  : res (list (option (list N)) * nat) :=
  match batch with
  | [] => Ok ([], bs_index)
  | Run b e :: r =>
      ' (x, bi, ri) <- select_run locs m oks (range b e) bs_index rindex ;;
      ' (y, bi) <- select locs m oks r bi ri ;; Ok (x ++ y, bi)
  | Gap b e :: r => select locs m oks r bs_index (rindex + N.to_nat (e - b))
  end.

(** sync.rs:55-166.  read_blocks of VectoredBlockIo never returns an error as a
    whole, so sync.rs:140-156 is dead for it.  An empty iovec panics
    (buffers[0]). *)
Fixpoint read_batches (dev : read_dev) (fuel : nat) (disk : disk) (locs : list N)
    (batches : list (list run_op)) (c : nat) (issued bs_index : nat) : res (list (option (list N))) :=
  match batches with
  | [] => Ok []
  | batch :: r =>
      match batch with
      | [] => Panic
      | o :: _ =>
          ' (bufs, issued) <- build_bufs locs batch issued ;;
          match bufs with
          | [] => Panic
          | _ =>
              ' (run_results, c) <- read_blocks dev disk fuel c (op_begin o) (length bufs) ;;
              let m := fill (fun _ => None) bufs run_results in
              ' (x, bs_index) <-
                 select locs m (map (fun o => match o with Some _ => true | None => false end) run_results)
                        batch bs_index 0 ;;
              y <- read_batches dev fuel disk locs r c issued bs_index ;;
              Ok (x ++ y)
          end
      end
  end.
Definition read_many (dev : read_dev) (fuel : nat) (disk : disk) (blocks : list N) : res (list (option (list N))) :=
  match blocks with
  | [] => Ok []
  | _ =>
      batches <- generate_runs blocks 8 1024 ;;
      rs <- read_batches dev fuel disk blocks batches 0 0 0 ;;
      if Nat.eqb (length rs) (length blocks) then Ok rs else Panic
  end.

(** ** Writing *)
(** sync.rs:239-268 (block locations only) *)
Fixpoint nogap_loop (max_len : nat) (begin : N) (len : nat) (locs : list N) : list (N * nat) :=
  match locs with
  | [] => [(begin, len)]
  | b :: r =>
      if (b =? begin + N.of_nat len) && Nat.ltb len max_len then nogap_loop max_len begin (S len) r
      else (begin, len) :: nogap_loop max_len b 1 r
  end.
Definition find_runs_nogap (locs : list N) (max_len : nat) : list (N * nat) :=
  match locs with [] => [] | b :: r => nogap_loop max_len b 1 r end.

(** What one pwritev call did: failed, leaving [g b] in the blocks it was asked to
    write, or wrote a number of bytes. *)
Inductive dev_write := WrErr (g : N -> list N) | WrBytes (n : N).

Fixpoint put_blocks (d : disk) (first : N) (bufs : list (list N)) : disk :=
  match bufs with [] => d | x :: r => put_blocks (upd d first x) (first + 1) r end.

Definition write_dev := nat -> N -> nat -> dev_write.

(** utils.rs:74-108 *)
Fixpoint write_blocks (dev : write_dev) (d : disk) (fuel : nat) (c : nat) (first : N) (bufs : list (list N))
  : res (disk * list bool * nat) :=
  match bufs with
  | [] => Ok (d, [], c)
  | _ :: rest =>
      match fuel with
      | O => Err
      | S f =>
          match dev c first (length bufs) with
          | WrErr g =>
              let d := put_blocks d first (map g (nseq first (length bufs))) in
              ' (d, r, c) <- write_blocks dev d f (S c) (first + 1) rest ;; Ok (d, false :: r, c)
          | WrBytes n =>
              if 4096 * nlen bufs <? n then Panic
              else if negb (n mod 4096 =? 0) then Panic
              else
                let k := N.to_nat (n / 4096) in
                ' (d, r, c) <- write_blocks dev (put_blocks d first (firstn k bufs)) f (S c)
                                            (first + n / 4096) (skipn k bufs) ;;
                Ok (d, repeat true k ++ r, c)
          end
      end
  end.

(** sync.rs:168-205 *)
Fixpoint write_batches (dev : write_dev) (fuel : nat) (d : disk) (runs : list (N * nat))
    (blocks : list block) (c : nat) : res (disk * list bool) :=
  match runs with
  | [] => Ok (d, [])
  | (start, n) :: r =>
      if Nat.eqb n 0 then Panic else
      ' (d, x, c) <- write_blocks dev d fuel c start (map b_data (firstn n blocks)) ;;
      ' (d, y) <- write_batches dev fuel d r (skipn n blocks) c ;;
      Ok (d, x ++ y)
  end.
Definition write_many (dev : write_dev) (fuel : nat) (d : disk) (blocks : list block) : res (disk * list bool) :=
  write_batches dev fuel d (find_runs_nogap (map b_loc blocks) (N.to_nat 1024)) blocks 0.
