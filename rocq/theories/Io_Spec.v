(** What the batched I/O has to do. *)
From Verif Require Import Base Codec_Model Io_Model.

(** The blocks of the runs of some ops, and the number of blocks an op list covers. *)
Definition run_blocks (ops : list run_op) : list N :=
  flat_map (fun o => match o with Run b e => range b e | Gap _ _ => [] end) ops.
(** All the blocks covered, gaps included, in the order of the iovec. *)
Definition all_blocks (ops : list run_op) : list N :=
  flat_map (fun o => range (op_begin o) (op_end o)) ops.

(** One I/O: its blocks, in order, are [n] consecutive blocks, 1 <= n <= max. *)
Definition one_io (max : N) (batch : list run_op) : Prop :=
  exists first n, all_blocks batch = nseq first n /\ 1 <= N.of_nat n <= max.

(** A device that, when it does not fail, moves a positive whole number of blocks,
    at most what it was asked for. *)
Definition read_dev_ok (dev : read_dev) : Prop :=
  forall c first nbufs, (1 <= nbufs)%nat ->
    match dev c first nbufs with
    | RdErr => True
    | RdBytes n => exists k, n = 4096 * k /\ 1 <= k <= N.of_nat nbufs
    end.
Definition write_dev_ok (dev : write_dev) : Prop :=
  forall c first nbufs, (1 <= nbufs)%nat ->
    match dev c first nbufs with
    | WrErr _ => True
    | WrBytes n => exists k, n = 4096 * k /\ 1 <= k <= N.of_nat nbufs
    end.
