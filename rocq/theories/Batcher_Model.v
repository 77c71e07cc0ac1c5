(** Model of the write batcher, src/write_batcher.rs. *)
From Verif Require Import Base Csum_Model Codec_Model SpaceMap_Model.

(** Computations over a mutable state that may fail; unlike [res] alone the
    state reached is kept when they fail. *)
Definition st (S A : Type) : Type := S -> S * res A.
Definition ret {S A} (a : A) : st S A := fun s => (s, Ok a).
Definition fail {S A} : st S A := fun s => (s, Err).
Definition bindst {S A B} (m : st S A) (f : A -> st S B) : st S B :=
  fun s => match m s with
           | (s', Ok a) => f a s'
           | (s', Err) => (s', Err)
           | (s', Panic) => (s', Panic)
           end.
Definition lift {S A} (r : res A) : st S A := fun s => (s, r).
Notation "x <~ e ;; f" := (bindst e (fun x => f))
  (at level 61, e at next level, right associativity) : res_scope.
Notation "' p <~ e ;; f" := (bindst e (fun p => f))
  (at level 61, p pattern, e at next level, right associativity) : res_scope.

(** WriteBatcher (write_batcher.rs:13-26) together with the device behind its
    engine: [wb_base] is the device when the batcher was made, [wb_log] the blocks
    handed to the engine since, oldest first; [wb_good] says which blocks the
    device can read and write (it need not have any others).  [wb_junk] is what
    freshly allocated memory for a block contains.  [wb_allocs] is the RangeSet. *)
Record wb := mkwb {
  wb_base : disk; wb_log : list block; wb_good : N -> bool;
  wb_sm : core_sm; wb_batch : N; wb_queue : list block;
  wb_allocs : list N; wb_junk : N -> list N }.

Definition put_block (d : disk) (b : block) : disk := upd d (b_loc b) (b_data b).
Definition put_log (d : disk) (good : N -> bool) (l : list block) : disk :=
  fold_left (fun d b => if good (b_loc b) then put_block d b else d) l d.

(** What is on the device now. *)
Definition wb_disk (w : wb) : disk := put_log (wb_base w) (wb_good w) (wb_log w).

Definition set_queue (w : wb) (q : list block) : wb :=
  mkwb (wb_base w) (wb_log w) (wb_good w) (wb_sm w) (wb_batch w) q (wb_allocs w) (wb_junk w).

(** write_batcher.rs:44-74 *)
Definition wb_alloc_loc : st wb N := fun w =>
  match sm_alloc (wb_sm w) with
  | (s, Ok (Some loc)) =>
      (mkwb (wb_base w) (wb_log w) (wb_good w) s (wb_batch w) (wb_queue w) (loc :: wb_allocs w) (wb_junk w), Ok loc)
  | (s, Ok None) | (s, Err) =>
      (mkwb (wb_base w) (wb_log w) (wb_good w) s (wb_batch w) (wb_queue w) (wb_allocs w) (wb_junk w), Err)
  | (s, Panic) => (w, Panic)
  end.
Definition wb_alloc : st wb block :=
  loc <~ wb_alloc_loc ;; (fun w => (w, Ok (mkblock loc (wb_junk w loc)))).
Definition wb_alloc_zeroed : st wb block :=
  loc <~ wb_alloc_loc ;; ret (mkblock loc (repeat 0 BLOCK_SIZE)).

(** write_batcher.rs:76-80 *)
Definition wb_clear_allocations : st wb (list N) := fun w =>
  (mkwb (wb_base w) (wb_log w) (wb_good w) (wb_sm w) (wb_batch w) (wb_queue w) [] (wb_junk w), Ok (wb_allocs w)).

(** write_batcher.rs:117-130.  write_many reports each block's failure in its
    result list, which is ignored. *)
Definition wb_flush : st wb unit := fun w =>
  (mkwb (wb_base w) (wb_log w ++ wb_queue w) (wb_good w) (wb_sm w) (wb_batch w) [] (wb_allocs w) (wb_junk w), Ok tt).

(** write_batcher.rs:85-91: the last entry with this location is overwritten. *)
Fixpoint replace_first (q : list block) (b : block) : option (list block) :=
  match q with
  | [] => None
  | x :: r => if b_loc x =? b_loc b then Some (b :: r)
              else match replace_first r b with Some r' => Some (x :: r') | None => None end
  end.
Definition write_hit (q : list block) (b : block) : option (list block) :=
  match replace_first (rev q) b with Some q' => Some (rev q') | None => None end.

(** write_batcher.rs:82-101; the block handed over is returned in the queue with
    its checksum. *)
Definition wb_write (b : block) (kind : BT) : st wb unit :=
  data <~ lift (write_checksum (b_data b) kind) ;;
  let b := mkblock (b_loc b) data in
  fun w =>
    match write_hit (wb_queue w) b with
    | Some q => (set_queue w q, Ok tt)
    | None =>
        let w := if nlen (wb_queue w) =? wb_batch w then fst (wb_flush w) else w in
        (set_queue w (wb_queue w ++ [b]), Ok tt)
    end.

(** write_batcher.rs:103-115 *)
Definition find_queued (q : list block) (loc : N) : option block :=
  find (fun b => b_loc b =? loc) (rev q).
Definition wb_read (loc : N) : st wb block := fun w =>
  match find_queued (wb_queue w) loc with
  | Some b => (w, Ok (mkblock loc (b_data b)))
  | None => (w, if wb_good w loc then Ok (mkblock loc (wb_disk w loc)) else Err)
  end.

(** One call, and what it returned. *)
Inductive wb_op :=
| BAlloc | BAllocZeroed | BWrite (loc : N) (data : list N) (kind : BT) | BRead (loc : N) | BFlush
| BClearAllocations.
Inductive wb_out :=
| OBlock (r : res block) | OUnit (r : res unit) | OBlocks (r : res (list N)).
Definition wb_step (w : wb) (o : wb_op) : wb * wb_out :=
  match o with
  | BAlloc => let '(w, r) := wb_alloc w in (w, OBlock r)
  | BAllocZeroed => let '(w, r) := wb_alloc_zeroed w in (w, OBlock r)
  | BWrite loc data kind => let '(w, r) := wb_write (mkblock loc data) kind w in (w, OUnit r)
  | BRead loc => let '(w, r) := wb_read loc w in (w, OBlock r)
  | BFlush => let '(w, r) := wb_flush w in (w, OUnit r)
  | BClearAllocations => let '(w, r) := wb_clear_allocations w in (w, OBlocks r)
  end.
Fixpoint wb_run (w : wb) (os : list wb_op) : wb * list wb_out :=
  match os with
  | [] => (w, [])
  | o :: r => let '(w1, x) := wb_step w o in let '(w2, xs) := wb_run w1 r in (w2, x :: xs)
  end.

(** WriteBatcher::new (write_batcher.rs:29-42) over a device and a space map. *)
Definition wb_new (d : disk) (good : N -> bool) (sm : core_sm) (batch : N) (junk : N -> list N) : wb :=
  mkwb d [] good sm batch [] [] junk.
