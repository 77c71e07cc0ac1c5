(** The block copiers: copier/base.rs, copier/sync_copier.rs, copier/rescue_copier.rs,
    copier/batcher.rs, copier/wrapper.rs.

    A device holds one value (its contents, of any type) per block; the byte offsets
    src_offset and dst_offset and the multiplication by the block size are left out, so a
    block number stands for its position.  The two threads of SyncCopier::copy are a
    transition system: one step is one action of one of the threads, and a schedule says
    whose turn it is.  A block that is being written holds arbitrary contents until the
    write is over, and also if it fails. *)
From Verif Require Import Base Codec_Model.

(** CopyOp (copier/base.rs:8-12). *)
Record cop := mkop { c_src : N; c_dst : N }.

(** CopyStats (copier/base.rs:14-20) without nr_blocks. *)
Record cstats := mkst { t_copied : N; t_rerr : list cop; t_werr : list cop }.

(** Op (sync_copier.rs:30-35). *)
Record aop := mkaop { a_begin : N; a_end : N; a_idx : list nat }.

(** aggregate_ops (sync_copier.rs:37-61), after the first op. *)
Fixpoint aggregate_from (l : aop) (ops : list aop) : list aop :=
  match ops with
  | [] => [l]
  | o :: r => if a_end l =? a_begin o then aggregate_from (mkaop (a_begin l) (a_end o) (a_idx l ++ a_idx o)) r
              else l :: aggregate_from o r
  end.
Definition aggregate_ops (ops : list aop) : list aop :=
  match ops with [] => [] | o :: r => aggregate_from o r end.

(** slice::sort_by on block_begin (sync_copier.rs:140, 205): a stable sort, here by insertion. *)
Fixpoint aop_insert (o : aop) (l : list aop) : list aop :=
  match l with
  | [] => [o]
  | p :: r => if a_begin o <=? a_begin p then o :: l else p :: aop_insert o r
  end.
Definition aop_sort (l : list aop) : list aop := fold_right aop_insert [] l.

(** The list of Ops of sync_copier.rs:130-137 and :192-202, from (block, buffer index). *)
Definition single_ops (l : list (N * nat)) : list aop := map (fun p => mkaop (fst p) (fst p + 1) [snd p]) l.

(** bufs[buf_index].take().unwrap() (sync_copier.rs:152-153): [avail] are the buffers that
    have not been taken. *)
Fixpoint take_buf (avail : list nat) (i : nat) : res (list nat) :=
  match avail with
  | [] => Panic
  | j :: r => if Nat.eqb i j then Ok r else r' <- take_buf r i ;; Ok (j :: r')
  end.
(** The iovec of one Op (sync_copier.rs:149-154, 214-219): block [b + i] with the buffer
    [indexes[i]], [n] of them. *)
Fixpoint op_tasks (avail : list nat) (b : N) (n : nat) (idx : list nat) : res (list (N * nat) * list nat) :=
  match n with
  | O => Ok ([], avail)
  | Datatypes.S m =>
      match idx with
      | [] => Panic
      | i :: idx' =>
          avail' <- take_buf avail i ;;
          ' (ts, av) <- op_tasks avail' (b + 1) m idx' ;;
          Ok ((b, i) :: ts, av)
      end
  end.
(** The block reads or writes in the order they are issued, with the buffer of each.  All
    the buffers are taken before the first is used; in the code, those of an Op before its io. *)
Fixpoint all_tasks (avail : list nat) (ops : list aop) : res (list (N * nat)) :=
  match ops with
  | [] => Ok []
  | o :: r =>
      ' (ts, av) <- op_tasks avail (a_begin o) (N.to_nat (a_end o - a_begin o)) (a_idx o) ;;
      ts' <- all_tasks av r ;;
      Ok (ts ++ ts')
  end.
Definition tasks_of (nbufs : nat) (l : list (N * nat)) : res (list (N * nat)) :=
  all_tasks (seq 0 nbufs) (aggregate_ops (aop_sort (single_ops l))).

(** RoaringBitmap: contains, insert, len. *)
Definition has (s : list nat) (i : nat) : bool := existsb (Nat.eqb i) s.
Definition bit_insert (s : list nat) (i : nat) : list nat := if has s i then s else s ++ [i].

(** Iterator::enumerate. *)
Fixpoint enum_from {X} (i : nat) (l : list X) : list (X * nat) :=
  match l with [] => [] | x :: r => (x, i) :: enum_from (Datatypes.S i) r end.
Definition enum {X} (l : list X) := enum_from 0 l.

(** do_reads, the tasks (sync_copier.rs:130-143): op [i] into buffer [i]. *)
Definition read_tasks (ops : list cop) : res (list (N * nat)) :=
  tasks_of (length ops) (map (fun p => (c_src (fst p), snd p)) (enum ops)).
(** do_writes, the tasks (sync_copier.rs:192-208): only the ops whose read succeeded. *)
Definition write_tasks (ops : list cop) (sel : list nat) : res (list (N * nat)) :=
  tasks_of (length ops) (map (fun p => (c_dst (fst p), snd p)) (filter (fun p => has sel (snd p)) (enum ops))).

(** The read errors of a chunk (sync_copier.rs:333-341). *)
Definition read_errs (ops : list cop) (rs : list nat) : list cop :=
  if Nat.eqb (length rs) (length ops) then [] else map fst (filter (fun p => negb (has rs (snd p))) (enum ops)).
(** The write errors of a chunk (sync_copier.rs:304-311). *)
Definition write_errs (ops : list cop) (rs ws : list nat) : list cop :=
  if Nat.eqb (length ws) (length rs) then []
  else map fst (filter (fun p => has rs (snd p) && negb (has ws (snd p))) (enum ops)).

Section Contents.
Context {A : Type}.

(** What the devices do to the [n]th block read and to the [n]th block written.  A call of
    read_blocks or write_blocks that fails as a whole is one all of whose blocks fail. *)
Record faults := mkf {
  f_read : nat -> bool;   (* the read succeeds *)
  f_rjunk : nat -> A;     (* what a failed read leaves in the buffer *)
  f_write : nat -> bool;  (* the write succeeds *)
  f_torn : nat -> A;      (* what is on the device while it goes on *)
  f_wjunk : nat -> A      (* what a failed write leaves on the device *)
}.

(** Two devices, [false] and [true]. *)
Definition mem := bool -> N -> A.
Definition put (m : mem) (d : bool) (b : N) (v : A) : mem :=
  fun d' b' => if Bool.eqb d d' && (b =? b') then v else m d' b'.
Definition put_buf (buf : nat -> A) (i : nat) (v : A) : nat -> A := fun j => if Nat.eqb i j then v else buf j.

(** SyncCopier (sync_copier.rs:21-28): the device of [src], that of [dst], and whether they
    are behind one mutex (in_file, sync_copier.rs:80-98) or two (new, :64-77). *)
Record conf := mkconf { k_src : bool; k_dst : bool; k_shared : bool; k_chunk : nat; k_f : faults; k_buf : nat -> A }.

(** (ops, read_success, buffer) (sync_copier.rs:281). *)
Record msg := mkmsg { g_ops : list cop; g_ok : list nat; g_buf : nat -> A }.

Inductive reader :=
| RNext (chunks : list (list cop))                                        (* top of the read loop *)
| RRead (ops : list cop) (ts : list (N * nat)) (rs : list nat) (buf : nat -> A) (chunks : list (list cop))  (* src locked *)
| RSend (g : msg) (chunks : list (list cop))                              (* in tx.send *)
| RJoin                                                                   (* tx dropped, in join *)
| RPanic | RErr.
Inductive writer :=
| WRecv                                                                   (* in rx.recv *)
| WLock (g : msg) (ts : list (N * nat))                                   (* in dst.lock *)
| WWrite (g : msg) (ts : list (N * nat)) (torn : bool) (ws : list nat)    (* dst locked *)
| WDone | WPanic.

Record cst := mkcst {
  s_r : reader; s_w : writer; s_chan : option msg; s_mem : mem;
  s_nr : nat; s_nw : nat;                                                 (* blocks read and written *)
  s_stats : cstats
}.

(** Who holds the mutex, when there is one only. *)
Definition src_locked (s : cst) : bool := match s_r s with RRead _ _ _ _ _ => true | _ => false end.
Definition dst_locked (s : cst) : bool := match s_w s with WWrite _ _ _ _ => true | _ => false end.

(** One action of the reading thread (sync_copier.rs:319-350); None if it is blocked or over.
    The stats lock is held only for moments and not modelled. *)
Definition step_reader (k : conf) (s : cst) : option cst :=
  match s_r s with
  | RNext [] => Some (mkcst RJoin (s_w s) (s_chan s) (s_mem s) (s_nr s) (s_nw s) (s_stats s))
  | RNext (ops :: cs) =>
      if k_shared k && dst_locked s then None
      else Some (mkcst (match read_tasks ops with Ok ts => RRead ops ts [] (k_buf k) cs | _ => RPanic end)
                       (s_w s) (s_chan s) (s_mem s) (s_nr s) (s_nw s) (s_stats s))
  | RRead ops ((b, i) :: ts) rs buf cs =>
      let n := s_nr s in
      Some (mkcst (if f_read (k_f k) n then RRead ops ts (bit_insert rs i) (put_buf buf i (s_mem s (k_src k) b)) cs
                   else RRead ops ts rs (put_buf buf i (f_rjunk (k_f k) n)) cs)
                  (s_w s) (s_chan s) (s_mem s) (Datatypes.S n) (s_nw s) (s_stats s))
  | RRead ops [] rs buf cs =>
      let t := s_stats s in
      Some (mkcst (RSend (mkmsg ops rs buf) cs) (s_w s) (s_chan s) (s_mem s) (s_nr s) (s_nw s)
                  (mkst (t_copied t) (t_rerr t ++ read_errs ops rs) (t_werr t)))
  | RSend g cs =>
      match s_w s with
      | WPanic => Some (mkcst RErr (s_w s) (s_chan s) (s_mem s) (s_nr s) (s_nw s) (s_stats s))
      | _ => match s_chan s with
             | None => Some (mkcst (RNext cs) (s_w s) (Some g) (s_mem s) (s_nr s) (s_nw s) (s_stats s))
             | Some _ => None                                             (* sync_channel(1) is full *)
             end
      end
  | RJoin | RPanic | RErr => None
  end.

(** One action of the writing thread (sync_copier.rs:288-316, 179-242). *)
Definition step_writer (k : conf) (s : cst) : option cst :=
  match s_w s with
  | WRecv =>
      match s_chan s with
      | Some g => Some (mkcst (s_r s) (match write_tasks (g_ops g) (g_ok g) with Ok ts => WLock g ts | _ => WPanic end)
                              None (s_mem s) (s_nr s) (s_nw s) (s_stats s))
      | None => match s_r s with
                | RJoin | RPanic | RErr => Some (mkcst (s_r s) WDone None (s_mem s) (s_nr s) (s_nw s) (s_stats s))
                | _ => None
                end
      end
  | WLock g ts =>
      if k_shared k && src_locked s then None
      else Some (mkcst (s_r s) (WWrite g ts false []) (s_chan s) (s_mem s) (s_nr s) (s_nw s) (s_stats s))
  | WWrite g ((b, i) :: ts) false ws =>
      Some (mkcst (s_r s) (WWrite g ((b, i) :: ts) true ws) (s_chan s)
                  (put (s_mem s) (k_dst k) b (f_torn (k_f k) (s_nw s))) (s_nr s) (s_nw s) (s_stats s))
  | WWrite g ((b, i) :: ts) true ws =>
      let n := s_nw s in
      Some (if f_write (k_f k) n
            then mkcst (s_r s) (WWrite g ts false (bit_insert ws i)) (s_chan s)
                       (put (s_mem s) (k_dst k) b (g_buf g i)) (s_nr s) (Datatypes.S n) (s_stats s)
            else mkcst (s_r s) (WWrite g ts false ws) (s_chan s)
                       (put (s_mem s) (k_dst k) b (f_wjunk (k_f k) n)) (s_nr s) (Datatypes.S n) (s_stats s))
  | WWrite g [] _ ws =>
      let t := s_stats s in
      Some (mkcst (s_r s) WRecv (s_chan s) (s_mem s) (s_nr s) (s_nw s)
                  (mkst (t_copied t + nlen ws) (t_rerr t) (t_werr t ++ write_errs (g_ops g) (g_ok g) ws)))
  | WDone | WPanic => None
  end.

(** A schedule: whose turn it is, [true] the reader's.  A thread that cannot move loses its turn. *)
Definition step (k : conf) (s : cst) (who : bool) : cst :=
  match (if who then step_reader k s else step_writer k s) with Some s' => s' | None => s end.
Definition run (k : conf) (s : cst) (sched : list bool) : cst := fold_left (step k) sched s.

(** SyncCopier::copy (sync_copier.rs:273-321), the start: ops.chunks(chunk_size). *)
Definition copy_start (k : conf) (m : mem) (ops : list cop) : cst :=
  mkcst (RNext (chunks (k_chunk k) ops)) WRecv None m 0 0 (mkst 0 [] []).
(** ... and its end (sync_copier.rs:347-355): both threads are over. *)
Definition copy_result (s : cst) : option (res cstats) :=
  match s_r s, s_w s with
  | RJoin, WDone => Some (Ok (s_stats s))
  | RJoin, WPanic => Some Err
  | RErr, _ => Some Err
  | RPanic, _ => Some Panic
  | _, _ => None
  end.
End Contents.
Arguments faults : clear implicits.
Arguments mem : clear implicits.
Arguments conf : clear implicits.
Arguments msg : clear implicits.
Arguments reader : clear implicits.
Arguments writer : clear implicits.
Arguments cst : clear implicits.

(** SyncCopier::new and in_file (sync_copier.rs:64-98), and the chunk size of
    sync_copier.rs:320: blocks that fit in the buffer. *)
Definition copier_chunk (buffer_size block_size : N) : res nat :=
  if buffer_size <? block_size then Err
  else if block_size =? 0 then Panic              (* division by zero *)
  else Ok (N.to_nat (buffer_size / block_size)).

(** ** batcher.rs *)

(** ops.sort_by on dst (batcher.rs:48), stable. *)
Fixpoint cop_insert (o : cop) (l : list cop) : list cop :=
  match l with
  | [] => [o]
  | p :: r => if c_dst o <=? c_dst p then o :: l else p :: cop_insert o r
  end.
Definition cop_sort (l : list cop) : list cop := fold_right cop_insert [] l.
(** CopyOpBatcher: push of every op (batcher.rs:28-35), then complete (:38-41); [cur] is
    self.ops.  The result is what is sent, in order. *)
Fixpoint batches_from (size : N) (cur : list cop) (ops : list cop) : list (list cop) :=
  match ops with
  | [] => [cop_sort cur]
  | o :: r =>
      let cur := cur ++ [o] in
      if size <=? nlen cur then cop_sort cur :: batches_from size [] r else batches_from size cur r
  end.
Definition batches (size : N) (ops : list cop) : list (list cop) := batches_from size [] ops.

(** ** wrapper.rs *)

(** ThreadedCopier::run_ (wrapper.rs:31-54): the batches one after the other until one has an
    error.  Batch [n] runs with the conf [ks n] and the schedule [scheds n]; where that
    schedule does not reach the end of the copy, the result is None: the copy is still
    running, or the machine stopped there.  The thread that sends the batches only waits. *)
Fixpoint run_batches {A} (ks : nat -> conf A) (scheds : nat -> list bool) (n : nat) (m : mem A) (bs : list (list cop))
  : mem A * option (res unit) :=
  match bs with
  | [] => (m, Some (Ok tt))
  | b :: r =>
      let s := run (ks n) (copy_start (ks n) m b) (scheds n) in
      match copy_result s with
      | None => (s_mem s, None)
      | Some (Ok t) =>
          match t_rerr t, t_werr t with
          | [], [] => run_batches ks scheds (Datatypes.S n) (s_mem s) r
          | _, _ => (s_mem s, Some Err)
          end
      | Some Err => (s_mem s, Some Err)
      | Some Panic => (s_mem s, Some Panic)
      end
  end.

(** The ops of copy_regions (thin/shrink.rs:48-57). *)
Definition plan_ops (remaps : list ((N * N) * N)) : list cop :=
  flat_map (fun p => map (fun q => mkop (fst q) (snd q))
    (combine (range (fst (fst p)) (snd (fst p))) (range (snd p) (snd p + (snd (fst p) - fst (fst p)))))) remaps.
(** copy_regions (thin/shrink.rs:31-63): in_file, batches of [size] (1_000_000). *)
Definition copy_regions {A} (ks : nat -> conf A) (scheds : nat -> list bool) (size : N) (m : mem A) (remaps : list ((N * N) * N)) :=
  run_batches ks scheds 0 m (batches size (plan_ops remaps)).

(** ** rescue_copier.rs: one block at a time, page by page; a device holds one value per page *)
Section Rescue.
Context {A : Type}.
Definition pmem := bool -> N -> nat -> A.
Definition pput (m : pmem) (d : bool) (b : N) (i : nat) (v : A) : pmem :=
  fun d' b' i' => if Bool.eqb d d' && (b =? b') && Nat.eqb i i' then v else m d' b' i'.

(** RescueCopier (rescue_copier.rs:18-26), the counters of transfers, and the devices. *)
Record rst := mkrc { q_mem : pmem; q_buf : nat -> A; q_nr : nat; q_nw : nat }.

(** do_read (rescue_copier.rs:81-92): pages [i], [i+1], ... of block [b]; the pages read and
    the number of failures. *)
Fixpoint rescue_read (f : faults A) (src : bool) (b : N) (i n : nat) (s : rst) : rst * list nat * nat :=
  match n with
  | O => (s, [], O)
  | Datatypes.S n' =>
      let c := q_nr s in
      if f_read f c then
        let s1 := mkrc (q_mem s) (put_buf (q_buf s) i (q_mem s src b i)) (Datatypes.S c) (q_nw s) in
        let '(s2, ok, bad) := rescue_read f src b (Datatypes.S i) n' s1 in (s2, i :: ok, bad)
      else
        let s1 := mkrc (q_mem s) (put_buf (q_buf s) i (f_rjunk f c)) (Datatypes.S c) (q_nw s) in
        let '(s2, ok, bad) := rescue_read f src b (Datatypes.S i) n' s1 in (s2, ok, Datatypes.S bad)
  end.
(** do_write (rescue_copier.rs:94-104): the selected pages. *)
Fixpoint rescue_write (f : faults A) (dst : bool) (b : N) (sel : list nat) (s : rst) : rst * nat :=
  match sel with
  | [] => (s, O)
  | i :: r =>
      let c := q_nw s in
      if f_write f c then
        rescue_write f dst b r (mkrc (pput (q_mem s) dst b i (q_buf s i)) (q_buf s) (q_nr s) (Datatypes.S c))
      else
        let '(s2, bad) := rescue_write f dst b r (mkrc (pput (q_mem s) dst b i (f_wjunk f c)) (q_buf s) (q_nr s) (Datatypes.S c)) in
        (s2, Datatypes.S bad)
  end.
(** copy (rescue_copier.rs:108-147); [pages] is block_size / PAGE_SIZE. *)
Fixpoint rescue_copy (f : faults A) (src dst : bool) (pages : nat) (ops : list cop) (s : rst) (t : cstats) : rst * cstats :=
  match ops with
  | [] => (s, t)
  | op :: r =>
      let '(s1, ok, rbad) := rescue_read f src (c_src op) 0 pages s in
      let rerr := if (0 <? rbad)%nat then t_rerr t ++ [op] else t_rerr t in
      let '(s2, wbad) := rescue_write f dst (c_dst op) ok s1 in
      let werr := if (0 <? wbad)%nat then t_werr t ++ [op] else t_werr t in
      let n := if (0 <? wbad)%nat then t_copied t else if (rbad =? 0)%nat && (wbad =? 0)%nat then t_copied t + 1 else t_copied t in
      rescue_copy f src dst pages r s2 (mkst n rerr werr)
  end.
End Rescue.
Arguments pmem : clear implicits.
Arguments rst : clear implicits.
