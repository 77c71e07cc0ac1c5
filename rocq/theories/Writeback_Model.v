(** cache/writeback.rs: copying the dirty blocks of a cache back to its origin, and clearing
    their dirty flags.

    The metadata device is a [disk]; [rd] says which of its blocks can be read.  The data
    devices are those of Copier_Model: [false] is the fast device and [true] the origin, a
    block of data is a list of pages.  Report texts, page alignment checks and the offsets
    of the devices are left out. *)
From Verif Require Import Base Csum_Model Codec_Model SpaceMap_Model SmWrite_Model Utils_Model Batcher_Model Builder_Model Walker_Model Array_Model Copier_Model.

(** ** RoaringBitmap: the sorted list of its members *)
Definition rb_insert := insert_block.
Definition rb_remove (x : N) (l : list N) : list N := filter (fun y => negb (y =? x)) l.
Definition rb_mem (x : N) (l : list N) : bool := existsb (N.eqb x) l.
Definition rb_union (a b : list N) : list N := fold_left (fun s x => rb_insert x s) b a.

(** btree_to_value_vec (btree_walker.rs:455-499): the values of the leaves visited, in order. *)
Definition btree_to_value_vec {V} (c : codec V) (nr : N) (eng : N -> option (list N)) (ignore_non_fatal : bool) (root : N) : res (list V) :=
  match walk c ignore_non_fatal eng (fun _ _ => true) [0] root (walker_new nr) with
  | (s, None) => Ok (flat_map (fun x => match x with CVisit _ _ _ _ vs => vs | _ => [] end) (w_log s))
  | (_, Some _) => Err
  end.

(** The metadata engine. *)
Record mdev := mkmdev { v_disk : disk; v_nw : nat }.           (* contents, writes so far *)
Record menv := mkmenv {
  e_nr : N;                                                     (* blocks of the device *)
  e_rd : N -> bool;                                             (* this block can be read *)
  e_wr : nat -> bool; e_wjunk : nat -> list N;                  (* this write succeeds; else what is left *)
  e_fresh : nat -> list N                                       (* what newly allocated memory contains *)
}.
Definition eng_of (e : menv) (d : disk) (b : N) : option (list N) := if e_rd e b then Some (d b) else None.
(** engine.write *)
Definition eng_write (e : menv) (loc : N) (data : list N) (v : mdev) : mdev * res unit :=
  if e_wr e (v_nw v) then (mkmdev (upd (v_disk v) loc data) (S (v_nw v)), Ok tt)
  else (mkmdev (upd (v_disk v) loc (e_wjunk e (v_nw v))) (S (v_nw v)), Err).

(** ** Which blocks to copy (writeback.rs:44-202) *)

(** The selectors: V1Selector, V2Selector with the dirty bits, AllSelector. *)
Inductive selector := SelV1 | SelV2 (dirty : N -> bool) | SelAll.
Definition needs_writeback (s : selector) (cblock : N) (m : cmapping) : bool :=
  match s with SelV1 => cm_dirty m | SelV2 dirty => dirty cblock | SelAll => true end.

(** MappingCounter and count_mappings (writeback.rs:108-145); the count is cast to u32. *)
Definition count_visit (p : cmapping -> bool) (n : N) (_ : N) (a : array_block cmapping) : N * bool :=
  (n + nlen (filter (fun m => cm_valid m && p m) (ab_values a)), true).
Definition count_mappings (e : menv) (d : disk) (sb : cache_sb) (p : cmapping -> bool) : res N :=
  match array_walk cm_codec true (eng_of e d) (count_visit p) (e_nr e) (cs_mapping_root sb) 0 with
  | (n, []) => Ok (n mod W32)
  | _ => Err
  end.
(** v2_read_dirty_bitset (writeback.rs:149-173) *)
Definition v2_read_dirty_bitset (e : menv) (d : disk) (sb : cache_sb) : res (N * (N -> bool)) :=
  match cs_dirty_root sb with
  | None => Panic
  | Some root =>
      match read_bitset_checked (eng_of e d) (e_nr e) root (cs_cache_blocks sb) true with
      | (f, []) =>
          let dirty i := (i <? cs_cache_blocks sb) && match f i with Some true => true | _ => false end in
          Ok (nlen (filter dirty (range 0 (cs_cache_blocks sb))), dirty)
      | _ => Err
      end
  end.
(** mk_selector (writeback.rs:178-202), with get_nr_to_writeback. *)
Definition mk_selector (e : menv) (d : disk) (sb : cache_sb) : res (N * selector) :=
  if cs_clean_shutdown sb then
    if cs_version sb =? 1 then n <- count_mappings e d sb cm_dirty ;; Ok (n, SelV1)
    else if cs_version sb =? 2 then ' (n, dirty) <- v2_read_dirty_bitset e d sb ;; Ok (n, SelV2 dirty)
    else Panic
  else n <- count_mappings e d sb (fun _ => true) ;; Ok (n, SelAll).

(** WritebackBatcher::visit (writeback.rs:230-246): the ops pushed; u32 arithmetic wraps. *)
Definition wb_visit (sel : selector) (ops : list cop) (index : N) (a : array_block cmapping) : list cop * bool :=
  let cbegin := (index * ah_max (ab_hdr a)) mod W32 in
  let cend := (cbegin + ah_nr (ab_hdr a)) mod W32 in
  (ops ++ map (fun p => mkop (snd p) (cm_oblock (fst p)))
            (filter (fun p => cm_valid (fst p) && needs_writeback sel (snd p) (fst p)) (combine (ab_values a) (range cbegin cend))), true).

(** ** The copy thread (writeback.rs:386-440) *)
Section Data.
Context {P : Type}.
(** What one call of copy did: the devices, and None if it is not over. *)
Definition call := (mem (list P) * option (res cstats))%type.
(** How the copiers of one pass behave, batch by batch: SyncCopier or RescueCopier. *)
Inductive copier :=
| CSync (ks : nat -> conf (list P)) (scheds : nat -> list bool)
| CRescue (fs : nat -> faults P) (pages : nat) (blank : P).
(** The pages of a block, and back. *)
Definition to_pages (blank : P) (m : mem (list P)) : pmem P := fun d b i => nth i (m d b) blank.
Definition of_pages (pages : nat) (m : pmem P) (d : bool) (b : N) : list P := map (m d b) (seq 0 pages).
(** One call of Copier::copy.  The rescue copier's device is one of pages; it writes only pages
    of the destinations (C30_rescue), so the other blocks are taken as they were. *)
Definition copy_call (c : copier) (n : nat) (m : mem (list P)) (ops : list cop) : call :=
  match c with
  | CSync ks scheds => let s := run (ks n) (copy_start (ks n) m ops) (scheds n) in (s_mem s, copy_result s)
  | CRescue fs pages blank =>
      let r := rescue_copy (fs n) false true pages ops (mkrc (to_pages blank m) (fun _ => blank) 0 0) (mkst 0 [] []) in
      (fun d b => if d && rb_mem b (map c_dst ops) then of_pages pages (q_mem (fst r)) d b else m d b, Some (Ok (snd r)))
  end.

(** ThreadedCopier::run_ (writeback.rs:403-439): cleaned, read_failed, write_failed. *)
Definition sets := (list N * list N * list N)%type.
Definition u32_of (b : N) : N := b mod W32.
Definition note_copied (ops : list cop) (cl : list N) : list N := fold_left (fun s o => rb_insert (u32_of (c_src o)) s) ops cl.
Definition note_failed (errs : list cop) (st : list N * list N) : list N * list N :=
  fold_left (fun st o => (rb_remove (u32_of (c_src o)) (fst st), rb_insert (u32_of (c_src o)) (snd st))) errs st.
Fixpoint copy_thread (c : copier) (n : nat) (m : mem (list P)) (bs : list (list cop)) (st : sets) : mem (list P) * option (res sets) :=
  match bs with
  | [] => (m, Some (Ok st))
  | ops :: r =>
      let '(cl, rf, wf) := st in
      let cl := note_copied ops cl in
      match copy_call c n m ops with
      | (m', None) => (m', None)
      | (m', Some (Ok t)) =>
          let '(cl, rf) := note_failed (t_rerr t) (cl, rf) in
          let '(cl, wf) := note_failed (t_werr t) (cl, wf) in
          copy_thread c (S n) m' r (cl, rf, wf)
      | (m', Some Err) => (m', Some Err)
      | (m', Some Panic) => (m', Some Panic)
      end
  end.

(** copy_all_dirty_blocks (writeback.rs:633-663), batches of [size] (1_000_000).  If the walk
    of the mappings fails, the batches sent until then are still being copied, but not the
    incomplete one. *)
Definition copy_all (e : menv) (d : disk) (sb : cache_sb) (size : N) (c : copier) (m : mem (list P))
  : mem (list P) * option (res (N * sets)) :=
  match mk_selector e d sb with
  | Ok (nr_blocks, sel) =>
      let '(ops, errs) := array_walk cm_codec true (eng_of e d) (wb_visit sel) (e_nr e) (cs_mapping_root sb) [] in
      match errs with
      | [] => match copy_thread c 0 m (batches size ops) ([], [], []) with
              | (m', Some (Ok st)) => (m', Some (Ok (nr_blocks, st)))
              | (m', Some Err) => (m', Some Err)
              | (m', Some Panic) => (m', Some Panic)
              | (m', None) => (m', None)
              end
      | _ => (fst (copy_thread c 0 m (removelast (batches size ops)) ([], [], [])), Some Err)
      end
  | Err => (m, Some Err)
  | Panic => (m, Some Panic)
  end.

(** The array block at [index], as both the copy of selected blocks and the update for
    version 1 read it (writeback.rs:468-470, 683-684). *)
Definition read_ablock (e : menv) (d : disk) (ablocks : list N) (index : N) : res (array_block cmapping) :=
  match nth_error ablocks (N.to_nat index) with
  | None => Panic
  | Some b => match eng_of e d b with None => Err | Some data => unpack_array_block cm_codec data end
  end.
(** The loop of copy_selected_blocks (writeback.rs:685-699). *)
Fixpoint selected_ops (e : menv) (d : disk) (ablocks : list N) (index : N) (a : array_block cmapping) (blocks : list N) : res (list cop) :=
  match blocks with
  | [] => Ok []
  | cblock :: r =>
      ' (index, a) <- (if cblock / array_per cm_codec =? index then Ok (index, a)
                       else a <- read_ablock e d ablocks (cblock / array_per cm_codec) ;; Ok (cblock / array_per cm_codec, a)) ;;
      match nth_error (ab_values a) (N.to_nat (cblock mod array_per cm_codec)) with
      | None => Panic
      | Some m => ops <- selected_ops e d ablocks index a r ;; Ok (mkop cblock (cm_oblock m) :: ops)
      end
  end.
(** copy_selected_blocks (writeback.rs:665-705).  After an error here the ops sent so far
    would be copied; that is left out. *)
Definition copy_selected (e : menv) (d : disk) (sb : cache_sb) (size : N) (c : copier) (blocks : list N) (m : mem (list P))
  : mem (list P) * option (res sets) :=
  match (ablocks <- btree_to_value_vec u64_codec (e_nr e) (eng_of e d) true (cs_mapping_root sb) ;;
         a <- read_ablock e d ablocks 0 ;;
         selected_ops e d ablocks 0 a blocks) with
  | Ok ops => copy_thread c 0 m (batches size ops) ([], [], [])
  | Err => (m, Some Err)
  | Panic => (m, Some Panic)
  end.

(** The retries (writeback.rs:585-621): pass [p], then the next, [more] of them. *)
Definition failed_any (st : sets) : bool := let '(_, rf, wf) := st in match rf, wf with [], [] => false | _, _ => true end.
Fixpoint retry (e : menv) (d : disk) (sb : cache_sb) (size : N) (cs : nat -> copier) (p more : nat) (m : mem (list P)) (st : sets)
  : mem (list P) * option (res sets) :=
  match more with
  | O => (m, Some (Ok st))
  | S more =>
      if failed_any st then
        let '(cl, rf, wf) := st in
        match copy_selected e d sb size (cs p) (rb_union rf wf) m with
        | (m', Some (Ok (c, rf, wf))) => retry e d sb size cs (S p) more m' (rb_union cl c, rf, wf)
        | r => r
        end
      else (m, Some (Ok st))
  end.
(** copy_dirty_blocks (writeback.rs:554-631): the first pass, one retry with simple io, then
    retry_count with the rescue copier.  The result: nr_blocks and the sets. *)
Definition copy_dirty (e : menv) (d : disk) (sb : cache_sb) (size : N) (retries : nat) (cs : nat -> copier) (m : mem (list P))
  : mem (list P) * option (res (N * sets)) :=
  match copy_all e d sb size (cs 0%nat) m with
  | (m', Some (Ok (nr_blocks, st))) =>
      match retry e d sb size cs 1 (S retries) m' st with
      | (m', Some (Ok st)) => (m', Some (Ok (nr_blocks, st)))
      | (m', Some Err) => (m', Some Err)
      | (m', Some Panic) => (m', Some Panic)
      | (m', None) => (m', None)
      end
  | r => r
  end.
End Data.
Arguments copier : clear implicits.

(** ** Updating the metadata *)

(** Packing an array block over [old] and writing it (writeback.rs:477-480, 301-309). *)
Definition write_ablock {V} (c : codec V) (e : menv) (loc : N) (old : list N) (a : array_block V) (v : mdev) : mdev * res unit :=
  match (data <- overwrite old (pack_array_block c a) ;; write_checksum data ARRAY) with
  | Ok data => eng_write e loc data v
  | Err => (v, Err)
  | Panic => (v, Panic)
  end.

(** vec[i] = f(vec[i]) *)
Fixpoint vec_update {V} (l : list V) (i : nat) (f : V -> V) : res (list V) :=
  match l, i with
  | [], _ => Panic
  | x :: r, O => Ok (f x :: r)
  | x :: r, S i => r <- vec_update r i f ;; Ok (x :: r)
  end.

(** The loop of update_v1_metadata (writeback.rs:473-499); [needs] is needs_update, [b] and
    [old] the block in hand and its contents. *)
Fixpoint v1_loop (e : menv) (ablocks : list N) (index b : N) (old : list N) (a : array_block cmapping) (needs : bool) (cleaned : list N) (v : mdev)
  : mdev * res unit :=
  match cleaned with
  | [] => if needs then write_ablock cm_codec e b old a v else (v, Ok tt)
  | cblock :: r =>
      let i := cblock / array_per cm_codec in
      let clear v b old a :=
        match vec_update (ab_values a) (N.to_nat (cblock mod array_per cm_codec)) (fun m => cm_set_dirty m false) with
        | Ok vs => v1_loop e ablocks i b old (mkab (ab_hdr a) vs) true r v
        | _ => (v, Panic)
        end in
      if i =? index then clear v b old a
      else
        let '(v, w) := if needs then write_ablock cm_codec e b old a v else (v, Ok tt) in
        match w with
        | Ok _ =>
            match nth_error ablocks (N.to_nat i) with
            | None => (v, Panic)
            | Some b => match eng_of e (v_disk v) b with
                        | None => (v, Err)
                        | Some data => match unpack_array_block cm_codec data with
                                       | Ok a => clear v b data a
                                       | Err => (v, Err)
                                       | Panic => (v, Panic)
                                       end
                        end
            end
        | w => (v, w)
        end
  end.
(** update_v1_metadata (writeback.rs:458-502) *)
Definition update_v1 (e : menv) (sb : cache_sb) (cleaned : list N) (v : mdev) : mdev * res unit :=
  match btree_to_value_vec u64_codec (e_nr e) (eng_of e (v_disk v)) true (cs_mapping_root sb) with
  | Ok ablocks =>
      match nth_error ablocks 0 with
      | None => (v, Panic)
      | Some b => match eng_of e (v_disk v) b with
                  | None => (v, Err)
                  | Some data => match unpack_array_block cm_codec data with
                                 | Ok a => v1_loop e ablocks 0 b data a false cleaned v
                                 | Err => (v, Err)
                                 | Panic => (v, Panic)
                                 end
                  end
      end
  | Err => (v, Err)
  | Panic => (v, Panic)
  end.

(** BitBlock (writeback.rs:253-257) *)
Record bitblock := mkbb { bb_index : N; bb_begin : N; bb_block : array_block N }.
(** read_bits (writeback.rs:289-299) *)
Definition read_bits (e : menv) (bitmaps : list N) (d : disk) (index begin : N) : res bitblock :=
  match nth_error bitmaps (N.to_nat index) with
  | None => Panic
  | Some b => match eng_of e d b with
              | None => Err
              | Some data => a <- unpack_array_block u64_codec data ;; Ok (mkbb index begin a)
              end
  end.
(** write_bits (writeback.rs:301-309): into a new block, whose memory Block::new
    (io_engine/base.rs:25-31) does not initialise. *)
Definition write_bits (e : menv) (bitmaps : list N) (bb : bitblock) (v : mdev) : mdev * res unit :=
  match nth_error bitmaps (N.to_nat (bb_index bb)) with
  | None => (v, Panic)
  | Some b => write_ablock u64_codec e b (e_fresh e (v_nw v)) (bb_block bb) v
  end.
Definition bb_end (bb : bitblock) : N := bb_begin bb + nlen (ab_values (bb_block bb)) * 64.
(** get_bitmap and next_bitmap (writeback.rs:311-337): at most one block more than there are. *)
Fixpoint get_bitmap (fuel : nat) (e : menv) (bitmaps : list N) (bit : N) (cur : option bitblock) (v : mdev) : mdev * res bitblock :=
  let next fuel :=
    match cur with
    | Some bb =>
        match write_bits e bitmaps bb v with
        | (v, Ok _) => match read_bits e bitmaps (v_disk v) (bb_index bb + 1) (bb_end bb) with
                       | Ok bb' => get_bitmap fuel e bitmaps bit (Some bb') v
                       | Err => (v, Err)
                       | Panic => (v, Panic)
                       end
        | (v, Err) => (v, Err)
        | (v, Panic) => (v, Panic)
        end
    | None => match read_bits e bitmaps (v_disk v) 0 0 with
              | Ok bb' => get_bitmap fuel e bitmaps bit (Some bb') v
              | Err => (v, Err)
              | Panic => (v, Panic)
              end
    end in
  match cur with
  | Some bb => if (bb_begin bb <=? bit) && (bit <? bb_end bb) then (v, Ok bb)
               else match fuel with O => (v, Panic) | S fuel => next fuel end
  | None => match fuel with O => (v, Panic) | S fuel => next fuel end
  end.
(** The loop of update_v2_metadata (writeback.rs:514-517) with set_bit (:342-365) to false;
    set_bit's assertion that the bits do not decrease holds of a RoaringBitmap's members. *)
Fixpoint v2_loop (e : menv) (bitmaps : list N) (cur : option bitblock) (cleaned : list N) (v : mdev) : mdev * res unit :=
  match cleaned with
  | [] => match cur with None => (v, Ok tt) | Some bb => write_bits e bitmaps bb v end
  | b :: r =>
      match get_bitmap (S (length bitmaps)) e bitmaps b cur v with
      | (v, Ok bb) =>
          if negb (bb_begin bb mod 64 =? 0) then (v, Panic)
          else match vec_update (ab_values (bb_block bb)) (N.to_nat ((b - bb_begin bb) / 64)) (fun w => N.land w (N.lxor (W64 - 1) (N.shiftl 1 (b mod 64)))) with
               | Ok ws => v2_loop e bitmaps (Some (mkbb (bb_index bb) (bb_begin bb) (mkab (ab_hdr (bb_block bb)) ws))) r v
               | _ => (v, Panic)
               end
      | (v, Err) => (v, Err)
      | (v, Panic) => (v, Panic)
      end
  end.
(** update_v2_metadata (writeback.rs:504-520) with BitsetUpdater::new (:268-287) *)
Fixpoint indexes_ok (i : N) (m : list (N * N)) : bool :=
  match m with [] => true | (k, _) :: r => (i =? k) && indexes_ok (i + 1) r end.
Definition update_v2 (e : menv) (sb : cache_sb) (cleaned : list N) (v : mdev) : mdev * res unit :=
  match cs_dirty_root sb with
  | None => (v, Panic)
  | Some root =>
      match btree_to_map u64_codec (e_nr e) (eng_of e (v_disk v)) true root with
      | Ok m => if indexes_ok 0 m then v2_loop e (map snd m) None cleaned v else (v, Err)
      | Err => (v, Err)
      | Panic => (v, Panic)
      end
  end.
(** update_metadata (writeback.rs:445-456) *)
Definition update_metadata (e : menv) (sb : cache_sb) (cleaned : list N) (v : mdev) : mdev * res unit :=
  if cs_version sb =? 1 then update_v1 e sb cleaned v
  else if cs_version sb =? 2 then update_v2 e sb cleaned v
  else (v, Err).

(** writeback (writeback.rs:719-756) *)
Definition writeback {P} (e : menv) (update : bool) (size : N) (retries : nat) (cs : nat -> copier P) (d : disk) (m : mem (list P))
  : mem (list P) * mdev * option (res unit) :=
  let v := mkmdev d 0 in
  match (match eng_of e d 0 with None => Err | Some _ => cache_read_superblock d 0 end) with
  | Ok sb =>
      if 2 <? cs_version sb then (m, v, Some Err)
      else
        match copy_dirty e d sb size retries cs m with
        | (m', None) => (m', v, None)
        | (m', Some (Ok (nr_blocks, (cleaned, rf, wf)))) =>
            let '(v, u) := if update then update_metadata e sb cleaned v else (v, Ok tt) in
            match u with
            | Ok _ => (m', v, Some (if nlen cleaned =? nr_blocks then Ok tt else Err))
            | u => (m', v, Some u)
            end
        | (m', Some Err) => (m', v, Some Err)
        | (m', Some Panic) => (m', v, Some Panic)
        end
  | Err => (m, v, Some Err)
  | Panic => (m, v, Some Panic)
  end.
