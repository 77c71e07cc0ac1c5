(** Writing space maps: pdata/space_map/common.rs (from line 196), disk.rs, metadata.rs. *)
From Verif Require Import Base Csum_Model Codec_Model SpaceMap_Model Batcher_Model Builder_Model.

(** write_bitmap (common.rs:357-370) *)
Definition write_bitmap (es : list bitmap_entry) : st wb N :=
  b <~ wb_alloc_zeroed ;;
  packed <~ lift (bitmap_pack (mkbitmap (b_loc b) es)) ;;
  data <~ lift (overwrite (b_data b) packed) ;;
  _ <~ wb_write (mkblock (b_loc b) data) BITMAP ;;
  ret (b_loc b).

(** The state while a space map is written: the batcher and the builder of the tree of the
    counts above 2. *)
Definition ost := (wb * nbuilder N unit)%type.
Definition push_overflow (b rc : N) : st ost unit := push_value u32_codec (leaf_io N) false noop_inc b rc.
(** overflow_builder.complete(w) *)
Definition complete_overflow : st ost N :=
  ns <~ nb_complete u32_codec (leaf_io N) false noop_inc ;; onw (build_btree ns).
Definition with_overflow {A} (m : st ost A) : st wb A := fun w => let '((w', _), r) := m (w, nb_new tt) in (w', r).

(** The loop over the entries of one bitmap (common.rs:218-243).  [acc]: the entries so far,
    last first, first_free and nr_free. *)
Definition scan := (list bitmap_entry * option N * N)%type.
Fixpoint wc_entries (sm : core_sm) (begin : N) (is : list N) (acc : scan) : st ost scan :=
  match is with
  | [] => ret acc
  | i :: r =>
      let '(es, ff, nf) := acc in
      rc <~ lift (sm_get sm (begin + i)) ;;
      acc <~ (if rc =? 0 then ret (Small 0 :: es, match ff with None => Some i | _ => ff end, nf)
              else if rc =? 1 then ret (Small 1 :: es, ff, nf - 1)
              else if rc =? 2 then ret (Small 2 :: es, ff, nf - 1)
              else _ <~ push_overflow (begin + i) rc ;; ret (Overflow :: es, ff, nf - 1)) ;;
      wc_entries sm begin r acc
  end.
(** One bitmap (common.rs:210-255) *)
Definition wc_bitmap (sm : core_sm) (bm : N) : st ost index_entry :=
  let begin := bm * ENTRIES_PER_BITMAP in
  let len := N.min (sm_nr sm - begin) ENTRIES_PER_BITMAP in
  acc <~ wc_entries sm begin (range 0 len) ([], None, ENTRIES_PER_BITMAP) ;;
  let '(es, ff, nf) := acc in
  loc <~ onw (write_bitmap (rev es)) ;;
  ret (mkie loc nf (match ff with Some i => i | None => len end)).
Fixpoint wc_bitmaps (sm : core_sm) (bms : list N) : st ost (list index_entry) :=
  match bms with
  | [] => ret []
  | bm :: r => ie <~ wc_bitmap sm bm ;; ies <~ wc_bitmaps sm r ;; ret (ie :: ies)
  end.
(** write_common (common.rs:196-260) *)
Definition write_common (sm : core_sm) : st wb (list index_entry * N) :=
  with_overflow
    (ies <~ wc_bitmaps sm (range 0 (div_up (sm_nr sm) ENTRIES_PER_BITMAP)) ;;
     root <~ complete_overflow ;;
     ret (ies, root)).

(** write_disk_sm (disk.rs:10-27) *)
Definition write_disk_sm (sm : core_sm) : st wb sm_root :=
  ' (ies, rc_root) <~ write_common sm ;;
  ' (root, _) <~ btree_build ie_codec noop_inc
                   (map (fun kv => PushValue (fst kv) (snd kv)) (combine (range 0 (nlen ies)) ies)) tt ;;
  _ <~ wb_flush ;;
  ret (mksmroot (sm_nr sm) (sm_nalloc sm) root rc_root).

(** ** The metadata space map *)
(** The RangeSet of allocations (write_batcher.rs:25): maximal ranges (start, end) in order. *)
Fixpoint insert_block (b : N) (l : list N) : list N :=
  match l with
  | [] => [b]
  | x :: r => if b <? x then b :: l else if b =? x then l else x :: insert_block b r
  end.
Definition sorted_blocks (l : list N) : list N := fold_right insert_block [] l.
Fixpoint merge_blocks (l : list N) : list (N * N) :=
  match l with
  | [] => []
  | b :: r => match merge_blocks r with
              | (s, e) :: rs => if b + 1 =? s then (b, e) :: rs else (b, b + 1) :: (s, e) :: rs
              | [] => [(b, b + 1)]
              end
  end.
Definition alloc_ranges (l : list N) : list (N * N) := merge_blocks (sorted_blocks l).

(** bm, nr_free, none_free_before, entries and index_entries of write_metadata_common
    (common.rs:266-273).  The vector [entries] always has 16320 elements when it is used; it
    is a function here.  [mc_out]: last first. *)
Record mcst := mkmc { mc_bm : N; mc_free : N; mc_nfb : N; mc_es : N -> bitmap_entry; mc_out : list index_entry }.
Definition no_entries : N -> bitmap_entry := fun _ => Small 0.
Definition mc_write (s : mcst) : st ost (list index_entry) :=
  loc <~ onw (write_bitmap (map (mc_es s) (range 0 ENTRIES_PER_BITMAP))) ;;
  ret (mkie loc (mc_free s) (mc_nfb s) :: mc_out s).
(** one block (common.rs:279-331) *)
Definition mc_block (b : N) (s : mcst) : st ost mcst :=
  s <~ (if negb (b / ENTRIES_PER_BITMAP =? mc_bm s)
        then out <~ mc_write s ;; ret (mkmc (b / ENTRIES_PER_BITMAP) ENTRIES_PER_BITMAP 0 no_entries out)
        else ret s) ;;
  rc <~ onw (fun w => (w, sm_get (wb_sm w) b)) ;;
  let i := b mod ENTRIES_PER_BITMAP in
  let nfb := if i =? mc_nfb s then i + 1 else mc_nfb s in
  if rc =? 0 then ret (mkmc (mc_bm s) (mc_free s) (mc_nfb s) (upd (mc_es s) i (Small 0)) (mc_out s))
  else if (rc =? 1) || (rc =? 2) then ret (mkmc (mc_bm s) (mc_free s - 1) nfb (upd (mc_es s) i (Small rc)) (mc_out s))
  else _ <~ push_overflow b rc ;; ret (mkmc (mc_bm s) (mc_free s - 1) nfb (upd (mc_es s) i Overflow) (mc_out s)).
Fixpoint mc_blocks (bs : list N) (s : mcst) : st ost mcst :=
  match bs with [] => ret s | b :: r => s <~ mc_block b s ;; mc_blocks r s end.
(** for _bm in nr_used_bitmaps..nr_bitmaps (common.rs:341-352) *)
Fixpoint mc_rest (k : nat) : st ost (list index_entry) :=
  match k with
  | O => ret []
  | S k =>
      loc <~ onw (write_bitmap (repeat (Small 0) (N.to_nat ENTRIES_PER_BITMAP))) ;;
      r <~ mc_rest k ;;
      ret (mkie loc ENTRIES_PER_BITMAP 0 :: r)
  end.
(** write_metadata_common (common.rs:262-355) *)
Definition write_metadata_common : st wb (list index_entry * N) :=
  with_overflow
    (al <~ onw wb_clear_allocations ;;
     s <~ mc_blocks (flat_map (fun r => range (fst r) (snd r)) (alloc_ranges al)) (mkmc 0 ENTRIES_PER_BITMAP 0 no_entries []) ;;
     out <~ mc_write s ;;
     nr <~ onw (fun w => (w, Ok (sm_nr (wb_sm w)))) ;;
     more <~ mc_rest (N.to_nat (div_up nr ENTRIES_PER_BITMAP) - length out) ;;
     root <~ complete_overflow ;;
     ret (rev out ++ more, root)).

(** adjust_counts (metadata.rs:104-139); u32 arithmetic wraps in a release build.
    [bitmap.entries[a] = Small(1)] panics out of range. *)
Fixpoint set_entries (es : list bitmap_entry) (as_ : list N) (ff : N) : res (list bitmap_entry * N) :=
  match as_ with
  | [] => Ok (es, ff)
  | a :: r =>
      let ff := if ff =? a mod W32 then a mod W32 + 1 else ff in
      if nlen es <=? a then Panic
      else set_entries (firstn (N.to_nat a) es ++ Small 1 :: skipn (S (N.to_nat a)) es) r ff
  end.
Definition adjust_counts (ie : index_entry) (begin e : N) : st wb index_entry :=
  let nr_free := (ie_nr_free ie + W32 - (e - begin) mod W32) mod W32 in
  b <~ wb_read (ie_blocknr ie) ;;
  ' (bm, _) <~ lift (bitmap_unpack (b_data b)) ;;
  ' (es, ff) <~ lift (set_entries (bm_entries bm) (range begin e) (ie_none_free_before ie)) ;;
  packed <~ lift (bitmap_pack (mkbitmap (bm_blocknr bm) es)) ;;
  data <~ lift (overwrite (b_data b) packed) ;;
  _ <~ wb_write (mkblock (b_loc b) data) BITMAP ;;
  ret (mkie (ie_blocknr ie) nr_free ff).
(** the inner loop of write_metadata_sm (metadata.rs:158-170), over the entries [ies] from
    number [bm] on *)
Fixpoint adjust_range (rs re : N) (bm : N) (ies : list index_entry) : st wb (list index_entry) :=
  match ies with
  | [] => ret []
  | ie :: r =>
      let bi_begin := rs / ENTRIES_PER_BITMAP in
      let bi_end := re / ENTRIES_PER_BITMAP + 1 in
      ie <~ (if (bi_begin <=? bm) && (bm <? bi_end)
             then adjust_counts ie (if bm =? bi_begin then rs mod ENTRIES_PER_BITMAP else 0)
                                   (if bm =? bi_end - 1 then re mod ENTRIES_PER_BITMAP else ENTRIES_PER_BITMAP)
             else ret ie) ;;
      r <~ adjust_range rs re (bm + 1) r ;;
      ret (ie :: r)
  end.
Fixpoint adjust_ranges (rs : list (N * N)) (ies : list index_entry) : st wb (list index_entry) :=
  match rs with
  | [] => ret ies
  | (s, e) :: r => ies <~ adjust_range s e 0 ies ;; adjust_ranges r ies
  end.
(** write_metadata_sm (metadata.rs:150-192) *)
Definition write_metadata_sm : st wb sm_root :=
  ' (ies, rc_root) <~ write_metadata_common ;;
  b <~ wb_alloc_zeroed ;;
  al <~ wb_clear_allocations ;;
  ies <~ adjust_ranges (alloc_ranges al) ies ;;
  packed <~ lift (mi_pack (mkmi (b_loc b) ies)) ;;
  data <~ lift (overwrite (b_data b) packed) ;;
  _ <~ wb_write (mkblock (b_loc b) data) INDEX ;;
  _ <~ wb_flush ;;
  fun w => (w, Ok (mksmroot (sm_nr (wb_sm w)) (sm_nalloc (wb_sm w)) (b_loc b) rc_root)).

(** core_metadata_sm (metadata.rs:143-148) *)
Definition core_metadata_sm (nr_blocks max_count : N) : core_sm :=
  core_sm_for (N.min nr_blocks (N.of_nat MAX_METADATA_BITMAPS * ENTRIES_PER_BITMAP)) max_count.
