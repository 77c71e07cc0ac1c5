(** Model of the tools that print thin mappings: src/thin/dump.rs,
    src/thin/delta.rs, src/thin/delta_visitor.rs, src/thin/trim.rs,
    src/thin/rmap.rs, src/thin/migrate/stream.rs. *)
From Verif Require Import Base Csum_Model Codec_Model SpaceMap_Model Batcher_Model Builder_Model.

(** u64 addition, subtraction and multiplication; release builds wrap. *)
Definition wadd (a b : N) : N := (a + b) mod 2 ^ 64.
Definition wsub (a b : N) : N := (a + 2 ^ 64 - b) mod 2 ^ 64.
Definition wmul (a b : N) : N := (a * b) mod 2 ^ 64.

(** ** src/thin/ir.rs:5-65: the calls made on a MetadataVisitor, as data.
    Names of shared definitions are only ever compared for equality; they are
    numbers here (dump prints the number, dump.rs:293,347).  uuid is left out:
    it is always "" in a dump and ignored by restore. *)
Record ir_sb := mkirsb {
  is_time : N; is_transaction : N; is_flags : option N; is_version : option N;
  is_data_block_size : N; is_nr_data_blocks : N; is_metadata_snap : option N }.
Record ir_dev := mkirdev {
  id_dev : N; id_mapped : N; id_transaction : N; id_creation : N; id_snap : N }.
Record ir_map := mkmap { m_thin : N; m_data : N; m_time : N; m_len : N }.
Inductive event :=
| EvSbB (s : ir_sb) | EvSbE | EvDefB (name : N) | EvDefE | EvDevB (d : ir_dev) | EvDevE
| EvMap (m : ir_map) | EvRef (name : N) | EvEof.

(** ** src/thin/dump.rs *)

(** RunBuilder::next, complete (dump.rs:36-74): the run under construction and
    the run handed out. *)
Definition rb_next (run : option ir_map) (thin data time : N) : option ir_map * option ir_map :=
  match run with
  | None => (Some (mkmap thin data time 1), None)
  | Some m =>
      if (thin =? wadd (m_thin m) (m_len m)) && (data =? wadd (m_data m) (m_len m)) && (m_time m =? time)
      then (Some (mkmap (m_thin m) (m_data m) (m_time m) (wadd (m_len m) 1)), None)
      else (Some (mkmap thin data time 1), Some m)
  end.

(** MappingVisitor::visit (dump.rs:104-119): one leaf.  The receiving visitor
    is taken not to fail. *)
Fixpoint mv_visit (run : option ir_map) (kvs : list (N * block_time)) : option ir_map * list ir_map :=
  match kvs with
  | [] => (run, [])
  | (k, v) :: r =>
      let '(run, o) := rb_next run k (bt_block v) (bt_time v) in
      let '(run, out) := mv_visit run r in
      (run, match o with Some m => m :: out | None => out end)
  end.
(** end_walk (dump.rs:121-127) *)
Definition mv_end (run : option ir_map) : list ir_map := match run with Some m => [m] | None => [] end.

(** emit_leaf (dump.rs:224-245): the leaf's entries, or an error. *)
Definition dump_leaf (data : list N) : res (list (N * block_time)) :=
  match metadata_block_type data with
  | NODE =>
      n <- unpack_node_raw bt_codec data true true ;;
      match n with
      | Internal _ _ _ => Err
      | Leaf _ ks vs => Ok (combine ks vs)
      end
  | _ => Err
  end.

(** emit_leaves with read_for (dump.rs:247-279).  [eng b] is what reading block
    [b] gives, [None] a failure.  Reading in batches does not change the order
    in which leaves are processed, nor what is processed before a failed one. *)
Fixpoint emit_leaves_ (eng : N -> option (list N)) (run : option ir_map) (ls : list N) : list ir_map * res unit :=
  match ls with
  | [] => (mv_end run, Ok tt)
  | b :: r =>
      match eng b with
      | None => ([], Err)
      | Some data =>
          match dump_leaf data with
          | Ok kvs =>
              let '(run, out) := mv_visit run kvs in
              let '(out', x) := emit_leaves_ eng run r in (out ++ out', x)
          | Err => ([], Err)
          | Panic => ([], Panic)
          end
      end
  end.
Definition emit_leaves (eng : N -> option (list N)) (ls : list N) : list event * res unit :=
  let '(out, x) := emit_leaves_ eng None ls in (map EvMap out, x).

(** Entry (thin/metadata.rs:21-24) *)
Inductive entry := EnLeaf (b : N) | EnRef (id : N).

(** emit_entries (dump.rs:281-308); [leaves] is the pending Vec. *)
Fixpoint emit_entries_ (eng : N -> option (list N)) (leaves : list N) (es : list entry) : list event * res unit :=
  match es with
  | [] => match leaves with [] => ([], Ok tt) | _ => emit_leaves eng leaves end
  | EnLeaf b :: r => emit_entries_ eng (leaves ++ [b]) r
  | EnRef id :: r =>
      let '(o1, x) := match leaves with [] => ([], Ok tt) | _ => emit_leaves eng leaves end in
      match x with
      | Ok _ => let '(o2, y) := emit_entries_ eng [] r in (o1 ++ EvRef id :: o2, y)
      | _ => (o1, x)
      end
  end.
Definition emit_entries (eng : N -> option (list N)) (es : list entry) := emit_entries_ eng [] es.

(** ** src/thin/delta_visitor.rs:13-40 *)
Record dmap := mkdm { d_thin : N; d_data : N; d_len : N }.
Inductive delta :=
| LeftOnly (m : dmap) | RightOnly (m : dmap)
| Differ (thin left right len : N) | Same (m : dmap).

(** RunBuilder of delta.rs:23-49 *)
Definition drb_next (run : option dmap) (thin data : N) : option dmap * option dmap :=
  match run with
  | Some r =>
      if (wadd (d_thin r) (d_len r) =? thin) && (wadd (d_data r) (d_len r) =? data)
      then (Some (mkdm (d_thin r) (d_data r) (wadd (d_len r) 1)), None)
      else (Some (mkdm thin data 1), Some r)
  | None => (Some (mkdm thin data 1), None)
  end.

(** MappingRecorder and get_mappings (delta.rs:51-124): the entries the walk
    visits, in order.  (The walk itself is C54.) *)
Fixpoint record_mappings_ (run : option dmap) (kvs : list (N * block_time)) : list dmap :=
  match kvs with
  | [] => match run with Some r => [r] | None => [] end
  | (k, v) :: r =>
      let '(run, o) := drb_next run k (bt_block v) in
      match o with Some m => m :: record_mappings_ run r | None => record_mappings_ run r end
  end.
Definition record_mappings := record_mappings_ None.

(** MappingStream (delta.rs:128-169): the current mapping and those to come. *)
Definition mstream := list dmap.
Definition ms_consume (s : mstream) (len : N) : res mstream :=
  match s with
  | [] => Err
  | c :: r =>
      if d_len c <? len then Err
      else if len =? d_len c then Ok r
      else Ok (mkdm (wadd (d_thin c) len) (wadd (d_data c) len) (wsub (d_len c) len) :: r)
  end.

(** dump_delta_mappings (delta.rs:171-243), the deltas passed to the visitor.
    Each round finishes a run or splits one at the start of another. *)
Fixpoint delta_loop (fuel : nat) (ls rs : mstream) : res (list delta) :=
  match fuel with
  | O => Panic
  | S f =>
      match ls, rs with
      | [], _ => Ok (map RightOnly rs)
      | _, [] => Ok (map LeftOnly ls)
      | lm :: _, rm :: _ =>
          if d_thin lm <? d_thin rm then
            let len := N.min (d_len lm) (wsub (d_thin rm) (d_thin lm)) in
            ls' <- ms_consume ls len ;;
            out <- delta_loop f ls' rs ;;
            Ok (LeftOnly (mkdm (d_thin lm) (d_data lm) len) :: out)
          else if d_thin rm <? d_thin lm then
            let len := N.min (d_len rm) (wsub (d_thin lm) (d_thin rm)) in
            rs' <- ms_consume rs len ;;
            out <- delta_loop f ls rs' ;;
            Ok (RightOnly (mkdm (d_thin rm) (d_data rm) len) :: out)
          else if d_data lm =? d_data rm then
            let len := N.min (d_len lm) (d_len rm) in
            ls' <- ms_consume ls len ;;
            rs' <- ms_consume rs len ;;
            out <- delta_loop f ls' rs' ;;
            Ok (Same (mkdm (d_thin lm) (d_data lm) len) :: out)
          else
            let len := N.min (d_len lm) (d_len rm) in
            ls' <- ms_consume ls len ;;
            rs' <- ms_consume rs len ;;
            out <- delta_loop f ls' rs' ;;
            Ok (Differ (d_thin lm) (d_data lm) (d_data rm) len :: out)
      end
  end.
Definition dump_delta_mappings (l r : list dmap) : res (list delta) :=
  delta_loop (S (S (2 * (length l + length r)))) l r.

(** DeltaRunBuilder (delta_visitor.rs:52-108) *)
Definition merge_dm (cur r : dmap) : option dmap :=
  if d_thin r =? wadd (d_thin cur) (d_len cur)
  then Some (mkdm (d_thin cur) (d_data cur) (wadd (d_len cur) (d_len r))) else None.
Definition dlr_next (run : option delta) (d : delta) : option delta * option delta :=
  let swap := (Some d, run) in
  match run, d with
  | Some (LeftOnly cur), LeftOnly r =>
      match merge_dm cur r with Some m => (Some (LeftOnly m), None) | None => swap end
  | Some (RightOnly cur), RightOnly r =>
      match merge_dm cur r with Some m => (Some (RightOnly m), None) | None => swap end
  | Some (Differ t l rr n), Differ t' _ _ n' =>
      if t' =? wadd t n then (Some (Differ t l rr (wadd n n')), None) else swap
  | Some (Same cur), Same r =>
      match merge_dm cur r with Some m => (Some (Same m), None) | None => swap end
  | _, _ => swap
  end.
(** The deltas handed to write_delta by delta() and diff_e() of either writer
    (delta_visitor.rs:173-187, 312-330). *)
Fixpoint delta_runs_ (run : option delta) (ds : list delta) : list delta :=
  match ds with
  | [] => match run with Some d => [d] | None => [] end
  | d :: r =>
      let '(run, o) := dlr_next run d in
      match o with Some x => x :: delta_runs_ run r | None => delta_runs_ run r end
  end.
Definition delta_runs := delta_runs_ None.

(** The elements SimpleXmlWriter writes (delta_visitor.rs:124-151): tag, begin
    and length. *)
Inductive dkind := KLeft | KRight | KDiffer | KSame.
Definition simple_elem (d : delta) : dkind * N * N :=
  match d with
  | LeftOnly r => (KLeft, d_thin r, d_len r)
  | RightOnly r => (KRight, d_thin r, d_len r)
  | Differ t _ _ n => (KDiffer, t, n)
  | Same r => (KSame, d_thin r, d_len r)
  end.
(** The range elements VerboseXmlWriter writes (delta_visitor.rs:239-281), under
    the tag of their kind: begin, data begin (left and right), length. *)
Definition verbose_elem (d : delta) : dkind * N * (N * N) * N :=
  match d with
  | LeftOnly r => (KLeft, d_thin r, (d_data r, d_data r), d_len r)
  | RightOnly r => (KRight, d_thin r, (d_data r, d_data r), d_len r)
  | Differ t a b n => (KDiffer, t, (a, b), n)
  | Same r => (KSame, d_thin r, (d_data r, d_data r), d_len r)
  end.

(** thin_delta between two devices given by the entries of their mapping trees. *)
Definition thin_delta (left right : list (N * block_time)) : res (list delta) :=
  ds <- dump_delta_mappings (record_mappings left) (record_mappings right) ;; Ok (delta_runs ds).

(** ** src/thin/trim.rs *)

(** find_first_set, find_first_unset (trim.rs:45-65) *)
Definition unused (e : bitmap_entry) : bool := match e with Small n => n =? 0 | Overflow => false end.
Fixpoint find_first (f : bitmap_entry -> bool) (es : list bitmap_entry) : N :=
  match es with [] => 0 | e :: r => if f e then 0 else 1 + find_first f r end.
Definition find_first_set := find_first (fun e => negb (unused e)).
Definition find_first_unset := find_first unused.

(** RangeIterator (trim.rs:20-42): [ri_bitmap] is the unpacked bitmap. *)
Record range_iter := mkri { ri_index : N; ri_bitmap : list bitmap_entry; ri_current : N }.
Definition trim_unpack (data : list N) : res (list bitmap_entry) :=
  ' (bm, _) <- bitmap_unpack data ;; Ok (bm_entries bm).
Definition ri_new (bitmaps : list (list N)) (nr : N) : res range_iter :=
  match bitmaps with
  | [] => Err
  | b :: _ => if nlen bitmaps * ENTRIES_PER_BITMAP <? nr then Err
              else es <- trim_unpack b ;; Ok (mkri 0 es 0)
  end.

(** The two skip loops (trim.rs:78-100, 105-127), which differ in what they look
    for; [entries[offset..]] panics when there are fewer entries.  Each round
    but the last moves to a later bitmap. *)
Fixpoint ri_skip (fuel : nat) (find : list bitmap_entry -> N) (bitmaps : list (list N)) (nr : N) (s : range_iter)
  : range_iter * res unit :=
  match fuel with
  | O => (s, Panic)
  | S f =>
      let offset := ri_current s mod ENTRIES_PER_BITMAP in
      if nlen (ri_bitmap s) <? offset then (s, Panic) else
      let n := find (skipn (N.to_nat offset) (ri_bitmap s)) in
      let current := N.min (ri_current s + n) nr in
      let s := mkri (ri_index s) (ri_bitmap s) current in
      if current =? nr then (s, Ok tt)
      else
        let ie := current / ENTRIES_PER_BITMAP in
        if negb (ie =? ri_index s) then
          match nth_error bitmaps (N.to_nat ie) with
          | None => (s, Panic)
          | Some data =>
              match trim_unpack data with
              | Ok es => ri_skip f find bitmaps nr (mkri ie es current)
              | Err => (mkri (ri_index s) (ri_bitmap s) nr, Err)
              | Panic => (s, Panic)
              end
          end
        else (s, Ok tt)
  end.

(** Iterator::next (trim.rs:70-134): the range of used blocks found. *)
Definition ri_next (bitmaps : list (list N)) (nr : N) (s : range_iter) : range_iter * res (option (N * N)) :=
  let fuel := S (length bitmaps) in
  if nr <=? ri_current s then (s, Ok None) else
  match ri_skip fuel find_first_set bitmaps nr s with
  | (s, Ok _) =>
      if ri_current s =? nr then (s, Ok None) else
      let start := ri_current s in
      match ri_skip fuel find_first_unset bitmaps nr s with
      | (s, Ok _) => (s, Ok (Some (start, ri_current s)))
      | (s, Err) => (s, Err)
      | (s, Panic) => (s, Panic)
      end
  | (s, Err) => (s, Err)
  | (s, Panic) => (s, Panic)
  end.

(** The loop of trim_data_device (trim.rs:183-206).  [ioctl] says whether a
    discard of a byte range succeeds; the first component is the list of
    discards issued (byte offset and length), the failed one included. *)
Fixpoint trim_loop (fuel : nat) (ioctl : N * N -> bool) (bs nr : N) (bitmaps : list (list N))
    (last_seen : N) (s : range_iter) : list (N * N) * res unit :=
  match fuel with
  | O => ([], Panic)
  | S f =>
      match ri_next bitmaps nr s with
      | (s, Ok (Some (start, stop))) =>
          if last_seen <? start then
            let d := (wmul last_seen bs, wmul (start - last_seen) bs) in
            if ioctl d then let '(ds, x) := trim_loop f ioctl bs nr bitmaps stop s in (d :: ds, x)
            else ([d], Err)
          else trim_loop f ioctl bs nr bitmaps stop s
      | (s, Ok None) =>
          if last_seen <? nr then
            let d := (wmul last_seen bs, wmul (nr - last_seen) bs) in
            if ioctl d then ([d], Ok tt) else ([d], Err)
          else ([], Ok tt)
      | (s, Err) => ([], Err)
      | (s, Panic) => ([], Panic)
      end
  end.

(** trim_data_device (trim.rs:169-207) given the bitmaps read_bitmaps returned
    and the size of the data device in bytes.  [fuel] bounds the number of
    ranges; nr + 1 always suffices. *)
Definition trim_data_device (fuel : nat) (ioctl : N * N -> bool) (data_block_size nr file_size : N)
    (bitmaps : list (list N)) : list (N * N) * res unit :=
  let bs := wmul data_block_size 512 in
  if file_size <? wmul nr bs then ([], Err) else
  match ri_new bitmaps nr with
  | Ok s => trim_loop fuel ioctl bs nr bitmaps 0 s
  | Err => ([], Err)
  | Panic => ([], Panic)
  end.

(** read_bitmaps (trim.rs:153-167): the blocks named by the values of the index
    tree (a BTreeMap) in key order; any that cannot be read is an error. *)
Fixpoint read_bitmaps (eng : N -> option (list N)) (entries : list (N * index_entry)) : res (list (list N)) :=
  match entries with
  | [] => Ok []
  | (_, ie) :: r =>
      match eng (ie_blocknr ie) with
      | Some d => ds <- read_bitmaps eng r ;; Ok (d :: ds)
      | None => Err
      end
  end.

(** ** src/thin/rmap.rs *)

(** RmapRegion (rmap.rs:22-28) *)
Record rregion := mkrr { rr_begin : N; rr_end : N; rr_dev : N; rr_thin : N }.
(** adjacent (rmap.rs:31-51): the updated region, or None for false. *)
Definition rr_adjacent (r : rregion) (dev thin data : N) : option rregion :=
  let run_len := wsub (rr_end r) (rr_begin r) in
  if run_len =? 0 then Some (mkrr data (wadd data 1) dev thin)
  else if negb (dev =? rr_dev r) || negb (data =? rr_end r) || negb (thin =? wadd (rr_thin r) run_len)
  then None
  else Some (mkrr (rr_begin r) (wadd (rr_end r) 1) (rr_dev r) (rr_thin r)).
(** compare (rmap.rs:60-80): [lhs <= rhs] *)
Definition rr_le (a b : rregion) : bool :=
  if rr_begin a <? rr_begin b then true else if rr_begin b <? rr_begin a then false
  else if rr_end a <? rr_end b then true else if rr_end b <? rr_end a then false
  else if rr_dev a <? rr_dev b then true else if rr_dev b <? rr_dev a then false
  else rr_thin a <=? rr_thin b.
(** slice::sort_by (stable), modelled as insertion sort. *)
Fixpoint rr_insert (x : rregion) (l : list rregion) : list rregion :=
  match l with
  | [] => [x]
  | y :: r => if rr_le x y then x :: l else y :: rr_insert x r
  end.
Definition rr_sort (l : list rregion) : list rregion := fold_right rr_insert [] l.

(** in_regions (rmap.rs:120-127) *)
Definition in_regions (regions : list (N * N)) (b : N) : bool :=
  existsb (fun r => (fst r <=? b) && (b <? snd r)) regions.

(** RmapVisitor::visit (rmap.rs:146-169) over the entries of one device. *)
Fixpoint rmap_visit (regions : list (N * N)) (dev : N) (cur : rregion) (kvs : list (N * block_time))
  : rregion * list rregion :=
  match kvs with
  | [] => (cur, [])
  | (k, v) :: r =>
      if negb (in_regions regions (bt_block v)) then rmap_visit regions dev cur r
      else match rr_adjacent cur dev k (bt_block v) with
           | Some cur => rmap_visit regions dev cur r
           | None =>
               let '(c, out) := rmap_visit regions dev (mkrr (bt_block v) (wadd (bt_block v) 1) dev k) r in
               (c, cur :: out)
           end
  end.
(** The loop of rmap() (rmap.rs:222-233) and complete (129-141) over the devices
    in id order, each with the entries of the leaves the walker visits for it
    (leaves already visited for an earlier device are not visited again). *)
Fixpoint rmap_devices (regions : list (N * N)) (cur : rregion) (devs : list (N * list (N * block_time)))
  : rregion * list rregion :=
  match devs with
  | [] => (cur, [])
  | (dev, kvs) :: r =>
      let '(cur, o1) := rmap_visit regions (dev mod 2 ^ 32) cur kvs in
      let '(cur, o2) := rmap_devices regions cur r in (cur, o1 ++ o2)
  end.
Definition thin_rmap (regions : list (N * N)) (devs : list (N * list (N * block_time))) : list rregion :=
  let '(cur, out) := rmap_devices regions (mkrr 0 0 0 0) devs in
  rr_sort (if rr_begin cur <? rr_end cur then out ++ [cur] else out).

(** ** src/thin/migrate/stream.rs *)
Inductive contents := Copy | Skip.
Record chunk := mkchunk { ck_offset : N; ck_len : N; ck_contents : contents }.

(** contiguous_run (stream.rs:75-91): the mappings are those the BTreeIterator
    has still to give (C12); returns the count and what is left. *)
Fixpoint contiguous_run (begin count : N) (ks : list N) : N * list N :=
  match ks with
  | [] => (count, [])
  | k :: r => if k =? wadd begin count then contiguous_run begin (wadd count 1) r else (count, ks)
  end.
(** ThinStream::next_chunk (stream.rs:95-125) until it returns None. *)
Fixpoint thin_stream (fuel : nat) (bs current : N) (ks : list N) : res (list chunk) :=
  match fuel with
  | O => Panic
  | S f =>
      let offset := wmul current bs in
      match ks with
      | [] => Ok []
      | k :: r =>
          if k =? current then
            let '(n, rest) := contiguous_run k 1 r in
            out <- thin_stream f bs (wadd k n) rest ;;
            Ok (mkchunk offset (wmul n bs) Copy :: out)
          else
            out <- thin_stream f bs k ks ;;
            Ok (mkchunk offset (wmul (wsub k current) bs) Skip :: out)
      end
  end.
(** All the chunks of a device; every two rounds consume a mapping. *)
Definition thin_chunks (bs : N) (ks : list N) : res (list chunk) :=
  thin_stream (S (S (2 * length ks))) bs 0 ks.
