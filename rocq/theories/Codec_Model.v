(** Model of the on-disk record codecs: fixed-size records, B-tree nodes,
    bitmaps, metadata index blocks and the three superblocks.

    A block's data is a list of 4096 bytes (numbers below 256).  Integers of
    Rust types uN are modelled as [N]; every place where the release build
    wraps is written out with [mod].  A nom parser is a function from the
    remaining input to [res (value * remaining input)]; [Err] is nom's error,
    [Panic] a Rust panic. *)
From Verif Require Import Base Csum_Model.

(** nom::number::complete::le_uN and nom::bytes::complete::take
    (external crate): fail when fewer bytes remain. *)
Definition p_take (n : nat) (i : list N) : res (list N * list N) :=
  if Nat.ltb (length i) n then Err else Ok (firstn n i, skipn n i).
Definition p_le (n : nat) (i : list N) : res (N * list N) :=
  ' (a, i) <- p_take n i ;; Ok (le_dec a, i).
Definition p_u32 := p_le 4.
Definition p_u64 := p_le 8.

(** nom::multi::count (external crate). *)
Fixpoint p_count {A} (p : list N -> res (A * list N)) (n : nat) (i : list N)
  : res (list A * list N) :=
  match n with
  | O => Ok ([], i)
  | S n' => ' (a, i) <- p i ;;
            ' (r, i) <- p_count p n' i ;;
            Ok (a :: r, i)
  end.

(** pdata/unpack.rs:7-26, the traits Unpack and Pack.  [csize] is
    [disk_size()].  None of the fixed-size [pack]s fails on its own: the only
    error is running out of room in the writer, which is modelled where the
    writer is ([to_block]). *)
Record codec (V : Type) := mkcodec {
  csize : nat;
  cpack : V -> list N;
  cunpack : list N -> res (V * list N) }.
Arguments mkcodec {V} csize cpack cunpack.
Arguments csize {V} c.
Arguments cpack {V} c _.
Arguments cunpack {V} c _.

(** pdata/unpack.rs:30-44 *)
Definition u64_codec : codec N := mkcodec 8 (le_enc 8) p_u64.
(** pdata/unpack.rs:46-60 *)
Definition u32_codec : codec N := mkcodec 4 (le_enc 4) p_u32.

Definition W64 : N := 18446744073709551616.
Definition W32 : N := 4294967296.

(** thin/block_time.rs:10-41.  [<<] on u64 drops the bits shifted out. *)
Record block_time := mkbt { bt_block : N; bt_time : N }.
Definition bt_pack (b : block_time) : list N :=
  le_enc 8 (N.lor (N.shiftl (bt_block b) 24 mod W64) (bt_time b)).
Definition bt_unpack (i : list N) : res (block_time * list N) :=
  ' (n, i) <- p_u64 i ;;
  Ok (mkbt (N.shiftr n 24) (N.land n (N.shiftl 1 24 - 1)), i).
Definition bt_codec : codec block_time := mkcodec 8 bt_pack bt_unpack.

(** thin/device_detail.rs:10-59 *)
Record device_detail := mkdd {
  dd_mapped : N; dd_tid : N; dd_ctime : N; dd_stime : N }.
Definition dd_pack (d : device_detail) : list N :=
  le_enc 8 (dd_mapped d) ++ le_enc 8 (dd_tid d) ++ le_enc 4 (dd_ctime d) ++ le_enc 4 (dd_stime d).
Definition dd_unpack (i : list N) : res (device_detail * list N) :=
  ' (m, i) <- p_u64 i ;; ' (t, i) <- p_u64 i ;;
  ' (c, i) <- p_u32 i ;; ' (s, i) <- p_u32 i ;;
  Ok (mkdd m t c s, i).
Definition dd_codec : codec device_detail := mkcodec 24 dd_pack dd_unpack.

(** pdata/space_map/common.rs:21-55 *)
Record index_entry := mkie { ie_blocknr : N; ie_nr_free : N; ie_none_free_before : N }.
Definition ie_pack (e : index_entry) : list N :=
  le_enc 8 (ie_blocknr e) ++ le_enc 4 (ie_nr_free e) ++ le_enc 4 (ie_none_free_before e).
Definition ie_unpack (i : list N) : res (index_entry * list N) :=
  ' (b, i) <- p_u64 i ;; ' (f, i) <- p_u32 i ;; ' (n, i) <- p_u32 i ;;
  Ok (mkie b f n, i).
Definition ie_codec : codec index_entry := mkcodec 16 ie_pack ie_unpack.

(** pdata/space_map/common.rs:147-185 *)
Record sm_root := mksmroot {
  sr_nr_blocks : N; sr_nr_allocated : N; sr_bitmap_root : N; sr_ref_count_root : N }.
Definition smroot_pack (r : sm_root) : list N :=
  le_enc 8 (sr_nr_blocks r) ++ le_enc 8 (sr_nr_allocated r) ++
  le_enc 8 (sr_bitmap_root r) ++ le_enc 8 (sr_ref_count_root r).
Definition smroot_unpack (i : list N) : res (sm_root * list N) :=
  ' (a, i) <- p_u64 i ;; ' (b, i) <- p_u64 i ;;
  ' (c, i) <- p_u64 i ;; ' (d, i) <- p_u64 i ;;
  Ok (mksmroot a b c d, i).
Definition smroot_codec : codec sm_root := mkcodec 32 smroot_pack smroot_unpack.

(** Writing [l] through a std::io::Cursor over the buffer [old]: the rest keeps
    its old contents; running off the end is an io::Error (WriteZero). *)
Definition overwrite (old l : list N) : res (list N) :=
  if Nat.leb (length l) (length old) then Ok (l ++ skipn (length l) old) else Err.
(** The same into a zeroed buffer of [n] bytes / a zeroed block
    (io_engine/base.rs:33-37). *)
Definition to_buf (n : nat) (l : list N) : res (list N) := overwrite (repeat 0 n) l.
Definition to_block (l : list N) : res (list N) := to_buf BLOCK_SIZE l.

(** pdata/space_map/common.rs:187-192 *)
Definition pack_root (r : sm_root) (size : nat) : res (list N) := to_buf size (smroot_pack r).

(** era/writeset.rs:9-32 *)
Record writeset := mkws { ws_nr_bits : N; ws_root : N }.
Definition ws_pack (w : writeset) : list N := le_enc 4 (ws_nr_bits w) ++ le_enc 8 (ws_root w).
Definition ws_unpack (i : list N) : res (writeset * list N) :=
  ' (n, i) <- p_u32 i ;; ' (r, i) <- p_u64 i ;; Ok (mkws n r, i).
Definition ws_codec : codec writeset := mkcodec 12 ws_pack ws_unpack.

(** cache/mapping.rs:10-69 *)
Record cmapping := mkcm { cm_oblock : N; cm_flags : N }.
Definition cm_pack (m : cmapping) : list N :=
  le_enc 8 (N.lor (N.shiftl (cm_oblock m) 16 mod W64) (cm_flags m)).
Definition cm_unpack (i : list N) : res (cmapping * list N) :=
  ' (n, i) <- p_u64 i ;;
  Ok (mkcm (N.shiftr n 16) (N.land n (N.shiftl 1 16 - 1)), i).
Definition cm_codec : codec cmapping := mkcodec 8 cm_pack cm_unpack.
(** cache/mapping.rs:26-42; the flags are Valid = 1, Dirty = 2. *)
Definition cm_valid (m : cmapping) : bool := negb (N.land (cm_flags m) 1 =? 0).
Definition cm_dirty (m : cmapping) : bool := negb (N.land (cm_flags m) 2 =? 0).
Definition cm_set_dirty (m : cmapping) (d : bool) : cmapping :=
  mkcm (cm_oblock m)
    (if d then N.lor (cm_flags m) 2 else N.land (cm_flags m) (N.lxor (W32 - 1) 2)).

(** cache/hint.rs:10-38.  Slicing a short input panics. *)
Definition hint_unpack (i : list N) : res (list N * list N) :=
  if Nat.ltb (length i) 4 then Panic else Ok (firstn 4 i, skipn 4 i).
Definition hint_codec : codec (list N) := mkcodec 4 (fun h => h) hint_unpack.

(** ** B-tree nodes *)

(** pdata/btree.rs:20-33 *)
Definition NODE_HEADER_SIZE : N := 32.
Definition INTERNAL_NODE : N := 1.
Definition LEAF_NODE : N := 2.
Record node_header := mknh {
  nh_block : N; nh_is_leaf : bool; nh_nr_entries : N; nh_max_entries : N; nh_value_size : N }.

(** pdata/btree.rs:35-60 *)
Definition nh_unpack (i : list N) : res (node_header * list N) :=
  ' (_, i) <- p_u32 i ;;
  ' (flags, i) <- p_u32 i ;;
  ' (block, i) <- p_u64 i ;;
  ' (nr_entries, i) <- p_u32 i ;;
  ' (max_entries, i) <- p_u32 i ;;
  ' (value_size, i) <- p_u32 i ;;
  ' (_, i) <- p_u32 i ;;
  Ok (mknh block (flags =? LEAF_NODE) nr_entries max_entries value_size, i).

(** pdata/btree.rs:62-79 *)
Definition nh_pack (h : node_header) : list N :=
  le_enc 4 0 ++ le_enc 4 (if nh_is_leaf h then LEAF_NODE else INTERNAL_NODE) ++
  le_enc 8 (nh_block h) ++ le_enc 4 (nh_nr_entries h) ++ le_enc 4 (nh_max_entries h) ++
  le_enc 4 (nh_value_size h) ++ le_enc 4 0.

(** pdata/btree.rs:81-123 *)
Inductive node (V : Type) :=
| Internal (h : node_header) (keys : list N) (values : list N)
| Leaf (h : node_header) (keys : list N) (values : list V).
Arguments Internal {V} h keys values.
Arguments Leaf {V} h keys values.
Definition get_header {V} (n : node V) : node_header :=
  match n with Internal h _ _ => h | Leaf h _ _ => h end.
Definition get_keys {V} (n : node V) : list N :=
  match n with Internal _ ks _ => ks | Leaf _ ks _ => ks end.

(** pdata/btree.rs:179-188, the loop over the keys. *)
Fixpoint keys_ordered (last : option N) (keys : list N) : bool :=
  match keys with
  | [] => true
  | k :: r =>
      match last with
      | Some l => if k <=? l then false else keys_ordered (Some k) r
      | None => keys_ordered (Some k) r
      end
  end.

(** pdata/btree.rs:142-209.  [value_size + 8] is a u32 addition, which wraps
    in a release build.  The various NodeErrors are all [Err]. *)
Definition unpack_node_raw {V} (c : codec V) (data : list N)
    (ignore_non_fatal is_root : bool) : res (node V) :=
  ' (i, header) <- (' (h, i) <- nh_unpack data ;; Ok (i, h)) ;;
  if nh_is_leaf header && negb (nh_value_size header =? N.of_nat (csize c)) then Err else
  let elt_size := (nh_value_size header + 8) mod W32 in
  if 4096 <? elt_size * nh_max_entries header + NODE_HEADER_SIZE then Err else
  if nh_max_entries header <? nh_nr_entries header then Err else
  if negb ignore_non_fatal && negb (nh_max_entries header mod 3 =? 0) then Err else
  if negb ignore_non_fatal && negb is_root &&
     (nh_nr_entries header <? nh_max_entries header / 3) then Err else
  ' (keys, i) <- p_count p_u64 (N.to_nat (nh_nr_entries header)) i ;;
  if negb (keys_ordered None keys) then Err else
  let nr_free := nh_max_entries header - nh_nr_entries header in
  ' (_, i) <- p_count p_u64 (N.to_nat nr_free) i ;;
  if nh_is_leaf header then
    ' (values, _) <- p_count (cunpack c) (N.to_nat (nh_nr_entries header)) i ;;
    Ok (Leaf header keys values)
  else
    ' (values, _) <- p_count p_u64 (N.to_nat (nh_nr_entries header)) i ;;
    Ok (Internal header keys values).

(** pdata/btree.rs:212-255: the bytes written; [keys.len()..max_entries] is
    empty when there are too many keys. *)
Definition pack_node {V} (c : codec V) (n : node V) : list N :=
  match n with
  | Internal h keys values =>
      nh_pack h ++ concat (map (le_enc 8) keys) ++
      concat (map (le_enc 8) (repeat 0 (N.to_nat (nh_max_entries h) - length keys))) ++
      concat (map (le_enc 8) values)
  | Leaf h keys values =>
      nh_pack h ++ concat (map (le_enc 8) keys) ++
      concat (map (le_enc 8) (repeat 0 (N.to_nat (nh_max_entries h) - length keys))) ++
      concat (map (cpack c) values)
  end.

(** pdata/btree_builder.rs:95-108 with write_batcher.rs:82-83: the data of the
    block that [write_node_] hands to the queue.  The buffer comes from
    [WriteBatcher::alloc], i.e. Block::new, so its old contents [old] are
    arbitrary. *)
Definition node_block {V} (c : codec V) (old : list N) (n : node V) : res (list N) :=
  b <- overwrite old (pack_node c n) ;; write_checksum b NODE.

(** pdata/btree.rs:259-263 *)
Definition calc_max_entries {V} (c : codec V) : N :=
  let elt_size := 8 + N.of_nat (csize c) in
  let total := (4096 - 32) / elt_size in
  total / 3 * 3.

(** A block in memory, io_engine/base.rs:14-17: location and data. *)
Record block := mkblock { b_loc : N; b_data : list N }.

(** pdata/btree.rs:266-288 *)
Definition check_and_unpack_node {V} (c : codec V) (b : block)
    (ignore_non_fatal is_root : bool) : res (node V) :=
  match metadata_block_type (b_data b) with
  | NODE =>
      n <- unpack_node_raw c (b_data b) ignore_non_fatal is_root ;;
      if negb (nh_block (get_header n) =? b_loc b) then Err else Ok n
  | _ => Err
  end.

(** ** Space-map bitmaps, pdata/space_map/common.rs:15-17,59-143 *)
Definition WORDS_PER_BITMAP : nat := N.to_nat 510.
Definition ENTRIES_PER_BITMAP : N := 16320.

Inductive bitmap_entry := Small (n : N) | Overflow.
Record bitmap := mkbitmap { bm_blocknr : N; bm_entries : list bitmap_entry }.

(** common.rs:93-98 *)
Definition entry_of_bits (v : N) : bitmap_entry :=
  match v with 0 => Small 0 | 1 => Small 2 | 2 => Small 1 | _ => Overflow end.

(** common.rs:87-99, the inner loop over one word. *)
Fixpoint word_entries (n : nat) (word : N) : list bitmap_entry :=
  match n with
  | O => []
  | S n' => entry_of_bits (N.land word 3) :: word_entries n' (N.shiftr word 2)
  end.

Fixpoint bitmap_words (n : nat) (i : list N) : res (list bitmap_entry * list N) :=
  match n with
  | O => Ok ([], i)
  | S n' => ' (w, i) <- p_u64 i ;;
            ' (r, i) <- bitmap_words n' i ;;
            Ok (word_entries 32 w ++ r, i)
  end.

(** common.rs:76-105 *)
Definition bitmap_unpack (i : list N) : res (bitmap * list N) :=
  ' (_, i) <- p_u32 i ;;
  ' (_, i) <- p_u32 i ;;
  ' (blocknr, i) <- p_u64 i ;;
  ' (entries, i) <- bitmap_words WORDS_PER_BITMAP i ;;
  Ok (mkbitmap blocknr entries, i).

(** common.rs:120-134 *)
Definition bits_of_entry (e : bitmap_entry) : res N :=
  match e with
  | Small 0 => Ok 0
  | Small 1 => Ok 2
  | Small 2 => Ok 1
  | Small _ => Err
  | Overflow => Ok 3
  end.

(** common.rs:117-136 *)
Fixpoint chunk_word (w : N) (chunk : list bitmap_entry) : res N :=
  match chunk with
  | [] => Ok w
  | e :: r => v <- bits_of_entry e ;; chunk_word (N.lor (N.shiftr w 2) (N.shiftl v 62)) r
  end.

(** slice::chunks (fuel is at least the number of elements). *)
Fixpoint chunks_aux {A} (fuel n : nat) (l : list A) : list (list A) :=
  match fuel with
  | O => []
  | S f => match l with [] => [] | _ => firstn n l :: chunks_aux f n (skipn n l) end
  end.
Definition chunks {A} (n : nat) (l : list A) : list (list A) := chunks_aux (length l) n l.

Fixpoint pack_chunks (cs : list (list bitmap_entry)) : res (list N) :=
  match cs with
  | [] => Ok []
  | c :: r => w <- chunk_word 0 c ;;
              rest <- pack_chunks r ;;
              Ok (le_enc 8 (N.shiftr w (64 - 2 * nlen c)) ++ rest)
  end.

(** common.rs:108-143 *)
Definition bitmap_pack (b : bitmap) : res (list N) :=
  body <- pack_chunks (chunks 32 (bm_entries b)) ;;
  Ok (le_enc 4 0 ++ le_enc 4 0 ++ le_enc 8 (bm_blocknr b) ++ body).

(** ** Metadata index blocks, pdata/space_map/metadata.rs:17-79 *)
Definition MAX_METADATA_BITMAPS : nat := N.to_nat 255.
Record metadata_index := mkmi { mi_blocknr : N; mi_indexes : list index_entry }.

Fixpoint take_while {A} (f : A -> bool) (l : list A) : list A :=
  match l with [] => [] | a :: r => if f a then a :: take_while f r else [] end.

Definition mi_unpack (i : list N) : res (metadata_index * list N) :=
  ' (_, i) <- p_u32 i ;;
  ' (_, i) <- p_u32 i ;;
  ' (blocknr, i) <- p_u64 i ;;
  ' (indexes, i) <- p_count ie_unpack MAX_METADATA_BITMAPS i ;;
  Ok (mkmi blocknr (take_while (fun e => negb (ie_blocknr e =? 0)) indexes), i).

(** The assertion of metadata.rs:52 panics. *)
Definition mi_pack (m : metadata_index) : res (list N) :=
  if Nat.ltb MAX_METADATA_BITMAPS (length (mi_indexes m)) then Panic else
  Ok (le_enc 4 0 ++ le_enc 4 0 ++ le_enc 8 (mi_blocknr m) ++
      concat (map ie_pack (mi_indexes m))).

(** math.rs div_up *)
Definition div_up (a b : N) : N := (a + (b - 1)) / b.

Definition load_metadata_index (b : block) (nr_blocks : N) : res metadata_index :=
  match metadata_block_type (b_data b) with
  | INDEX =>
      ' (m, _) <- mi_unpack (b_data b) ;;
      if negb (mi_blocknr m =? b_loc b) then Err else
      Ok (mkmi (mi_blocknr m)
            (firstn (N.to_nat (div_up nr_blocks ENTRIES_PER_BITMAP)) (mi_indexes m)))
  | _ => Err
  end.

(** ** Superblocks *)

(** The device: contents of every block; reads and writes of whole blocks. *)
Definition disk := N -> list N.

(** thin/superblock.rs:32-47 *)
Record thin_sb := mktsb {
  ts_needs_check : bool; ts_block : N; ts_version : N; ts_time : N;
  ts_transaction_id : N; ts_metadata_snap : N;
  ts_data_sm_root : list N; ts_metadata_sm_root : list N;
  ts_mapping_root : N; ts_details_root : N; ts_data_block_size : N;
  ts_nr_metadata_blocks : N }.

Definition THIN_MAGIC : N := 27022010.
Definition SPACE_MAP_ROOT_SIZE : nat := N.to_nat 128.

(** thin/superblock.rs:49-87 *)
Definition thin_sb_unpack (i : list N) : res (thin_sb * list N) :=
  ' (_, i) <- p_u32 i ;;
  ' (flags, i) <- p_u32 i ;;
  ' (block, i) <- p_u64 i ;;
  ' (_, i) <- p_take 16 i ;;
  ' (_, i) <- p_u64 i ;;
  ' (version, i) <- p_u32 i ;;
  ' (time, i) <- p_u32 i ;;
  ' (transaction_id, i) <- p_u64 i ;;
  ' (metadata_snap, i) <- p_u64 i ;;
  ' (data_sm_root, i) <- p_take SPACE_MAP_ROOT_SIZE i ;;
  ' (metadata_sm_root, i) <- p_take SPACE_MAP_ROOT_SIZE i ;;
  ' (mapping_root, i) <- p_u64 i ;;
  ' (details_root, i) <- p_u64 i ;;
  ' (data_block_size, i) <- p_u32 i ;;
  ' (_, i) <- p_u32 i ;;
  ' (nr_metadata_blocks, i) <- p_u64 i ;;
  Ok (mktsb (negb (N.land flags 1 =? 0)) block version time transaction_id metadata_snap
        data_sm_root metadata_sm_root mapping_root details_root data_block_size
        nr_metadata_blocks, i).

(** thin/superblock.rs:113-140 *)
Definition thin_sb_pack (s : thin_sb) : list N :=
  le_enc 4 0 ++
  le_enc 4 (if ts_needs_check s then 1 else 0) ++
  le_enc 8 (ts_block s) ++ repeat 0 16 ++ le_enc 8 THIN_MAGIC ++
  le_enc 4 (ts_version s) ++ le_enc 4 (ts_time s) ++
  le_enc 8 (ts_transaction_id s) ++ le_enc 8 (ts_metadata_snap s) ++
  ts_data_sm_root s ++ ts_metadata_sm_root s ++
  le_enc 8 (ts_mapping_root s) ++ le_enc 8 (ts_details_root s) ++
  le_enc 4 (ts_data_block_size s) ++ le_enc 4 8 ++
  le_enc 8 (ts_nr_metadata_blocks s).

(** thin/superblock.rs:89-101 *)
Definition thin_read_superblock (d : disk) (loc : N) : res thin_sb :=
  match metadata_block_type (d loc) with
  | THIN_SUPERBLOCK => ' (sb, _) <- thin_sb_unpack (d loc) ;; Ok sb
  | _ => Err
  end.

(** thin/superblock.rs:103-109 *)
Definition thin_read_superblock_snap (d : disk) : res thin_sb :=
  sb <- thin_read_superblock d 0 ;;
  if ts_metadata_snap sb =? 0 then Err else thin_read_superblock d (ts_metadata_snap sb).

(** thin/superblock.rs:142-157; [_loc] is ignored, the block goes to 0. *)
Definition thin_write_superblock (d : disk) (_loc : N) (s : thin_sb) : res disk :=
  b <- to_block (thin_sb_pack s) ;;
  b <- write_checksum b THIN_SUPERBLOCK ;;
  Ok (upd d 0 b).

(** cache/superblock.rs:20-56 *)
Record cache_sb := mkcsb {
  cs_clean_shutdown : bool; cs_needs_check : bool; cs_block : N; cs_version : N;
  cs_policy_name : list N; cs_policy_version : list N; cs_policy_hint_size : N;
  cs_metadata_sm_root : list N; cs_mapping_root : N; cs_dirty_root : option N;
  cs_hint_root : N; cs_discard_root : N; cs_discard_block_size : N;
  cs_discard_nr_blocks : N; cs_data_block_size : N; cs_cache_blocks : N;
  cs_compat_flags : N; cs_compat_ro_flags : N; cs_incompat_flags : N;
  cs_read_hits : N; cs_read_misses : N; cs_write_hits : N; cs_write_misses : N }.

Definition CACHE_MAGIC : N := 1623043.

(** cache/superblock.rs:110: the part before the first NUL. *)
Definition before_nul (l : list N) : list N := take_while (fun c => negb (c =? 0)) l.

(** cache/superblock.rs:58-131 *)
Definition cache_sb_unpack (i : list N) : res (cache_sb * list N) :=
  ' (_, i) <- p_u32 i ;;
  ' (flags, i) <- p_u32 i ;;
  ' (block, i) <- p_u64 i ;;
  ' (_, i) <- p_take 16 i ;;
  ' (_, i) <- p_u64 i ;;
  ' (version, i) <- p_u32 i ;;
  ' (policy_name, i) <- p_take 16 i ;;
  ' (policy_hint_size, i) <- p_u32 i ;;
  ' (metadata_sm_root, i) <- p_take SPACE_MAP_ROOT_SIZE i ;;
  ' (mapping_root, i) <- p_u64 i ;;
  ' (hint_root, i) <- p_u64 i ;;
  ' (discard_root, i) <- p_u64 i ;;
  ' (discard_block_size, i) <- p_u64 i ;;
  ' (discard_nr_blocks, i) <- p_u64 i ;;
  ' (data_block_size, i) <- p_u32 i ;;
  ' (_, i) <- p_u32 i ;;
  ' (cache_blocks, i) <- p_u32 i ;;
  ' (compat_flags, i) <- p_u32 i ;;
  ' (compat_ro_flags, i) <- p_u32 i ;;
  ' (incompat_flags, i) <- p_u32 i ;;
  ' (read_hits, i) <- p_u32 i ;;
  ' (read_misses, i) <- p_u32 i ;;
  ' (write_hits, i) <- p_u32 i ;;
  ' (write_misses, i) <- p_u32 i ;;
  ' (v0, i) <- p_u32 i ;;
  ' (v1, i) <- p_u32 i ;;
  ' (v2, i) <- p_u32 i ;;
  ' (dirty_root, i) <- (if 2 <=? version
                        then ' (r, i) <- p_u64 i ;; Ok (Some r, i)
                        else Ok (None, i)) ;;
  Ok (mkcsb (negb (N.land flags 1 =? 0)) (negb (N.land flags 2 =? 0)) block version
        (before_nul policy_name) [v0; v1; v2] policy_hint_size metadata_sm_root mapping_root
        dirty_root hint_root discard_root discard_block_size discard_nr_blocks data_block_size
        cache_blocks compat_flags compat_ro_flags incompat_flags read_hits read_misses
        write_hits write_misses, i).

(** cache/superblock.rs:149-204.  Slicing [policy_name[..len]] panics if the
    name is longer than 16 bytes; so does indexing policy_version. *)
Definition cache_sb_pack (s : cache_sb) : res (list N) :=
  if Nat.ltb 16 (length (cs_policy_name s)) then Panic else
  match cs_policy_version s with
  | v0 :: v1 :: v2 :: _ =>
      Ok (le_enc 4 0 ++
          le_enc 4 (N.lor (if cs_clean_shutdown s then 1 else 0)
                          (if cs_needs_check s then 2 else 0)) ++
          le_enc 8 (cs_block s) ++ repeat 0 16 ++ le_enc 8 CACHE_MAGIC ++
          le_enc 4 (cs_version s) ++
          (cs_policy_name s ++ repeat 0 (16 - length (cs_policy_name s))) ++
          le_enc 4 (cs_policy_hint_size s) ++
          cs_metadata_sm_root s ++ le_enc 8 (cs_mapping_root s) ++ le_enc 8 (cs_hint_root s) ++
          le_enc 8 (cs_discard_root s) ++ le_enc 8 (cs_discard_block_size s) ++
          le_enc 8 (cs_discard_nr_blocks s) ++
          le_enc 4 (cs_data_block_size s) ++ le_enc 4 8 ++ le_enc 4 (cs_cache_blocks s) ++
          le_enc 4 (cs_compat_flags s) ++ le_enc 4 (cs_compat_ro_flags s) ++
          le_enc 4 (cs_incompat_flags s) ++
          le_enc 4 (cs_read_hits s) ++ le_enc 4 (cs_read_misses s) ++
          le_enc 4 (cs_write_hits s) ++ le_enc 4 (cs_write_misses s) ++
          le_enc 4 v0 ++ le_enc 4 v1 ++ le_enc 4 v2 ++
          match cs_dirty_root s with Some r => le_enc 8 r | None => [] end)
  | _ => Panic
  end.

(** cache/superblock.rs:133-145 *)
Definition cache_read_superblock (d : disk) (loc : N) : res cache_sb :=
  match metadata_block_type (d loc) with
  | CACHE_SUPERBLOCK => ' (sb, _) <- cache_sb_unpack (d loc) ;; Ok sb
  | _ => Err
  end.

(** cache/superblock.rs:206-221 *)
Definition cache_write_superblock (d : disk) (_loc : N) (s : cache_sb) : res disk :=
  l <- cache_sb_pack s ;;
  b <- to_block l ;;
  b <- write_checksum b CACHE_SUPERBLOCK ;;
  Ok (upd d 0 b).

(** era/superblock.rs:20-43 *)
Record era_sb := mkesb {
  es_clean_shutdown : bool; es_block : N; es_version : N; es_metadata_sm_root : list N;
  es_data_block_size : N; es_nr_blocks : N; es_current_era : N;
  es_current_writeset : writeset; es_writeset_tree_root : N; es_era_array_root : N;
  es_metadata_snap : N }.

Definition ERA_MAGIC : N := 2126579579.

(** era/superblock.rs:45-84 *)
Definition era_sb_unpack (i : list N) : res (era_sb * list N) :=
  ' (_, i) <- p_u32 i ;;
  ' (flags, i) <- p_u32 i ;;
  ' (block, i) <- p_u64 i ;;
  ' (_, i) <- p_take 16 i ;;
  ' (_, i) <- p_u64 i ;;
  ' (version, i) <- p_u32 i ;;
  ' (metadata_sm_root, i) <- p_take SPACE_MAP_ROOT_SIZE i ;;
  ' (data_block_size, i) <- p_u32 i ;;
  ' (_, i) <- p_u32 i ;;
  ' (nr_blocks, i) <- p_u32 i ;;
  ' (current_era, i) <- p_u32 i ;;
  ' (nr_bits, i) <- p_u32 i ;;
  ' (root, i) <- p_u64 i ;;
  ' (writeset_tree_root, i) <- p_u64 i ;;
  ' (era_array_root, i) <- p_u64 i ;;
  ' (metadata_snap, i) <- p_u64 i ;;
  Ok (mkesb (negb (N.land flags 1 =? 0)) block version metadata_sm_root data_block_size
        nr_blocks current_era (mkws nr_bits root) writeset_tree_root era_array_root
        metadata_snap, i).

(** era/superblock.rs:110-142 *)
Definition era_sb_pack (s : era_sb) : list N :=
  le_enc 4 0 ++ le_enc 4 (if es_clean_shutdown s then 1 else 0) ++ le_enc 8 (es_block s) ++
  repeat 0 16 ++ le_enc 8 ERA_MAGIC ++ le_enc 4 (es_version s) ++
  es_metadata_sm_root s ++ le_enc 4 (es_data_block_size s) ++ le_enc 4 8 ++
  le_enc 4 (es_nr_blocks s) ++ le_enc 4 (es_current_era s) ++
  le_enc 4 (ws_nr_bits (es_current_writeset s)) ++ le_enc 8 (ws_root (es_current_writeset s)) ++
  le_enc 8 (es_writeset_tree_root s) ++ le_enc 8 (es_era_array_root s) ++
  le_enc 8 (es_metadata_snap s).

(** era/superblock.rs:86-98 *)
Definition era_read_superblock (d : disk) (loc : N) : res era_sb :=
  match metadata_block_type (d loc) with
  | ERA_SUPERBLOCK => ' (sb, _) <- era_sb_unpack (d loc) ;; Ok sb
  | _ => Err
  end.

(** era/superblock.rs:144-159 *)
Definition era_write_superblock (d : disk) (_loc : N) (s : era_sb) : res disk :=
  b <- to_block (era_sb_pack s) ;;
  b <- write_checksum b ERA_SUPERBLOCK ;;
  Ok (upd d 0 b).
