(** What it means for a record codec to be lossless, and what a well-formed
    B-tree node block is.  Independent of how the code parses. *)
From Verif Require Import Base Csum_Model Codec_Model.

(** Every record in [range] packs to exactly [csize] bytes and unpacks to
    itself leaving the rest of the input alone; every byte string of that size
    is the packed form of some record in [range]; shorter input is refused. *)
Record lossless {V} (c : codec V) (range : V -> Prop) : Prop := {
  ll_size : forall v, range v -> length (cpack c v) = csize c /\ bytes (cpack c v);
  ll_round : forall v rest, range v -> cunpack c (cpack c v ++ rest) = Ok (v, rest);
  ll_onto : forall a, bytes a -> length a = csize c -> exists v, range v /\ cpack c v = a;
  ll_short : forall a, (length a < csize c)%nat -> cunpack c a = Err }.

(** The little-endian 32- and 64-bit words of a block at a byte offset. *)
Definition word32_at (blk : list N) (off : N) : N := le_dec (slice (N.to_nat off) 4 blk).
Definition word64_at (blk : list N) (off : N) : N := le_dec (slice (N.to_nat off) 8 blk).

(** Ranges of the record fields. *)
Definition bt_range (b : block_time) := bt_block b < 2 ^ 40 /\ bt_time b < 2 ^ 24.
Definition dd_range (d : device_detail) :=
  dd_mapped d < 2 ^ 64 /\ dd_tid d < 2 ^ 64 /\ dd_ctime d < 2 ^ 32 /\ dd_stime d < 2 ^ 32.
Definition ie_range (e : index_entry) :=
  ie_blocknr e < 2 ^ 64 /\ ie_nr_free e < 2 ^ 32 /\ ie_none_free_before e < 2 ^ 32.
Definition smroot_range (r : sm_root) :=
  sr_nr_blocks r < 2 ^ 64 /\ sr_nr_allocated r < 2 ^ 64 /\
  sr_bitmap_root r < 2 ^ 64 /\ sr_ref_count_root r < 2 ^ 64.
Definition ws_range (w : writeset) := ws_nr_bits w < 2 ^ 32 /\ ws_root w < 2 ^ 64.
Definition cm_range (m : cmapping) := cm_oblock m < 2 ^ 48 /\ cm_flags m < 2 ^ 16.

(** A node as the on-disk format sees it: [blk] holds the node [n] for a tree
    whose leaf values are encoded by [c].  Header at offset 0, keys at 32,
    values after [max_entries] key slots. *)
Definition node_layout {V} (c : codec V) (range : V -> Prop) (blk : list N) (n : node V) : Prop :=
  let h := get_header n in
  let vals_at := 32 + 8 * nh_max_entries h in
  nh_is_leaf h = (word32_at blk 4 =? 2) /\
  nh_block h = word64_at blk 8 /\
  nh_nr_entries h = word32_at blk 16 /\
  nh_max_entries h = word32_at blk 20 /\
  nh_value_size h = word32_at blk 24 /\
  nlen (get_keys n) = nh_nr_entries h /\
  (forall i, i < nh_nr_entries h ->
     nth (N.to_nat i) (get_keys n) 0 = word64_at blk (32 + 8 * i)) /\
  match n with
  | Internal _ _ vs =>
      nh_is_leaf h = false /\ nlen vs = nh_nr_entries h /\
      vals_at + 8 * nh_nr_entries h <= 4096 /\
      forall i, i < nh_nr_entries h ->
        nth (N.to_nat i) vs 0 = word64_at blk (vals_at + 8 * i)
  | Leaf _ _ vs =>
      nh_is_leaf h = true /\ nlen vs = nh_nr_entries h /\
      nh_value_size h = N.of_nat (csize c) /\
      vals_at + N.of_nat (csize c) * nh_max_entries h <= 4096 /\
      forall i v, i < nh_nr_entries h -> nth_error vs (N.to_nat i) = Some v ->
        range v /\
        cpack c v = slice (N.to_nat (vals_at + N.of_nat (csize c) * i)) (csize c) blk
  end.

(** Well-formedness demanded of a header and keys in the strict reader. *)
Definition node_wf {V} (strict is_root : bool) (n : node V) : Prop :=
  let h := get_header n in
  increasing (get_keys n) /\
  nh_nr_entries h <= nh_max_entries h /\
  ((nh_value_size h + 8) mod 2 ^ 32) * nh_max_entries h + 32 <= 4096 /\
  (strict = true -> nh_max_entries h mod 3 = 0) /\
  (strict = true -> is_root = false -> nh_max_entries h / 3 <= nh_nr_entries h).

(** A node that fits its block: what the builder writes. *)
Definition node_fits {V} (c : codec V) (range : V -> Prop) (n : node V) : Prop :=
  let h := get_header n in
  nh_block h < 2 ^ 64 /\
  nlen (get_keys n) = nh_nr_entries h /\
  nh_nr_entries h <= nh_max_entries h /\
  Forall (fun k => k < 2 ^ 64) (get_keys n) /\ increasing (get_keys n) /\
  nh_max_entries h mod 3 = 0 /\
  match n with
  | Internal _ _ vs => nh_is_leaf h = false /\ nlen vs = nh_nr_entries h /\
      Forall (fun v => v < 2 ^ 64) vs /\ nh_value_size h = 8 /\
      16 * nh_max_entries h + 32 <= 4096
  | Leaf _ _ vs => nh_is_leaf h = true /\ nlen vs = nh_nr_entries h /\
      Forall range vs /\ nh_value_size h = N.of_nat (csize c) /\
      (8 + N.of_nat (csize c)) * nh_max_entries h + 32 <= 4096
  end.

(** Superblock fields have the width of their disk slots. *)
Definition thin_sb_range (s : thin_sb) : Prop :=
  ts_block s < 2 ^ 64 /\ ts_version s < 2 ^ 32 /\ ts_time s < 2 ^ 32 /\
  ts_transaction_id s < 2 ^ 64 /\ ts_metadata_snap s < 2 ^ 64 /\
  (bytes (ts_data_sm_root s) /\ nlen (ts_data_sm_root s) = 128) /\
  (bytes (ts_metadata_sm_root s) /\ nlen (ts_metadata_sm_root s) = 128) /\
  ts_mapping_root s < 2 ^ 64 /\ ts_details_root s < 2 ^ 64 /\
  ts_data_block_size s < 2 ^ 32 /\ ts_nr_metadata_blocks s < 2 ^ 64.

(** The policy name has at most 16 bytes, none of them NUL, and the dirty root
    is present exactly for format 2 and later. *)
Definition cache_sb_range (s : cache_sb) : Prop :=
  cs_block s < 2 ^ 64 /\ cs_version s < 2 ^ 32 /\
  (Forall (fun c => 0 < c < 256) (cs_policy_name s) /\ nlen (cs_policy_name s) <= 16) /\
  (Forall (fun v => v < 2 ^ 32) (cs_policy_version s) /\ nlen (cs_policy_version s) = 3) /\
  cs_policy_hint_size s < 2 ^ 32 /\
  (bytes (cs_metadata_sm_root s) /\ nlen (cs_metadata_sm_root s) = 128) /\
  cs_mapping_root s < 2 ^ 64 /\
  (match cs_dirty_root s with Some r => 2 <= cs_version s /\ r < 2 ^ 64
                            | None => cs_version s < 2 end) /\
  cs_hint_root s < 2 ^ 64 /\ cs_discard_root s < 2 ^ 64 /\
  cs_discard_block_size s < 2 ^ 64 /\ cs_discard_nr_blocks s < 2 ^ 64 /\
  cs_data_block_size s < 2 ^ 32 /\ cs_cache_blocks s < 2 ^ 32 /\
  cs_compat_flags s < 2 ^ 32 /\ cs_compat_ro_flags s < 2 ^ 32 /\ cs_incompat_flags s < 2 ^ 32 /\
  cs_read_hits s < 2 ^ 32 /\ cs_read_misses s < 2 ^ 32 /\
  cs_write_hits s < 2 ^ 32 /\ cs_write_misses s < 2 ^ 32.

Definition era_sb_range (s : era_sb) : Prop :=
  es_block s < 2 ^ 64 /\ es_version s < 2 ^ 32 /\
  (bytes (es_metadata_sm_root s) /\ nlen (es_metadata_sm_root s) = 128) /\
  es_data_block_size s < 2 ^ 32 /\ es_nr_blocks s < 2 ^ 32 /\ es_current_era s < 2 ^ 32 /\
  ws_range (es_current_writeset s) /\ es_writeset_tree_root s < 2 ^ 64 /\
  es_era_array_root s < 2 ^ 64 /\ es_metadata_snap s < 2 ^ 64.

(** A bitmap entry that has a two-bit code. *)
Definition entry_ok (e : bitmap_entry) : Prop :=
  match e with Small n => n <= 2 | Overflow => True end.

(** The entry denoted by two bits: low bit = "count is 2", high bit = "count is 1". *)
Definition decode_entry (lo hi : bool) : bitmap_entry :=
  match hi, lo with
  | false, false => Small 0
  | true, false => Small 1
  | false, true => Small 2
  | true, true => Overflow
  end.
