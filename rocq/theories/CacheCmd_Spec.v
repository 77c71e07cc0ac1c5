(** What cache_check is to find out and to do. *)
From Verif Require Import Base Csum_Model Codec_Model SpaceMap_Model Walker_Model Walker_Spec Builder_Spec Array_Model Array_Spec SmCheck_Model SmCheck_Spec CacheCheck_Model CacheCheck_Spec CacheCmd_Model.

(** ** The metadata of a cache *)
(** Its parts: the blocks of the four arrays (mappings, dirty bits, hints, discard bits), each
    with the blocks of its index; the root, index, reference count tree of the metadata space
    map, the latter with its blocks. *)
Record cparts := mkcp {
  p_maps : list N; p_maps_index : list N; p_dirty : list N; p_dirty_index : list N;
  p_hints : list N; p_hints_index : list N; p_discards : list N; p_discards_index : list N;
  p_sm : sm_root; p_entries : list index_entry; p_large : list (N * N); p_large_index : list N }.
(** All the blocks they occupy. *)
Definition p_used (m : cparts) : list N :=
  [0] ++ p_dirty_index m ++ p_dirty m ++ p_maps_index m ++ p_maps m ++ p_hints_index m ++ p_hints m ++ p_discards_index m ++ p_discards m ++
  p_large_index m ++ [sr_bitmap_root (p_sm m)] ++ map ie_blocknr (p_entries m).
(** The index of an array, at [root]: an intact tree. *)
Definition indexed (d : disk) (root : N) (blocks foot : list N) : Prop :=
  exists depth, tree u64_codec d true depth root (combine (range 0 (nlen blocks)) blocks) foot.
Definition absent (blocks foot : list N) : Prop := blocks = [] /\ foot = [].
(** The device has these parts, the indexes can be read and no block is used twice.  Nothing is
    said of the blocks of the arrays and of the bitmaps, but that an array block holds as many
    entries as fit. *)
Definition cache_with (nr : N) (d : disk) (eng : N -> option (list N)) (sb : cache_sb) (m : cparts) : Prop :=
  nr <= 255 * 16320 /\ eng 0 = Some (d 0) /\ cache_read_superblock d 0 = Ok sb /\
  indexed d (cs_mapping_root sb) (p_maps m) (p_maps_index m) /\
  (cs_version sb = 1 /\ absent (p_dirty m) (p_dirty_index m) \/
   cs_version sb = 2 /\ exists root, cs_dirty_root sb = Some root /\ root <> 0 /\ indexed d root (p_dirty m) (p_dirty_index m)) /\
  ((cs_hint_root sb = 0 \/ cs_policy_hint_size sb = 0) /\ absent (p_hints m) (p_hints_index m) \/
   cs_hint_root sb <> 0 /\ cs_policy_hint_size sb = 4 /\ indexed d (cs_hint_root sb) (p_hints m) (p_hints_index m)) /\
  (cs_discard_root sb = 0 /\ absent (p_discards m) (p_discards_index m) \/
   cs_discard_root sb <> 0 /\ indexed d (cs_discard_root sb) (p_discards m) (p_discards_index m)) /\
  (exists rest, smroot_unpack (cs_metadata_sm_root sb) = Ok (p_sm m, rest)) /\
  load_metadata_index (mkblock (sr_bitmap_root (p_sm m)) (d (sr_bitmap_root (p_sm m)))) (sr_nr_blocks (p_sm m)) = Ok (mkmi (sr_bitmap_root (p_sm m)) (p_entries m)) /\
  (exists depth, tree u32_codec d true depth (sr_ref_count_root (p_sm m)) (p_large m) (p_large_index m)) /\ increasing (map fst (p_large m)) /\
  (forall b, In b (p_maps_index m ++ p_dirty_index m ++ p_hints_index m ++ p_discards_index m ++ p_large_index m ++ [sr_bitmap_root (p_sm m)]) -> eng b = Some (d b)) /\
  NoDup (p_used m) /\ (forall b, In b (p_used m) -> b < nr) /\
  (forall b data a, In b (p_maps m) -> eng b = Some data -> unpack_array_block cm_codec data = Ok a -> ah_max (ab_hdr a) = 509) /\
  (forall b data a, In b (p_dirty m ++ p_discards m) -> eng b = Some data -> unpack_array_block u64_codec data = Ok a -> ah_max (ab_hdr a) = 509).

(** The same superblock without the needs-check flag. *)
Definition flag_cleared (sb : cache_sb) : cache_sb :=
  mkcsb (cs_clean_shutdown sb) false (cs_block sb) (cs_version sb) (cs_policy_name sb) (cs_policy_version sb) (cs_policy_hint_size sb)
    (cs_metadata_sm_root sb) (cs_mapping_root sb) (cs_dirty_root sb) (cs_hint_root sb) (cs_discard_root sb) (cs_discard_block_size sb)
    (cs_discard_nr_blocks sb) (cs_data_block_size sb) (cs_cache_blocks sb) (cs_compat_flags sb) (cs_compat_ro_flags sb) (cs_incompat_flags sb)
    (cs_read_hits sb) (cs_read_misses sb) (cs_write_hits sb) (cs_write_misses sb).

(** ** The verdict *)
(** The blocks of a bit set can be read, and each has something to say about the [nr_bits] bits,
    32576 to a block. *)
Definition bitset_fine (eng : N -> option (list N)) (nr_bits : N) (blocks : list N) : Prop :=
  forall i b, nth_error blocks i = Some b -> (exists ws, reads_as u64_codec eng b ws) /\ N.of_nat i * 32576 < nr_bits.
(** The dirty bit of cache block [i]. *)
Definition stored_dirty (eng : N -> option (list N)) (sb : cache_sb) (blocks : list N) (i : N) : bool :=
  (i <? cs_cache_blocks sb) && match stored_bit eng blocks i with Some b => b | None => false end.
Definition arrays_fine (eng : N -> option (list N)) (limit : N) (sb : cache_sb) (m : cparts) : Prop :=
  bitset_fine eng (cs_cache_blocks sb) (p_dirty m) /\
  (exists vss, Forall2 (reads_as cm_codec eng) (p_maps m) vss /\ table_fine (cs_version sb) limit (stored_dirty eng sb (p_dirty m)) (numbered 0 vss)) /\
  (forall b, In b (p_hints m) -> exists hs, reads_as hint_codec eng b hs) /\
  bitset_fine eng (cs_discard_nr_blocks sb) (p_discards m).
(** The count every block should have. *)
Definition used_count (m : cparts) (b : N) : N := if in_dec N.eq_dec b (p_used m) then 1 else 0.
(** The metadata space map has the right counts; [leaks] : blocks counted but not used are
    let pass. *)
Definition map_fine (eng : N -> option (list N)) (nr : N) (m : cparts) (leaks : bool) : Prop :=
  exists ess, bitmaps_on eng (p_entries m) ess /\
    (forall b e, b < nr -> entry_of ess b = Some e -> e = Small (used_count m b) \/ (leaks = true /\ e = Small 1)) /\
    forall b v, In (b, v) (p_large m) -> b < nr /\ v = used_count m b.
