{
 "claims": [
  {
   "property": "C01",
   "status": "proved",
   "theorems": [
    "C01_checksum_identifies",
    "C01_checksum_accepts",
    "C01_wrong_size_unknown",
    "C01_burst_detected",
    "C01_stored_sum_detected"
   ],
   "note": "All buffers; bursts of up to 32 bits in the body and any change of the stored word. crc32c (external crate) is modelled bitwise."
  },
  {
   "property": "C02",
   "status": "proved",
   "theorems": [
    "C02_node_roundtrip",
    "C02_wrong_location_refused",
    "C02_max_entries_fit"
   ],
   "note": "Any value codec that is lossless (instances: C04), any old buffer contents."
  },
  {
   "property": "C03",
   "status": "proved",
   "theorems": [
    "C03_reader_accepts_iff_wellformed",
    "C03_reader_total",
    "C03_accepted_keys_increasing"
   ],
   "note": "Acceptance characterised by iff against the byte layout; no panic on any bytes."
  },
  {
   "property": "C04",
   "status": "proved",
   "theorems": [
    "C04_u64",
    "C04_u32",
    "C04_block_time",
    "C04_device_detail",
    "C04_index_entry",
    "C04_space_map_root",
    "C04_writeset",
    "C04_cache_mapping",
    "C04_cache_hint",
    "C04_cache_hint_short_panics",
    "C04_sizes",
    "C04_block_time_layout",
    "C04_cache_mapping_layout",
    "C04_block_time_time_overflow_refuted",
    "C04_metadata_index"
   ],
   "note": "All record types; the range is exactly what the slot has room for (every byte string is the image of an in-range record). Times >= 2^24 are shown to corrupt the block number (refuted variant)."
  },
  {
   "property": "C05",
   "status": "proved",
   "theorems": [
    "C05_thin_superblock",
    "C05_cache_superblock",
    "C05_era_superblock",
    "C05_cache_long_policy_name_panics"
   ],
   "note": "All three formats; the writer ignores its location argument and always writes block 0."
  },
  {
   "property": "C06",
   "status": "proved",
   "theorems": [
    "C06_bitmap_roundtrip",
    "C06_bitmap_pack_refuses",
    "C06_bitmap_decode"
   ],
   "note": "Round trip in both directions and bit-level layout."
  },
  {
   "property": "C07",
   "status": "proved",
   "theorems": [
    "C07_delta_lossless",
    "C07_pack_u64s_exec",
    "C07_pack_u64s_total",
    "C07_pack_shifted_exec",
    "C07_pack_shifted_total",
    "C07_pack_literal_exec",
    "C07_long_run_panics_refuted"
   ],
   "note": "Delta and VM round trips for all 64-bit sequences; packing panics only for runs > 4095 (shown by C07_long_run_panics_refuted, beyond any metadata block)."
  },
  {
   "property": "C08",
   "status": "partial",
   "theorems": [
    "C08_block_roundtrip",
    "C08_block_packs",
    "C08_device_roundtrip_partial",
    "C08_chunk_dropped_refuted",
    "C08_small_device_lost_refuted"
   ],
   "note": "Every packed block reproduces byte for byte. Whole device: proved when the number of blocks is a multiple of the chunk size, for every shuffle/interleaving; otherwise the packer drops a chunk (refuted). zlib is a parameter."
  },
  {
   "property": "C09",
   "status": "proved",
   "theorems": [
    "C09_build_contents",
    "C09_push_inside_reused_leaf_refuted"
   ],
   "note": "Values pushed in any order and number; the walk is the iterator (C12) on the flushed device. For leaves re-used with push_nodes an out-of-order push inside the leaf is accepted (C09_push_inside_reused_leaf_refuted)."
  },
  {
   "property": "C10",
   "status": "proved",
   "theorems": [
    "C10_build_shape",
    "C10_nodes_pass_strict_reader",
    "C10_empty_run_after_content_refuted"
   ],
   "note": "Any mixture of values and pre-built leaves in key order; strict reader passes on every block; no panic of the builder's buffering asserts."
  },
  {
   "property": "C11",
   "status": "proved",
   "theorems": [
    "C11_lookup",
    "C11_assoc_is_membership"
   ],
   "note": "All trees readable by the lenient reader whose internal keys separate children; slice::binary_search is modelled by a linear search (the std function itself is not modelled)."
  },
  {
   "property": "C12",
   "status": "proved",
   "theorems": [
    "C12_iterate",
    "C12_built_trees_readable"
   ],
   "note": "Same class of trees."
  },
  {
   "property": "C13",
   "status": "proved",
   "theorems": [
    "C13_session_accounting",
    "C13_data_counts"
   ],
   "note": "Sessions of runs and trees; counts equal pointers; temporary references released; values counted once per distinct leaf."
  },
  {
   "property": "C14",
   "status": "partial",
   "theorems": [
    "C14_core_history_partial",
    "C14_failure_atomic",
    "C14_inc_not_atomic_refuted",
    "C14_inc_overflow_accepted_refuted",
    "C14_restricted_marks",
    "C14_two_counts",
    "C14_two_clear_refuted"
   ],
   "note": "Counter-per-block refinement for every history (core map), marks for the bit-set maps. inc that meets a saturated block fails half way (refuted atomicity); ranges that wrap 2^64 excluded; RestrictedTwo clear from 2 miscounts (refuted)."
  },
  {
   "property": "C15",
   "status": "proved",
   "theorems": [
    "C15_alloc",
    "C15_alloc_order",
    "C15_find_free",
    "C15_restricted_full_refuted"
   ],
   "note": "For the counting map (CoreSpaceMap). The bit-set variants fail when full (C15_restricted_full_refuted)."
  },
  {
   "property": "C16",
   "status": "proved",
   "theorems": [
    "C16_write_disk_sm",
    "C16_nr_allocated"
   ],
   "note": "write_disk_sm through any usable batcher: bitmaps, nr_free, first free entry, overflow tree, index tree, counts read back, frame, failure only when exhausted. Metadata variant under C17."
  },
  {
   "property": "C17",
   "status": "proved",
   "theorems": [
    "C17_write_metadata_sm",
    "C17_counts_read_back",
    "C17_contiguous",
    "C17_unrecorded_block_refuted"
   ],
   "note": "Bitmap entry of every metadata block equals the final in-core count, index covers the device, reference-count tree exact; contiguity hypothesis shown to hold for every batcher started on an empty space map (C17_contiguous). nr_free of an index entry is claimed only when no released block is re-allocated during the write (with 16330 blocks recorded and the last four released it is off by one: found by evaluating the model, left out of the build because coqchk needs 7 minutes for it)."
  },
  {
   "property": "C18",
   "status": "partial",
   "theorems": [
    "C18_check_low_ref_counts",
    "C18_check_disk_space_map",
    "C18_wrong_counts",
    "C18_check_metadata_space_map",
    "C18_written_disk_map_is_clean",
    "C18_written_metadata_map_is_clean",
    "C18_truncation_refuted",
    "C18_missing_count_refuted",
    "C18_short_index_refuted",
    "C18_out_of_range_refuted",
    "C18_example_hyps"
   ],
   "note": "check_low_ref_counts characterised exactly (iff) for every device; check_disk_space_map / check_metadata_space_map exactly (iff) when the index and reference count trees are undamaged; for complete maps and expected counts below 256, success iff every stored count is expected or a leak; maps just written by C16/C17 check clean. The unrestricted English claim is false: four _refuted theorems (u8 truncation of expected counts, overflow entry without tree entry, index too short, panic on out-of-range tree key). Missing: damaged trees (the walk then fails, C54)."
  },
  {
   "property": "C19",
   "status": "proved",
   "theorems": [
    "C19_only_listed_bitmaps",
    "C19_repair_space_map",
    "C19_check_repair_check"
   ],
   "note": "repair changes only leaked entries (1->0) of listed bitmaps; check afterwards is clean; idempotent byte for byte. NoDup of bitmap locations assumed. nr_free in the index is not updated by the code."
  },
  {
   "property": "C20",
   "status": "partial",
   "theorems": [
    "C20_cache_superblock_written_last",
    "C20_cache_crash",
    "C20_era_superblock_written_last",
    "C20_era_crash",
    "C20_superblock_written_once_and_last",
    "C20_crash",
    "C20_unwritable_block_refuted"
   ],
   "note": "Thin, cache and era restore: for every event sequence, failing device and batch size block 0 is written at most once, when </superblock> is handled and after everything queued was sent; at every crash point the old superblock is in place unless all writes were issued (C20_cache_crash, C20_era_crash, C20_crash...). 'Successfully' is refuted (results of batched block writes are not checked: C20_unwritable_block_refuted), hence partial."
  },
  {
   "property": "C21",
   "status": "proved",
   "theorems": [
    "C21_accepted",
    "C21_accepted_nested",
    "C21_superblock_written_only_for_documents",
    "C21_unclosed_refuted"
   ],
   "note": "All event sequences; for properly nested tags (what the XML reader delivers) exactly documents get a superblock; without the end-tag check an unclosed last section is accepted (C21_unclosed_refuted)."
  },
  {
   "property": "C22",
   "status": "partial",
   "theorems": [
    "C22_restore",
    "C22_mapped_blocks_refuted",
    "C22_duplicate_device_refuted",
    "C22_nr_data_blocks_refuted"
   ],
   "note": "C22_restore: for every document (any definitions, devices, references), device size, previous contents, batch size and the --transaction-id/--data-block-size options, restore succeeds with superblock, details, mapping trees and both space maps on the device as the document says (data counts: once per leaf holding the mapping), or errs only for exhaustion / out-of-range mapping / counter overflow; never panics. Hypotheses (sections): thin blocks increasing per section, field ranges, names and ids not reused, references to earlier definitions, which may be empty only as the first item of a device. The part about mapped_blocks is false and refuted (copied from the document); also refuted: duplicate dev_id, --nr-data-blocks."
  },
  {
   "property": "C23",
   "status": "proved",
   "theorems": [
    "C23_runs_expand",
    "C23_entries_denote",
    "C23_bad_leaf_fails"
   ],
   "note": "Runs of emit_leaves over any readable leaves expand to the leaves' entries, are non-empty and unmergeable; entries with references; bad leaves fail. The output visitor is taken not to fail; reading in batches is modelled as reading in order."
  },
  {
   "property": "C24",
   "status": "partial",
   "theorems": [
    "C24_dump",
    "C24_dump_snap",
    "C24_dump_repaired",
    "C24_dump_no_mappings",
    "C24_round_trip",
    "C24_lookup",
    "C24_same_output_refuted",
    "C24_misattributed_refuted"
   ],
   "note": "C24_dump/_snap/_repaired/_no_mappings: for every readable metadata (any tree shapes and sharing, any selection of devices) the output describes exactly the devices dumped. C24_round_trip: restoring it onto any device, previous contents and batch size gives metadata with the same superblock attributes, devices, details and mappings, space maps included, or fails only for lack of metadata space, a mapping beyond the data device or a counter overflow; dumping the restored metadata again describes the same devices in the same order. C24_lookup: what every lookup in restored metadata returns. 'The same output' is refuted: definitions are named after block numbers (also needs_check is cleared and the version becomes 2). Also refuted: devices and details are paired by position, so inconsistent trees give a device the details of another."
  },
  {
   "property": "C25",
   "status": "proved",
   "theorems": [
    "C25_definitions_expand"
   ],
   "note": "optimise_metadata (thin/runs.rs, thin/metadata.rs) for every set of leaf sequences"
  },
  {
   "property": "C26",
   "status": "proved",
   "theorems": [
    "C26_command",
    "C26_refused",
    "C26_delta_classifies",
    "C26_unmerged_data_blocks",
    "C26_verbose_data_blocks_refuted"
   ],
   "note": "The whole command from the superblock on: C26_command (devices by id or trees by root, live or metadata-snapshot superblock), C26_refused (unknown device, device lists that differ). With --verbose the merged ranges misstate data blocks (C26_verbose_data_blocks_refuted). Opening the device and text formatting are not modelled."
  },
  {
   "property": "C27",
   "status": "proved",
   "theorems": [
    "C27_trim_discards_free_blocks",
    "C27_bitmap_order",
    "C27_sparse_index_refuted"
   ],
   "note": "From the bitmap blocks to the discard ioctls, for any ioctl failures. Reading the index tree is C54/C12; an index tree with missing keys shifts bitmaps (C27_sparse_index_refuted)."
  },
  {
   "property": "C28",
   "status": "proved",
   "theorems": [
    "C28_plan",
    "C28_rewrite",
    "C28_size_not_updated"
   ],
   "note": "The plan (C28_plan) and the rewritten mappings (C28_rewrite), for every document and new size. RangeSet (a dependency) is modelled by its documented behaviour. C28_size_not_updated: the superblock event keeps its old nr_data_blocks. A run of length 0 panics."
  },
  {
   "property": "C29",
   "status": "proved",
   "theorems": [
    "C29_shrink_copy",
    "C29_same_data"
   ],
   "note": "Every schedule of the two copier threads, stopped anywhere, every fault pattern, batch and chunk size. Blocks are transferred one at a time and hold arbitrary contents meanwhile."
  },
  {
   "property": "C30",
   "status": "partial",
   "theorems": [
    "C30_reports",
    "C30_ends",
    "C30_running",
    "C30_no_faults",
    "C30_chunk",
    "C30_rescue"
   ],
   "note": "SyncCopier: proved, with termination under fair schedules. RescueCopier: proved except that it can list an op both as a read and as a write error (C30_rescue_reports_twice_refuted). Needs distinct destinations (C30_same_destination_refuted). Byte offsets and u32 bitmap indexes are not modelled."
  },
  {
   "property": "C31",
   "status": "partial",
   "theorems": [
    "C31_copy",
    "C31_writeback",
    "C31_device_met",
    "C31_stray_dirty_bit_refuted"
   ],
   "note": "For intact metadata in which no two mappings share an origin block, any schedule and failure pattern of the copiers, any number of retries: the cleaned blocks are exactly those whose contents reached the origin, everything to be copied is cleaned or failed, success means all were copied, an error comes from a failed copy, a failed metadata write or (version 2) a stray dirty bit; metadata is untouched without update. Missing: metadata with damaged arrays (the command then stops with an error before the update) and mappings that share an origin block."
  },
  {
   "property": "C32",
   "status": "proved",
   "theorems": [
    "C32_update_v1",
    "C32_update_v2",
    "C32_empty_panics_refuted"
   ],
   "note": "Both formats, any cleaned set: on success the array is the old one with exactly the cleaned flags or bits cleared and no other block of the device changed; when a metadata write fails, every other array block is old or new. A version 1 cache with no mappings panics (refuted)."
  },
  {
   "property": "C33",
   "status": "partial",
   "theorems": [
    "C33_restore",
    "C33_dump",
    "C33_roundtrip",
    "C33_roundtrip_met",
    "C33_empty_cache_refuted",
    "C33_hint_width_refuted"
   ],
   "note": "C33_restore, C33_dump, C33_roundtrip: for either version on either side, any number of cache blocks but 0, any mappings, dirty bits and hints, repairing or not, any target device and batch size: dump gives a document saying the same about every block; restoring it errs only for exhaustion and otherwise gives metadata that says the same, with an exact metadata space map, and dumps to the same document. Refuted: a cache of no blocks (dump panics; version 2 restore fails), hints not of 4 bytes (panic). Not modelled: the text of the XML between the two (the documents are the visitor calls); policy names that are not valid UTF-8 are refused by dump."
  },
  {
   "property": "C34",
   "status": "partial",
   "theorems": [
    "C34_version1",
    "C34_version2",
    "C34_device_met",
    "C34_shared_root_refuted",
    "C34_zero_block_size_panics_refuted",
    "C34_origin_size_wraps_refuted"
   ],
   "note": "Both directions for arbitrary array blocks (unreadable, corrupt, any values) under an intact index tree, both formats, walked on the check's shared space map. Not covered: a damaged index tree (C54 covers the walker there). Refuted: a mapping root already counted by the shared map is not checked; a zero data block size panics; the origin size wraps."
  },
  {
   "property": "C35",
   "status": "partial",
   "theorems": [
    "C35_restore_writeset_partial",
    "C35_no_block_lost",
    "C35_crossing_range_refuted",
    "C35_crossing_last_word_fails_refuted",
    "C35_empty_writeset_fails_refuted"
   ],
   "note": "Restoring one writeset (writeset_b/blocks/e over the real array builder): exact for ranges inside 64-bit words, and no marked block is ever lost; refuted for ranges crossing a word boundary (extra marks, or a spurious failure in the last word) and for nr_bits = 0"
  },
  {
   "property": "C36",
   "status": "proved",
   "theorems": [
    "C36_dump_writeset",
    "C36_dump_writeset_usual"
   ],
   "note": "For every readable bitset: emitted ranges are exactly the marked blocks, ordered, with gaps; stray bits beyond the end do not matter (except bit 2^32-1, excluded by hypothesis, met by all writesets of at most 2^32-64 blocks and all without stray bits)"
  },
  {
   "property": "C37",
   "status": "partial",
   "theorems": [
    "C37_invalidate_partial",
    "C37_invalidate_archived_partial",
    "C37_current_writeset_ignored_refuted",
    "C37_era_array_ignored_refuted"
   ],
   "note": "Exact characterisation of what is reported; equals the claim when the current writeset is empty and the era array is older than the writesets; refuted: the current writeset is ignored, and the era array is ignored without archived writesets"
  },
  {
   "property": "C38",
   "status": "proved",
   "theorems": [
    "C38_logical_dump",
    "C38_future_writesets_dropped_refuted",
    "C38_stray_bit_panics_refuted",
    "C38_empty_array_panics_refuted"
   ],
   "note": "For every consistent metadata (contiguous eras, readable writesets without stray bits, era array of the right size); refutations show what happens outside: future writesets dropped, panics on stray bits and on empty arrays"
  },
  {
   "property": "C39",
   "status": "proved",
   "theorems": [
    "C39_batches",
    "C39_read_many",
    "C39_write_many",
    "C39_short_read_panics_refuted",
    "C39_eof_loops_refuted"
   ],
   "note": "SyncIoEngine: run splitting, read_many, write_many for every device that moves whole blocks. Short reads panic and EOF loops (refuted theorems). The async (io_uring) engine is not modelled."
  },
  {
   "property": "C40",
   "status": "proved",
   "theorems": [
    "C40_transparent",
    "C40_transparent_from",
    "C40_queue_bounded",
    "C40_flush_hides_failure_refuted"
   ],
   "note": "For every history. The device must accept the writes: flush drops per-block write errors (C40_flush_hides_failure_refuted)."
  },
  {
   "property": "C41",
   "status": "proved",
   "theorems": [
    "C41_array_build",
    "C41_array_entry"
   ],
   "note": "any value type of 1..4072 bytes, any pushes, any usable device"
  },
  {
   "property": "C42",
   "status": "partial",
   "theorems": [
    "C42_read_bitset_checked",
    "C42_read_bitset",
    "C42_stray_bits_refuted",
    "C42_short_array_unreported_refuted",
    "C42_header_check_wraps_refuted",
    "C42_misplaced_block_accepted_refuted"
   ],
   "note": "tolerant reader: exact bits, unknown for damaged blocks, errors name the damaged blocks; strict reader: exact bits for i < nr_bits on an intact array. Refuted for the strict reader: bits beyond nr_bits of the last word show up in ones(), and a too short array is read as clear without error"
  },
  {
   "property": "C43",
   "status": "partial",
   "theorems": [
    "C43_accepted_partial",
    "C43_searchable",
    "C43_gaps",
    "C43_lookup_refuted",
    "C43_low_refuted",
    "C43_dropped_refuted",
    "C43_truncated_refuted",
    "C43_loop_refuted"
   ],
   "note": "Proved for every device image and every order of the leaves: an accepted device has at least as many mappings as its details say; with exactly as many, the tree is sound (all nodes valid, keys strictly increasing, placed under the parents' keys, 84 entries). Lookup of every key is refuted in two cases (key equal to the next child's key; internal node with first key below its key in the parent), and without these two gaps the tree is searchable; nr_mappings = number of keys refuted (overlapping children are dropped silently); pointers above 32 bits are truncated; a loop overflows the stack."
  },
  {
   "property": "C44",
   "status": "partial",
   "theorems": [
    "C44_read_only",
    "C44_refuses",
    "C44_writes",
    "C44_flag",
    "C44_accepts_partial",
    "C44_order",
    "C44_out_of_range_refuted",
    "C44_count_refuted",
    "C44_skip_mappings_refuted"
   ],
   "note": "The whole of thin_check is modelled (options, snapshots, superblock, devices, mapping trees read by any schedule, both space maps, leak repair, flag). Proved: nothing is written unless asked (C44_read_only); repairs are refused on snapshots and overridden roots; apart from the superblock only bitmaps change, and there only counts of one become zero (C44_writes); the flag is cleared and nothing else of the superblock changes (C44_flag); what success implies for devices, trees and both space maps, including one count per pointer for shared nodes of even mapping trees (C44_accepts_partial); independence of thread order (C44_order). Refuted with concrete metadata: mappings outside the data device are accepted, a block mapped twice by the only device is counted once, --skip-mappings fails on a flagged superblock. Missing: metadata with a snapshot."
  },
  {
   "property": "C45",
   "status": "proved",
   "theorems": [
    "C45_compare_total_order",
    "C45_compare_newest_first",
    "C45_bounds",
    "C45_pairs",
    "C45_complete",
    "C45_no_panic",
    "C45_misplaced_node_refuted",
    "C45_small_leaf_lost_refuted",
    "C45_panic_refuted",
    "C45_infos_true",
    "C45_candidates",
    "C45_found",
    "C45_best_first",
    "C45_rebuild",
    "C45_rebuilt_covers",
    "C45_rebuilt_without_details",
    "C45_read_or_rebuild"
   ],
   "note": "Order, bounds, pairs, candidate infos, completeness, rebuilt superblock and absence of panics (given pointers within the device). Limits shown by refutation: a node stored in the wrong block makes the rebuilt data device too small (C45_misplaced_node_refuted); a mapping leaf whose raw values are all at most the number of metadata blocks is taken for a top-level leaf (C45_small_leaf_lost_refuted); a stale pointer off the device panics (C45_panic_refuted)."
  },
  {
   "property": "C46",
   "status": "partial",
   "theorems": [
    "C46_command",
    "C46_shared_refuted",
    "C46_rmap_exact"
   ],
   "note": "C46_command: the whole command (superblock, list of devices, walks with one walker, sorting) prints exactly the mappings into the asked ranges, each once, in order and in maximal regions, for every pool whose devices share no tree block. False when they do: C46_shared_refuted (a tree shared by two devices is reported for the first only). C46_rmap_exact is about the visitor for any visited entries."
  },
  {
   "property": "C47",
   "status": "proved",
   "theorems": [
    "C47_stream_covers"
   ],
   "note": "ThinStream over the mappings the B-tree iterator yields (C12). The unmapped tail after the last mapping is not part of the stream; ThinDeltaStream does not exist at this commit."
  },
  {
   "property": "C48",
   "status": "partial",
   "theorems": [
    "C48_split",
    "C48_split_keys",
    "C48_split_partition",
    "C48_first_key_unchecked_refuted"
   ],
   "note": "Partition proved when the first key is not below the range start (the code never checks it: refuted otherwise); exact success condition and single splits proved for all inputs."
  },
  {
   "property": "C49",
   "status": "partial",
   "theorems": [
    "C49_node_path_partial",
    "C49_node_path_fitting_partial",
    "C49_long_path_panics_refuted",
    "C49_path_truncated_refuted"
   ],
   "note": "Proved for paths of up to 13 entries and any path whose code fits the decoder's buffer; refuted beyond (panic / 8-bit count wrap). The base64 text layer is external and not modelled."
  },
  {
   "property": "C50",
   "status": "proved",
   "theorems": [
    "C50_runs_partition",
    "C50_runs_unique"
   ],
   "note": "For all bitmaps and lengths, with uniqueness."
  },
  {
   "property": "C51",
   "status": "partial",
   "theorems": [
    "C51_size_no_overflow",
    "C51_size_accepted_iff",
    "C51_parsed_no_overflow",
    "C51_parse_display_partial",
    "C51_parse_display_refuted",
    "C51_letter_roundtrip",
    "C51_long_name_partial",
    "C51_long_name_refuted",
    "C51_default_sectors",
    "C51_pretty_partial",
    "C51_pretty_half_unit_refuted",
    "C51_pretty_comment_refuted"
   ],
   "note": "No overflow, acceptance, parsing and multiple<=8192 proved for all inputs; round trip proved for all units but tebibytes, for which it is refuted (displayed as Tib); rounding error proved below one unit, half a unit refuted."
  },
  {
   "property": "C52",
   "status": "partial",
   "theorems": [
    "C52_thin_block_size",
    "C52_cache_block_size",
    "C52_thin_max",
    "C52_cache_max",
    "C52_thin_exact",
    "C52_thin_monotone",
    "C52_thin_overflow_refuted",
    "C52_cache_exact",
    "C52_cache_from_sizes",
    "C52_cache_monotone",
    "C52_cache_overflow_refuted",
    "C52_cache_nr_blocks_refuted"
   ],
   "note": "Caps and block size validation for all inputs; exactness and monotonicity for all inputs without 64-bit wrap (all pools with < 2^63 devices; all caches with 24+hint bytes per block fitting 64 bits); refuted beyond."
  },
  {
   "property": "C53",
   "status": "proved",
   "theorems": [
    "C53_map"
   ],
   "note": "For all histories over u32 keys."
  },
  {
   "property": "C54",
   "status": "partial",
   "theorems": [
    "C54_walk",
    "C54_success_visits_exactly_the_reachable_blocks",
    "C54_known_damage_reported_again",
    "C54_known_root",
    "C54_undamaged_tree",
    "C54_btree_to_map",
    "C54_out_of_range_child_skipped_refuted",
    "C54_unreadable_root_forgotten_refuted",
    "C54_end_walk_error_dropped_refuted"
   ],
   "note": "Complete account of the walk for every device content, sharing and damage pattern (which places, counts, visits, error names), and of undamaged trees (key order, btree_to_map). Refuted parts, shown as theorems: a child pointer beyond the space map is skipped silently, an unreadable root is forgotten on a second walk, the error of end_walk is dropped. Malformed key splits are named by path only."
  },
  {
   "property": "C55",
   "status": "proved",
   "theorems": [
    "C55_classification",
    "C55_no_double_insert",
    "C55_leaf_reinserted_refuted",
    "C55_out_of_range_panics"
   ],
   "note": "For all histories of insertions of blocks within the device; out of range panics."
  },
  {
   "property": "C56",
   "status": "partial",
   "theorems": [
    "C56_ordered",
    "C56_trees",
    "C56_merge_refuted",
    "C56_twice_refuted"
   ],
   "note": "btree_merge.rs is unfinished code: merge ends in todo!(). Proved about what there is, the collection of the leaves: whatever is on the device, the leaves collected are real, in key order and distinct (C56_ordered); for trees that share no block, exactly their leaves are collected if their ranges follow each other, otherwise the merge is refused (C56_trees). Refuted: no merge ever returns a tree (C56_merge_refuted); trees that share blocks are not refused (C56_twice_refuted)."
  },
  {
   "property": "C57",
   "status": "proved",
   "theorems": [
    "C57_counts",
    "C57_no_counting",
    "C57_columns",
    "C57_highest_of_empty",
    "C57_past_the_end",
    "C57_same_devices",
    "C57_after_restore"
   ],
   "note": "Hypotheses: the device has fewer than 2^32 blocks; the superblock and the two top-level trees can be read (devices_listed; C57_after_restore derives it for everything thin_restore writes); nodes that are not roots have at least 84 entries (what the kernel keeps); no mapping of thin block 2^64-1; all mappings inside the data device, otherwise the tool panics (C57_past_the_end); cell values fit in 64 bits (C57_columns). HIGHEST of an empty device shows 0 (C57_highest_of_empty)."
  },
  {
   "property": "C58",
   "status": "partial",
   "theorems": [
    "C58_restore",
    "C58_dump",
    "C58_invalidate",
    "C58_logical_dump",
    "C58_duplicate_era_leaks_refuted"
   ],
   "note": "Proved for every document with distinct eras and ordered ranges: restore's outcome (C58_restore), then plain and logical dump and invalidate of the result (C58_dump, C58_logical_dump, C58_invalidate). Partial because the claim is false in corner cases, which are delimited: ranges across 64-bit boundaries mark extra blocks or fail and a writeset of no blocks fails (C35 refutations; 'awkward' in the theorems); two writesets of one era leak blocks (C58_duplicate_era_leaks_refuted); invalidate looks at the era array only if a writeset is archived (C37)."
  },
  {
   "property": "C59",
   "status": "proved",
   "theorems": [
    "C59_read_only",
    "C59_skips_write_nothing",
    "C59_writes",
    "C59_flag",
    "C59_superblock",
    "C59_version",
    "C59_accepted_is_fine",
    "C59_fine_is_accepted",
    "C59_repaired",
    "C59_restored_met",
    "C59_other_widths_refuted",
    "C59_twice_refuted",
    "C59_skipping_keeps_the_flag_refuted",
    "C59_restored"
   ],
   "note": "whole command; the index trees (array indexes, space map index, count tree) are assumed intact in the verdict theorems, nothing is assumed in the theorems about writes; restored metadata with hint widths other than 4 is rejected (refuted)"
  },
  {
   "property": "C60",
   "status": "proved",
   "theorems": [
    "C60_verdict",
    "C60_superblock_only",
    "C60_restored",
    "C60_restored_met",
    "C60_future_era_refuted",
    "C60_spoiled_passes_refuted"
   ],
   "note": "whole command; the tree of writesets and the array indexes are assumed intact"
  },
  {
   "property": "C61",
   "status": "proved",
   "theorems": [
    "C61_dump_success"
   ],
   "note": "Every device content and every option but --skip-mappings (C24_dump_no_mappings). Mappings of thin block 2^64-1 are excluded: run lengths wrap there. Devices are those of the two trees paired by position, as the code does."
  }
 ]
}