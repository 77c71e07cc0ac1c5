{
 "C01": [
  "proved",
  "All buffers; bursts of up to 32 bits in the body and any change of the stored word. crc32c (external crate) is modelled bitwise."
 ],
 "C02": [
  "proved",
  "Any value codec that is lossless (instances: C04), any old buffer contents."
 ],
 "C03": [
  "proved",
  "Acceptance characterised by iff against the byte layout; no panic on any bytes."
 ],
 "C04": [
  "proved",
  "All record types; the range is exactly what the slot has room for (every byte string is the image of an in-range record). Times >= 2^24 are shown to corrupt the block number (refuted variant)."
 ],
 "C05": [
  "proved",
  "All three formats; the writer ignores its location argument and always writes block 0."
 ],
 "C06": [
  "proved",
  "Round trip in both directions and bit-level layout."
 ],
 "C07": [
  "proved",
  "Delta and VM round trips for all 64-bit sequences; packing panics only for runs > 4095 (shown by C07_long_run_panics_refuted, beyond any metadata block)."
 ],
 "C08": [
  "partial",
  "Every packed block reproduces byte for byte. Whole device: proved when the number of blocks is a multiple of the chunk size, for every shuffle/interleaving; otherwise the packer drops a chunk (refuted). zlib is a parameter."
 ],
 "C09": [
  "proved",
  "Values pushed in any order and number; the walk is the iterator (C12) on the flushed device. For leaves re-used with push_nodes an out-of-order push inside the leaf is accepted (C09_push_inside_reused_leaf_refuted)."
 ],
 "C10": [
  "proved",
  "Any mixture of values and pre-built leaves in key order; strict reader passes on every block; no panic of the builder's buffering asserts."
 ],
 "C11": [
  "proved",
  "All trees readable by the lenient reader whose internal keys separate children; slice::binary_search is modelled by a linear search (the std function itself is not modelled)."
 ],
 "C12": [
  "proved",
  "Same class of trees."
 ],
 "C13": [
  "proved",
  "Sessions of runs and trees; counts equal pointers; temporary references released; values counted once per distinct leaf."
 ],
 "C14": [
  "partial",
  "Counter-per-block refinement for every history (core map), marks for the bit-set maps. inc that meets a saturated block fails half way (refuted atomicity); ranges that wrap 2^64 excluded; RestrictedTwo clear from 2 miscounts (refuted)."
 ],
 "C15": [
  "proved",
  "For the counting map (CoreSpaceMap). The bit-set variants fail when full (C15_restricted_full_refuted)."
 ],
 "C16": [
  "proved",
  "write_disk_sm through any usable batcher: bitmaps, nr_free, first free entry, overflow tree, index tree, counts read back, frame, failure only when exhausted. Metadata variant under C17."
 ],
 "C17": [
  "proved",
  "Bitmap entry of every metadata block equals the final in-core count, index covers the device, reference-count tree exact; contiguity hypothesis shown to hold for every batcher started on an empty space map (C17_contiguous). nr_free of an index entry is claimed only when no released block is re-allocated during the write (with 16330 blocks recorded and the last four released it is off by one: found by evaluating the model, left out of the build because coqchk needs 7 minutes for it)."
 ],
 "C18": [
  "partial",
  "check_low_ref_counts characterised exactly (iff) for every device; check_disk_space_map / check_metadata_space_map exactly (iff) when the index and reference count trees are undamaged; for complete maps and expected counts below 256, success iff every stored count is expected or a leak; maps just written by C16/C17 check clean. The unrestricted English claim is false: four _refuted theorems (u8 truncation of expected counts, overflow entry without tree entry, index too short, panic on out-of-range tree key). Missing: damaged trees (the walk then fails, C54)."
 ],
 "C19": [
  "proved",
  "repair changes only leaked entries (1->0) of listed bitmaps; check afterwards is clean; idempotent byte for byte. NoDup of bitmap locations assumed. nr_free in the index is not updated by the code."
 ],
 "C20": [
  "partial",
  "Thin, cache and era restore: for every event sequence, failing device and batch size block 0 is written at most once, when </superblock> is handled and after everything queued was sent; at every crash point the old superblock is in place unless all writes were issued (C20_cache_crash, C20_era_crash, C20_crash...). 'Successfully' is refuted (results of batched block writes are not checked: C20_unwritable_block_refuted), hence partial."
 ],
 "C21": [
  "proved",
  "All event sequences; for properly nested tags (what the XML reader delivers) exactly documents get a superblock; without the end-tag check an unclosed last section is accepted (C21_unclosed_refuted)."
 ],
 "C22": [
  "partial",
  "C22_restore: for every document (any definitions, devices, references), device size, previous contents, batch size and the --transaction-id/--data-block-size options, restore succeeds with superblock, details, mapping trees and both space maps on the device as the document says (data counts: once per leaf holding the mapping), or errs only for exhaustion / out-of-range mapping / counter overflow; never panics. Hypotheses (sections): thin blocks increasing per section, field ranges, names and ids not reused, references to earlier definitions, which may be empty only as the first item of a device. The part about mapped_blocks is false and refuted (copied from the document); also refuted: duplicate dev_id, --nr-data-blocks."
 ],
 "C23": [
  "proved",
  "Runs of emit_leaves over any readable leaves expand to the leaves' entries, are non-empty and unmergeable; entries with references; bad leaves fail. The output visitor is taken not to fail; reading in batches is modelled as reading in order."
 ],
 "C24": [
  "partial",
  "C24_dump/_snap/_repaired/_no_mappings: for every readable metadata (any tree shapes and sharing, any selection of devices) the output describes exactly the devices dumped. C24_round_trip: restoring it onto any device, previous contents and batch size gives metadata with the same superblock attributes, devices, details and mappings, space maps included, or fails only for lack of metadata space, a mapping beyond the data device or a counter overflow; dumping the restored metadata again describes the same devices in the same order. C24_lookup: what every lookup in restored metadata returns. 'The same output' is refuted: definitions are named after block numbers (also needs_check is cleared and the version becomes 2). Also refuted: devices and details are paired by position, so inconsistent trees give a device the details of another."
 ],
 "C25": [
  "proved",
  "optimise_metadata (thin/runs.rs, thin/metadata.rs) for every set of leaf sequences"
 ],
 "C26": [
  "proved",
  "The whole command from the superblock on: C26_command (devices by id or trees by root, live or metadata-snapshot superblock), C26_refused (unknown device, device lists that differ). With --verbose the merged ranges misstate data blocks (C26_verbose_data_blocks_refuted). Opening the device and text formatting are not modelled."
 ],
 "C27": [
  "proved",
  "From the bitmap blocks to the discard ioctls, for any ioctl failures. Reading the index tree is C54/C12; an index tree with missing keys shifts bitmaps (C27_sparse_index_refuted)."
 ],
 "C28": [
  "proved",
  "The plan (C28_plan) and the rewritten mappings (C28_rewrite), for every document and new size. RangeSet (a dependency) is modelled by its documented behaviour. C28_size_not_updated: the superblock event keeps its old nr_data_blocks. A run of length 0 panics."
 ],
 "C29": [
  "proved",
  "Every schedule of the two copier threads, stopped anywhere, every fault pattern, batch and chunk size. Blocks are transferred one at a time and hold arbitrary contents meanwhile."
 ],
 "C30": [
  "partial",
  "SyncCopier: proved, with termination under fair schedules. RescueCopier: proved except that it can list an op both as a read and as a write error (C30_rescue_reports_twice_refuted). Needs distinct destinations (C30_same_destination_refuted). Byte offsets and u32 bitmap indexes are not modelled."
 ],
 "C31": [
  "partial",
  "For intact metadata in which no two mappings share an origin block, any schedule and failure pattern of the copiers, any number of retries: the cleaned blocks are exactly those whose contents reached the origin, everything to be copied is cleaned or failed, success means all were copied, an error comes from a failed copy, a failed metadata write or (version 2) a stray dirty bit; metadata is untouched without update. Missing: metadata with damaged arrays (the command then stops with an error before the update) and mappings that share an origin block."
 ],
 "C32": [
  "proved",
  "Both formats, any cleaned set: on success the array is the old one with exactly the cleaned flags or bits cleared and no other block of the device changed; when a metadata write fails, every other array block is old or new. A version 1 cache with no mappings panics (refuted)."
 ],
 "C33": [
  "partial",
  "C33_restore, C33_dump, C33_roundtrip: for either version on either side, any number of cache blocks but 0, any mappings, dirty bits and hints, repairing or not, any target device and batch size: dump gives a document saying the same about every block; restoring it errs only for exhaustion and otherwise gives metadata that says the same, with an exact metadata space map, and dumps to the same document. Refuted: a cache of no blocks (dump panics; version 2 restore fails), hints not of 4 bytes (panic). Not modelled: the text of the XML between the two (the documents are the visitor calls); policy names that are not valid UTF-8 are refused by dump."
 ],
 "C34": [
  "partial",
  "Both directions for arbitrary array blocks (unreadable, corrupt, any values) under an intact index tree, both formats, walked on the check's shared space map. Not covered: a damaged index tree (C54 covers the walker there). Refuted: a mapping root already counted by the shared map is not checked; a zero data block size panics; the origin size wraps."
 ],
 "C35": [
  "partial",
  "Restoring one writeset (writeset_b/blocks/e over the real array builder): exact for ranges inside 64-bit words, and no marked block is ever lost; refuted for ranges crossing a word boundary (extra marks, or a spurious failure in the last word) and for nr_bits = 0"
 ],
 "C36": [
  "proved",
  "For every readable bitset: emitted ranges are exactly the marked blocks, ordered, with gaps; stray bits beyond the end do not matter (except bit 2^32-1, excluded by hypothesis, met by all writesets of at most 2^32-64 blocks and all without stray bits)"
 ],
 "C37": [
  "partial",
  "Exact characterisation of what is reported; equals the claim when the current writeset is empty and the era array is older than the writesets; refuted: the current writeset is ignored, and the era array is ignored without archived writesets"
 ],
 "C38": [
  "proved",
  "For every consistent metadata (contiguous eras, readable writesets without stray bits, era array of the right size); refutations show what happens outside: future writesets dropped, panics on stray bits and on empty arrays"
 ],
 "C39": [
  "proved",
  "SyncIoEngine: run splitting, read_many, write_many for every device that moves whole blocks. Short reads panic and EOF loops (refuted theorems). The async (io_uring) engine is not modelled."
 ],
 "C40": [
  "proved",
  "For every history. The device must accept the writes: flush drops per-block write errors (C40_flush_hides_failure_refuted)."
 ],
 "C41": [
  "proved",
  "any value type of 1..4072 bytes, any pushes, any usable device"
 ],
 "C42": [
  "partial",
  "tolerant reader: exact bits, unknown for damaged blocks, errors name the damaged blocks; strict reader: exact bits for i < nr_bits on an intact array. Refuted for the strict reader: bits beyond nr_bits of the last word show up in ones(), and a too short array is read as clear without error"
 ],
 "C43": [
  "partial",
  "Proved for every device image and every order of the leaves: an accepted device has at least as many mappings as its details say; with exactly as many, the tree is sound (all nodes valid, keys strictly increasing, placed under the parents' keys, 84 entries). Lookup of every key is refuted in two cases (key equal to the next child's key; internal node with first key below its key in the parent), and without these two gaps the tree is searchable; nr_mappings = number of keys refuted (overlapping children are dropped silently); pointers above 32 bits are truncated; a loop overflows the stack."
 ],
 "C44": [
  "partial",
  "The whole of thin_check is modelled (options, snapshots, superblock, devices, mapping trees read by any schedule, both space maps, leak repair, flag). Proved: nothing is written unless asked (C44_read_only); repairs are refused on snapshots and overridden roots; apart from the superblock only bitmaps change, and there only counts of one become zero (C44_writes); the flag is cleared and nothing else of the superblock changes (C44_flag); what success implies for devices, trees and both space maps, including one count per pointer for shared nodes of even mapping trees (C44_accepts_partial); independence of thread order (C44_order). Refuted with concrete metadata: mappings outside the data device are accepted, a block mapped twice by the only device is counted once, --skip-mappings fails on a flagged superblock. Missing: metadata with a snapshot."
 ],
 "C45": [
  "proved",
  "Order, bounds, pairs, candidate infos, completeness, rebuilt superblock and absence of panics (given pointers within the device). Limits shown by refutation: a node stored in the wrong block makes the rebuilt data device too small (C45_misplaced_node_refuted); a mapping leaf whose raw values are all at most the number of metadata blocks is taken for a top-level leaf (C45_small_leaf_lost_refuted); a stale pointer off the device panics (C45_panic_refuted)."
 ],
 "C46": [
  "partial",
  "C46_command: the whole command (superblock, list of devices, walks with one walker, sorting) prints exactly the mappings into the asked ranges, each once, in order and in maximal regions, for every pool whose devices share no tree block. False when they do: C46_shared_refuted (a tree shared by two devices is reported for the first only). C46_rmap_exact is about the visitor for any visited entries."
 ],
 "C47": [
  "proved",
  "ThinStream over the mappings the B-tree iterator yields (C12). The unmapped tail after the last mapping is not part of the stream; ThinDeltaStream does not exist at this commit."
 ],
 "C48": [
  "partial",
  "Partition proved when the first key is not below the range start (the code never checks it: refuted otherwise); exact success condition and single splits proved for all inputs."
 ],
 "C49": [
  "partial",
  "Proved for paths of up to 13 entries and any path whose code fits the decoder's buffer; refuted beyond (panic / 8-bit count wrap). The base64 text layer is external and not modelled."
 ],
 "C50": [
  "proved",
  "For all bitmaps and lengths, with uniqueness."
 ],
 "C51": [
  "partial",
  "No overflow, acceptance, parsing and multiple<=8192 proved for all inputs; round trip proved for all units but tebibytes, for which it is refuted (displayed as Tib); rounding error proved below one unit, half a unit refuted."
 ],
 "C52": [
  "partial",
  "Caps and block size validation for all inputs; exactness and monotonicity for all inputs without 64-bit wrap (all pools with < 2^63 devices; all caches with 24+hint bytes per block fitting 64 bits); refuted beyond."
 ],
 "C53": [
  "proved",
  "For all histories over u32 keys."
 ],
 "C54": [
  "partial",
  "Complete account of the walk for every device content, sharing and damage pattern (which places, counts, visits, error names), and of undamaged trees (key order, btree_to_map). Refuted parts, shown as theorems: a child pointer beyond the space map is skipped silently, an unreadable root is forgotten on a second walk, the error of end_walk is dropped. Malformed key splits are named by path only."
 ],
 "C55": [
  "proved",
  "For all histories of insertions of blocks within the device; out of range panics."
 ],
 "C56": [
  "partial",
  "btree_merge.rs is unfinished code: merge ends in todo!(). Proved about what there is, the collection of the leaves: whatever is on the device, the leaves collected are real, in key order and distinct (C56_ordered); for trees that share no block, exactly their leaves are collected if their ranges follow each other, otherwise the merge is refused (C56_trees). Refuted: no merge ever returns a tree (C56_merge_refuted); trees that share blocks are not refused (C56_twice_refuted)."
 ],
 "C57": [
  "proved",
  "Hypotheses: the device has fewer than 2^32 blocks; the superblock and the two top-level trees can be read (devices_listed; C57_after_restore derives it for everything thin_restore writes); nodes that are not roots have at least 84 entries (what the kernel keeps); no mapping of thin block 2^64-1; all mappings inside the data device, otherwise the tool panics (C57_past_the_end); cell values fit in 64 bits (C57_columns). HIGHEST of an empty device shows 0 (C57_highest_of_empty)."
 ],
 "C58": [
  "partial",
  "Proved for every document with distinct eras and ordered ranges: restore's outcome (C58_restore), then plain and logical dump and invalidate of the result (C58_dump, C58_logical_dump, C58_invalidate). Partial because the claim is false in corner cases, which are delimited: ranges across 64-bit boundaries mark extra blocks or fail and a writeset of no blocks fails (C35 refutations; 'awkward' in the theorems); two writesets of one era leak blocks (C58_duplicate_era_leaks_refuted); invalidate looks at the era array only if a writeset is archived (C37)."
 ],
 "C59": [
  "proved",
  "whole command; the index trees (array indexes, space map index, count tree) are assumed intact in the verdict theorems, nothing is assumed in the theorems about writes; restored metadata with hint widths other than 4 is rejected (refuted)"
 ],
 "C60": [
  "proved",
  "whole command; the tree of writesets and the array indexes are assumed intact"
 ],
 "C61": [
  "proved",
  "Every device content and every option but --skip-mappings (C24_dump_no_mappings). Mappings of thin block 2^64-1 are excluded: run lengths wrap there. Devices are those of the two trees paired by position, as the code does."
 ]
}