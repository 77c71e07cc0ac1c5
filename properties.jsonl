{"id": "C01", "title": "Block checksums identify the block type and detect damage", "statement": "After write_checksum(buf, kind) succeeds on a 4096-byte buffer, metadata_block_type(buf) returns exactly that kind, and only the first 4 bytes of the buffer changed. A block whose stored checksum word or whose body is altered by any error burst confined to 32 consecutive bits (either region) no longer has that type. A buffer that is not 4096 bytes, or the kind UNKNOWN, is refused.", "quantifier": "all 4096-byte buffers, all block kinds, all positions and contents of a burst of up to 32 bits", "why_tests_cant": "2^32768 buffers; a test samples a few", "anchors": ["src/checksum.rs: metadata_block_type, write_checksum, checksum"]}
{"id": "C02", "title": "B-tree node encode/decode round trip", "statement": "For every node that satisfies the on-disk constraints (strictly increasing keys, equally many keys and values, at most max_entries of them, max_entries a multiple of 3 that fits the block), packing it into a block, checksumming it and reading it back with the checking reader yields the same node and header.", "quantifier": "all headers, key lists and value lists that fit in a block, leaf and internal, every value codec used by the tools", "why_tests_cant": "the space of nodes is astronomically large; off-by-one in offsets shows only for particular sizes", "anchors": ["src/pdata/btree.rs: pack_node, unpack_node, unpack_node_checked, check_and_unpack_node"]}
{"id": "C03", "title": "The node reader only accepts well-formed nodes", "statement": "Whenever the checking node reader accepts a block at location b, the block's checksum is that of a node, its recorded block number is b, its keys are strictly increasing, nr_entries <= max_entries, max_entries is a multiple of 3, all entries lie inside the block, and the decoded keys/values are exactly the little-endian words at the documented offsets; a non-root node accepted by the strict reader has at least max_entries/3 entries. It never reads out of bounds, whatever the bytes.", "quantifier": "all 4096-byte blocks (arbitrary corruption) and all block numbers", "why_tests_cant": "inputs are arbitrary, possibly corrupt, disk blocks", "anchors": ["src/pdata/btree.rs: unpack_node_raw, unpack_node_checked, NodeHeader"]}
{"id": "C04", "title": "Fixed-size record codecs are lossless", "statement": "Packing then unpacking gives back the same record for every thin block_time mapping, device detail, space-map index entry, space-map root, ref count, era writeset, cache mapping and cache hint whose fields are in the range the format has room for; packed size always equals the advertised disk size.", "quantifier": "all field values in the representable range", "why_tests_cant": "2^64 or more values per record", "anchors": ["src/thin/block_time.rs", "src/thin/device_detail.rs", "src/pdata/space_map/common.rs: IndexEntry, SMRoot", "src/era/writeset.rs", "src/cache/mapping.rs", "src/cache/hint.rs"]}
{"id": "C05", "title": "Superblock codecs are lossless and self-identifying", "statement": "For the thin, cache and era formats, writing a superblock and reading it back returns the same superblock for every combination of field values of the right width; the block written always lies at location 0 and carries the checksum of its own superblock type, so it is never accepted as another format's superblock.", "quantifier": "all superblock field values, all three formats", "why_tests_cant": "combinatorial in ~20 fields of up to 64 bits", "anchors": ["src/thin/superblock.rs", "src/cache/superblock.rs", "src/era/superblock.rs"]}
{"id": "C06", "title": "Space-map bitmap codec is lossless", "statement": "Packing a bitmap of 16320 2-bit entries and unpacking it returns the same entries, and unpacking any 4096-byte block then repacking preserves the entry bytes; entry i of the decoded bitmap depends only on bits 2(i mod 32), 2(i mod 32)+1 of 64-bit word i/32.", "quantifier": "all bitmaps / all blocks", "why_tests_cant": "4^16320 bitmaps", "anchors": ["src/pdata/space_map/common.rs: Bitmap, BitmapEntry"]}
{"id": "C07", "title": "Delta compression of word sequences is lossless", "statement": "from_delta(to_delta(ns)) == ns for every sequence of 64-bit words, including sequences that wrap around; and executing the byte code emitted by pack_u64s / pack_shifted_u64s / pack_literal reproduces exactly the little-endian bytes of the input, consuming exactly the emitted code.", "quantifier": "all sequences of u64 of any length below the encoder's documented limit", "why_tests_cant": "unbounded sequences of 64-bit words", "anchors": ["src/pack/delta_list.rs: to_delta", "src/pack/vm.rs: pack_u64s, pack_shifted_u64s, pack_literal, VM::exec"]}
{"id": "C08", "title": "Metadata pack/unpack reproduces each block byte for byte", "statement": "For each 4096-byte metadata block of a known type (superblock, btree node of any kind, index, bitmap, array), unpacking the packed form reproduces the block: every byte that is meaningful to a reader, and the checksum, is unchanged.", "quantifier": "all 4096-byte blocks with a valid checksum", "why_tests_cant": "arbitrary block contents", "anchors": ["src/pack/node_encode.rs: pack_btree_node, pack_superblock, pack_bitmap, pack_index, pack_array", "src/io_engine/spindle.rs: pack_block, unpack_block"]}
{"id": "C09", "title": "A built B-tree contains exactly the pushed key/value pairs, in order", "statement": "For every strictly increasing sequence of (key, value) pairs pushed into a B-tree builder, the tree rooted at the block returned by complete() contains exactly those pairs: an in-order walk of the written blocks yields the sequence. A push whose key is not larger than the previous one is refused.", "quantifier": "all key/value sequences of any length", "why_tests_cant": "behaviour changes at node-size multiples and at each tree level; length is unbounded", "anchors": ["src/pdata/btree_builder.rs: NodeBuilder, BTreeBuilder::complete, build_btree"]}
{"id": "C10", "title": "Built B-trees satisfy the kernel's shape invariants", "statement": "Every tree produced by the builder has all leaves at the same depth, every internal node's key i equals the smallest key of child i, every non-root node holds between max_entries/2 and max_entries entries (hence above the checker's max_entries/3 threshold), the builder's buffering never overflows, and every written node passes the strict node reader.", "quantifier": "all pushed sequences (and interleavings of pushed values and re-used leaves)", "why_tests_cant": "unbounded sequences, rebalancing cases at the tail", "anchors": ["src/pdata/btree_builder.rs: NodeBuilder::push_value, push_nodes, emit_all, unshift_node"]}
{"id": "C11", "title": "B-tree lookup agrees with the tree's contents", "statement": "For every well-formed tree and every key, btree_lookup returns the value stored under that key if there is one and 'not found' otherwise.", "quantifier": "all well-formed trees of any depth and fan-out and all 64-bit keys", "why_tests_cant": "trees and keys are unbounded; boundary keys at every level", "anchors": ["src/pdata/btree_lookup.rs: btree_lookup", "src/pdata/btree_builder.rs"]}
{"id": "C12", "title": "B-tree iterator enumerates every entry once, in key order", "statement": "Stepping the iterator over a well-formed tree yields exactly the in-order list of key/value pairs and then ends.", "quantifier": "all well-formed trees of any shape", "why_tests_cant": "unbounded trees, stepping across subtree boundaries at any depth", "anchors": ["src/pdata/btree_iterator.rs: BTreeIterator"]}
{"id": "C13", "title": "Builder accounts for every block it references", "statement": "After building one or more trees, with leaves shared between them, the reference count of every metadata block in the space map used for writing equals the number of parents (or roots) that point to it, and temporary references are released.", "quantifier": "all sequences of builds, pushes of values and of shared leaf runs, and releases", "why_tests_cant": "counts depend on the history of sharing", "anchors": ["src/pdata/btree_builder.rs: push_nodes, release_leaves, WriteResult"]}
{"id": "C14", "title": "In-core space map behaves as a counter per block", "statement": "For every sequence of inc, dec, set, get, find_free and alloc operations, get(b) is the abstract counter of b, get_nr_allocated is the number of blocks whose counter is non-zero, and operations outside [0,nr_blocks) or beyond the count width fail without changing any other block's count.", "quantifier": "all operation histories and all map sizes and widths", "why_tests_cant": "histories are unbounded", "anchors": ["src/pdata/space_map/base.rs: CoreSpaceMap, RestrictedSpaceMap, RestrictedTwoSpaceMap"]}
{"id": "C15", "title": "Allocation never hands out a block in use, and fails only when full", "statement": "On a counting in-core space map, alloc() returns a block whose count was zero (count becomes 1) or, if it returns none, every block of the map is in use; find_free over a range returns the first free block of the range.", "quantifier": "all operation histories, map sizes and allocation cursors", "why_tests_cant": "cursor wrap-around depends on history", "anchors": ["src/pdata/space_map/base.rs: alloc, find_free"]}
{"id": "C16", "title": "Space maps read back the counts that were written", "statement": "Writing a space map to disk (2-bit bitmaps, overflow tree, index) and reading it back gives every block the reference count it had in core, nr_free of each bitmap equals the number of zero-count entries, none_free_before is the first free entry and nr_allocated is the number of non-zero counts.", "quantifier": "all reference-count assignments and all map sizes", "why_tests_cant": "counts and sizes unbounded; overflow and partial last bitmap", "anchors": ["src/pdata/space_map/common.rs: write_common", "src/pdata/space_map/disk.rs: write_disk_sm", "src/pdata/space_map/metadata.rs: write_metadata_sm"]}
{"id": "C17", "title": "The written metadata space map accounts for itself", "statement": "After write_metadata_sm the bitmap entry on disk of every metadata block, including the blocks of the space map itself that were allocated while it was being written, equals the in-core reference count, and every block of the volume is covered.", "quantifier": "all pre-existing allocations and volume sizes", "why_tests_cant": "self-reference: writing the map changes the map", "anchors": ["src/pdata/space_map/metadata.rs: write_metadata_sm, adjust_counts, write_metadata_common"]}
{"id": "C18", "title": "Space-map checking flags exactly the wrong counts", "statement": "Comparing the on-disk space map with the expected counts reports an error if some block's stored count differs from the expected one other than being a leak (stored 1 while expected 0), and returns as leaks exactly the bitmaps that contain leaked blocks.", "quantifier": "all on-disk bitmaps, overflow trees and expected counts", "why_tests_cant": "arbitrary corrupt inputs", "anchors": ["src/pdata/space_map/checker.rs: BitmapChecker, OverflowChecker, check_space_map"]}
{"id": "C19", "title": "Leak repair only releases leaked blocks", "statement": "repair_space_map changes a bitmap entry only if it is a leak (stored 1, expected 0), which becomes 0; all other entries and their meaning are preserved, afterwards a check reports no leaks, and running it again changes nothing.", "quantifier": "all bitmaps and expected counts", "why_tests_cant": "arbitrary inputs, 16320 entries per bitmap", "anchors": ["src/pdata/space_map/checker.rs: repair_space_map"]}
{"id": "C20", "title": "Restore commits atomically: the superblock is written last", "statement": "During a thin, cache or era restore, no write to block 0 is issued before every other metadata block has been written successfully; so a crash at any moment leaves either the previous superblock or a superblock all of whose reachable blocks are on disk.", "quantifier": "all inputs, all crash points, all batch sizes", "why_tests_cant": "crash points are unbounded", "anchors": ["src/thin/restore.rs: Restorer::finalize", "src/cache/restore.rs", "src/era/restore.rs", "src/write_batcher.rs: WriteBatcher::flush"]}
{"id": "C21", "title": "Restore rejects malformed event sequences", "statement": "The restorer finalizes (writes a superblock) only for event sequences of the shape superblock_b (def* | device with maps/refs)* superblock_e; nested or out-of-order sections are refused and eof without a finished superblock is an error.", "quantifier": "all event sequences of any length", "why_tests_cant": "unbounded event sequences", "anchors": ["src/thin/restore.rs: impl MetadataVisitor for Restorer", "src/cache/restore.rs", "src/era/restore.rs"]}
{"id": "C22", "title": "Restored data space map counts every reference", "statement": "After a restore the reference count of each data block equals the number of (device, thin block) pairs that map to it, with mappings in a shared definition counted once per leaf that holds them, and mapped_blocks of every device equals the number of its mappings.", "quantifier": "all XML inputs (all device/def/ref structures)", "why_tests_cant": "sharing structures are unbounded", "anchors": ["src/thin/restore.rs: MappingRC, Restorer::map, ref_shared, build_data_sm"]}
{"id": "C23", "title": "Dumped mapping runs denote exactly the mappings", "statement": "Expanding the (origin_begin, data_begin, length, time) runs that thin_dump emits for a device yields exactly the device's mappings in order, every run has length >= 1, and adjacent runs are never mergeable.", "quantifier": "all mapping sequences", "why_tests_cant": "unbounded sequences", "anchors": ["src/thin/dump.rs: RunBuilder, MappingVisitor"]}
{"id": "C24", "title": "dump followed by restore is the identity", "statement": "Restoring the output of a dump yields metadata with the same devices, details and mappings (same contents for lookup of every thin block of every device), and dumping again gives the same output.", "quantifier": "all consistent metadata", "why_tests_cant": "unbounded metadata", "anchors": ["src/thin/dump.rs", "src/thin/restore.rs", "src/pdata/btree_builder.rs"]}
{"id": "C25", "title": "Shared-leaf definitions expand to the original trees", "statement": "The metadata optimiser's definitions and references denote the original leaf sequence of every device: replacing each reference by its definition gives back the leaf list, every definition is used, and a leaf appears in at most one definition or device run.", "quantifier": "all sets of leaf sequences (arbitrary sharing)", "why_tests_cant": "sharing patterns are unbounded", "anchors": ["src/thin/runs.rs: Gatherer", "src/thin/metadata.rs: optimise_metadata, build_metadata"]}
{"id": "C26", "title": "thin_delta classifies every block correctly", "statement": "For two devices given by sorted disjoint runs of mappings, the delta output partitions the union of their mapped thin blocks: a block is 'same' iff both map it to the same data block, 'different' iff both map it to different ones, 'left_only'/'right_only' iff only that device maps it; unmapped blocks are not reported.", "quantifier": "all pairs of mapping lists", "why_tests_cant": "interleavings of run boundaries are unbounded", "anchors": ["src/thin/delta.rs: dump_delta_mappings", "src/thin/delta_visitor.rs"]}
{"id": "C27", "title": "thin_trim discards exactly the free ranges", "statement": "The ranges passed to the discard ioctl cover every data block whose reference count is zero and never a block that is in use or beyond the end of the pool.", "quantifier": "all bitmap contents and pool sizes", "why_tests_cant": "discarding an in-use block is data loss; contents unbounded", "anchors": ["src/thin/trim.rs: RangeIterator, trim_data_device"]}
{"id": "C28", "title": "Shrink remapping is a sound relocation", "statement": "When a shrink plan is computed every in-use data block at or above the new size is assigned a distinct free block below it, in-use blocks below stay, the plan fails iff there is not enough free space, and rewriting any mapping run with the plan maps each thin block to the relocated block of its old data block, preserving order, times and length; every resulting data block is below the new size.", "quantifier": "all allocation maps, target sizes and mapping runs", "why_tests_cant": "range arithmetic over unbounded sets", "anchors": ["src/thin/shrink.rs / src/shrink/toplevel.rs: build_remaps, remap, ensure_space"]}
{"id": "C29", "title": "Shrink copying is crash safe and schedule independent", "statement": "While data blocks are being copied, no block referenced by the old metadata is overwritten, so at any crash point the old mapping still reads the old data; when all copies succeed, reading any mapped block through the new mapping returns what the old mapping returned, for every interleaving of the reader and writer threads and any batching.", "quantifier": "all plans, data contents, crash points, batch sizes and thread interleavings", "why_tests_cant": "schedules and crash points are unbounded", "anchors": ["src/thin/shrink.rs: copy_regions", "src/copier/sync_copier.rs", "src/copier/batcher.rs"]}
{"id": "C30", "title": "The copier reports exactly what it failed to copy", "statement": "For every pattern of read and write failures, copy() reports each op at most once as failed, and every op it does not report has had its source contents written to its destination; nr_copied is the number of such ops; adjacent-block aggregation never drops, duplicates or misdirects a block.", "quantifier": "all op lists, failure patterns and batch sizes", "why_tests_cant": "failure patterns are exponential in the number of ops", "anchors": ["src/copier/sync_copier.rs: do_reads, do_writes, aggregate_ops, copy", "src/copier/rescue_copier.rs", "src/io_engine/utils.rs"]}
{"id": "C31", "title": "Cache writeback only marks clean what was copied", "statement": "If cache_writeback with metadata update clears the dirty flag of a cache block, the current contents of that cache block had been written successfully to its origin block; every dirty valid mapping is either copied or counted as failed, and with any failure the command returns an error.", "quantifier": "all metadata, failure patterns, retry counts", "why_tests_cant": "failure patterns unbounded; a wrong clear is data loss", "anchors": ["src/cache/writeback.rs: copy_dirty_blocks, ThreadedCopier::run_, update_v1_metadata, update_v2_metadata"]}
{"id": "C32", "title": "Cache writeback updates nothing but the dirty flags of cleaned blocks", "statement": "After the metadata update, mapping or dirty-bit entries of blocks outside the cleaned set are unchanged, the cleaned ones differ only in the dirty flag, for both metadata formats and any array block sizes.", "quantifier": "all arrays/bitsets and cleaned sets", "why_tests_cant": "unbounded arrays; the cursor logic depends on gaps", "anchors": ["src/cache/writeback.rs: update_v1_metadata, BitsetUpdater"]}
{"id": "C33", "title": "Cache dump/restore preserves mappings, dirty state and hints", "statement": "cache_restore of a cache_dump output reproduces, for each metadata version, the same set of valid mappings with the same origin block and dirty state and the same hints for valid blocks.", "quantifier": "all mapping tables, versions and sizes", "why_tests_cant": "unbounded tables, 64-bit word boundaries of the dirty bitset", "anchors": ["src/cache/restore.rs: mapping, set_dirty, finalize", "src/cache/dump.rs: MappingEmitter, HintEmitter"]}
{"id": "C34", "title": "cache_check accepts only injective, in-range mapping tables", "statement": "If the mapping check reports no error, no origin block is mapped by two cache blocks, every valid mapping lies inside the origin device, invalid entries have origin 0 and no flags, and no dirty bit is set on an invalid entry; conversely such a table is accepted.", "quantifier": "all mapping arrays, both formats", "why_tests_cant": "arbitrary corrupt arrays", "anchors": ["src/cache/check.rs: format1::MappingChecker, format2::MappingChecker"]}
{"id": "C35", "title": "Era restore reproduces the marked blocks", "statement": "After era_restore, the bitset stored for each writeset has bit b set iff some marked-blocks range of that writeset in the input contains b.", "quantifier": "all writesets given as sorted disjoint ranges", "why_tests_cant": "ranges crossing 64-bit words, unbounded", "anchors": ["src/era/restore.rs: writeset_blocks, writeset_e"]}
{"id": "C36", "title": "Era dump emits exactly the marked blocks as maximal ranges", "statement": "The ranges that era_dump emits for a writeset cover exactly the set bits below nr_bits, are non-empty, ordered, disjoint and non-adjacent.", "quantifier": "all bitsets and sizes", "why_tests_cant": "2^n bitsets, word-boundary logic", "anchors": ["src/era/dump.rs: dump_writeset"]}
{"id": "C37", "title": "era_invalidate reports every block written since the threshold", "statement": "The blocks reported by era_invalidate --written-since t are exactly the blocks marked in a writeset of an era >= t (including the current era) or whose archived era is >= t.", "quantifier": "all metadata and thresholds", "why_tests_cant": "a missed block is stale data in a cache; unbounded inputs", "anchors": ["src/era/invalidate.rs: mark_blocks_since, EraArrayCollator, emit_blocks"]}
{"id": "C38", "title": "Logical era dump gives each block its latest era", "statement": "In a logical dump the era of each block is the largest era whose writeset marks it, and the era-array value when none does.", "quantifier": "all writeset trees and era arrays", "why_tests_cant": "unbounded metadata; width selection of the in-core archive", "anchors": ["src/era/dump.rs: EraArchive, collate_writesets, get_writesets_ordered"]}
{"id": "C39", "title": "Batched reads return the right block in the right slot", "statement": "read_many(bs) returns, at index i, the contents of block bs[i] (or an error if that read failed), for any order and duplication of blocks; the I/O batches are contiguous on disk and at most the maximum iovec length; write_many writes each block to its own location.", "quantifier": "all block lists, gap thresholds, failure patterns", "why_tests_cant": "unbounded lists, run/gap splitting corner cases", "anchors": ["src/io_engine/gaps.rs: generate_runs", "src/io_engine/sync.rs: read_many_, write_many_, find_runs_nogap", "src/io_engine/utils.rs"]}
{"id": "C40", "title": "The write batcher is transparent", "statement": "On a device that accepts the writes, a read through the write batcher returns the last block written to that location whether it is still queued or already on disk, flush leaves the disk equal to applying the writes in order, and blocks allocated by it are fresh and recorded in its allocation set.", "quantifier": "all histories of alloc/write/read/flush, all batch sizes", "why_tests_cant": "histories are unbounded", "anchors": ["src/write_batcher.rs: WriteBatcher"]}
{"id": "C41", "title": "Arrays read back the values that were pushed", "statement": "For every array built by pushing (index, value) pairs in increasing index order, entry i of the array on disk is the pushed value or the default, for i below the declared size; every array block except the last is full; out-of-range or non-increasing indexes are refused.", "quantifier": "all sizes and push sequences", "why_tests_cant": "unbounded arrays, sparse indexes", "anchors": ["src/pdata/array_builder.rs: ArrayBlockBuilder, ArrayBuilder", "src/pdata/array.rs"]}
{"id": "C42", "title": "Bitset reading gives the stored bits", "statement": "read_bitset returns bit i = bit (i mod 64) of word i/64 of the stored array for all i < nr_bits, missing array blocks are reported as unknown, and no out-of-range bit is invented.", "quantifier": "all arrays and bit counts", "why_tests_cant": "unbounded", "anchors": ["src/pdata/bitset.rs: BitsetVisitor, BitsetCollector, CheckedBitSet"]}
{"id": "C43", "title": "thin_check's tree summary detects inconsistent trees", "statement": "If a mapping tree is accepted, its leaves' keys are strictly increasing across the whole tree and within the ranges given by the parents' keys, so every key in it can be found by lookup; and nr_mappings is the number of keys.", "quantifier": "all trees of nodes (arbitrary corrupt keys)", "why_tests_cant": "corrupt inputs; unbounded trees", "anchors": ["src/thin/check.rs: summarize_tree, NodeSummary::append"]}
{"id": "C44", "title": "thin_check reports an error for every inconsistent reference", "statement": "thin_check succeeds only if every mapping refers to a data block inside the data device and the expected counts equal the stored ones; it never writes to the metadata unless asked to repair or clear a flag.", "quantifier": "all metadata and option combinations", "why_tests_cant": "arbitrary inputs", "anchors": ["src/thin/check.rs: check, count_data_mappings"]}
{"id": "C45", "title": "Repair picks the best compatible roots and consistent superblock fields", "statement": "The comparison used to rank candidate roots is a total preorder; the rebuilt superblock's transaction id and number of data blocks are the maximum of the overrides and what the devices require, its time is not smaller than any device's or mapping's, and its data device covers every mapped block.", "quantifier": "all sets of candidate roots and overrides", "why_tests_cant": "unbounded candidate sets", "anchors": ["src/thin/metadata_repair.rs: compare_time_counts, rebuild_superblock, override_superblock, lower_bound, upper_bound"]}
{"id": "C46", "title": "Reverse mapping reports exactly the mappings into the asked regions", "statement": "thin_rmap's output runs for a region, expanded, are exactly the (data block, device, thin block) triples with data block in the region, ordered by data block and maximal.", "quantifier": "all mappings and regions", "why_tests_cant": "unbounded", "anchors": ["src/thin/rmap.rs"]}
{"id": "C47", "title": "Migration streams cover the device exactly once", "statement": "The stream of chunks of a thin device covers the bytes from 0 to the end of its last mapped block contiguously and without overlap; copy chunks cover exactly the mapped blocks and skip chunks exactly the unmapped blocks before the last mapped one.", "quantifier": "all mapping lists", "why_tests_cant": "unbounded", "anchors": ["src/thin/migrate/stream.rs: ThinStream"]}
{"id": "C48", "title": "Splitting key ranges partitions them", "statement": "Splitting a key range by a node's keys yields sub-ranges that are ordered, disjoint, and whose union is the part of the range at or above the first key; child ranges tell exactly which keys may appear in the child.", "quantifier": "all ranges and strictly increasing key lists", "why_tests_cant": "unbounded", "anchors": ["src/pdata/btree.rs / btree_error.rs: KeyRange, split_key_ranges"]}
{"id": "C49", "title": "Node paths survive the textual form", "statement": "decode_node_path(encode_node_path(path)) == path for every path of block numbers.", "quantifier": "all paths", "why_tests_cant": "unbounded lists of 64-bit numbers", "anchors": ["src/pdata/btree_error.rs: encode_node_path, decode_node_path"]}
{"id": "C50", "title": "Run iteration partitions the block range", "statement": "RunIter over a bitmap and length yields alternating maximal present/absent ranges covering [0,len) exactly.", "quantifier": "all bitmaps and lengths", "why_tests_cant": "2^n bitmaps", "anchors": ["src/run_iter.rs: RunIter"]}
{"id": "C51", "title": "Size units convert consistently", "statement": "Parsing the displayed form of a storage size gives an equal size, size_bytes never overflows for an accepted size, and pretty-printing keeps the multiple at most 8192 with a rounding error of at most half a unit.", "quantifier": "all multiples, all units", "why_tests_cant": "2^64 values times 14 units", "anchors": ["src/units.rs: StorageSize, Units, to_pretty_print_size"]}
{"id": "C52", "title": "Size estimates are bounded and monotone", "statement": "The thin and cache metadata size estimates never exceed the maximum metadata size, never decrease when the pool, device count or cache grows, and are computed without overflow for accepted block sizes; block-size validation accepts exactly the multiples of 64KiB (32KiB for cache) up to 1GiB.", "quantifier": "all option values", "why_tests_cant": "2^64 inputs", "anchors": ["src/thin/metadata_size.rs", "src/cache/metadata_size.rs"]}
{"id": "C53", "title": "HashVec is a map from keys to values", "statement": "After any sequence of inserts, get(k) returns the last value inserted under k, and len is the number of distinct keys.", "quantifier": "all insert histories", "why_tests_cant": "unbounded histories", "anchors": ["src/utils/hashvec.rs"]}
{"id": "C54", "title": "B-tree walking visits every reachable leaf exactly once", "statement": "A successful walk of a tree calls the visitor once for each distinct reachable leaf in key order, calls visit_again for re-visited nodes, and the space map counts each node once per reference; if any node is unreadable or malformed the walk returns an error naming the affected key range.", "quantifier": "all trees (with sharing) and all corruption patterns", "why_tests_cant": "unbounded", "anchors": ["src/pdata/btree_walker.rs: BTreeWalker"]}
{"id": "C55", "title": "thin_ls and thin_check node classification is consistent", "statement": "The node map used to deduplicate nodes returns for each block the type it was accepted with, refuses to insert a block twice (except that a leaf not read yet may still turn out to be an internal node or an error), and counts leaves, internal nodes and errors exactly.", "quantifier": "all insertion histories", "why_tests_cant": "unbounded histories", "anchors": ["src/thin/check.rs: NodeMap", "src/thin/ls.rs: NodeMap"]}
{"id": "C56", "title": "Merging B-trees yields the union of their leaves", "statement": "Merging the mapping subtrees collects, in key order and without duplication, exactly the leaves of the source trees and the merged tree contains exactly their entries when the key ranges do not overlap; overlapping ranges are refused.", "quantifier": "all pairs/lists of trees", "why_tests_cant": "unbounded", "anchors": ["src/pdata/btree_merge.rs"]}
{"id": "C57", "title": "thin_ls counts mapped, exclusive and shared blocks correctly", "statement": "For metadata whose trees are intact, with any sharing of nodes between devices and any order in which the worker threads deliver the leaves, thin_ls lists every device once with: MAPPED, the number of its mappings; SHARED, the number of its mappings whose data block some other (device, thin block) pair is mapped to as well; EXCLUSIVE, the rest; HIGHEST, its highest mapped thin block; each converted to the unit of its column.", "quantifier": "all pools (any number of devices, any depth and sharing of trees), all columns, all orders of leaf delivery", "why_tests_cant": "The shared count of a subtree is derived from reference counts of nodes and of data blocks collected by concurrent threads; every sharing pattern and delivery order must give the same totals.", "anchors": ["src/thin/ls.rs: read_node_, summarize_tree, summariser, exclusive_leaves_summariser, count_data_mappings, LsTable::push_row, ls"]}
{"id": "C58", "title": "era_restore writes what the document says, and the era tools read it back", "statement": "Restoring an era document with distinct eras and ordered ranges and entries onto a device with enough space succeeds and leaves a superblock with the document's fields, an archive with exactly the document's writesets (each marking exactly the marked blocks), an era array with the document's era of every block (0 where it has none) and a metadata space map that counts exactly the blocks in use; otherwise it reports an error and does not panic. Dumping the result gives the document's writesets in era order and the era of every block; the logical dump gives each block's latest era; era_invalidate reports the blocks written since the era asked for.", "quantifier": "all documents, device sizes, previous device contents and batch sizes", "why_tests_cant": "documents and device sizes are unbounded", "anchors": ["src/era/restore.rs: Restorer, finalize, writeset_b, writeset_blocks, writeset_e, era", "src/era/dump.rs: dump", "src/era/invalidate.rs", "src/pdata/array_builder.rs", "src/pdata/btree_builder.rs", "src/pdata/space_map/metadata.rs"]}
{"id": "C59", "title": "cache_check accepts exactly what is fine, and its repairs are complete and touch nothing else", "statement": "cache_check without --auto-repair and --clear-needs-check never writes to the device, whatever it holds, nor does it with any of the --skip options. With them it writes only the superblock (which afterwards reads as before but with the needs-check flag cleared) and metadata space map bitmaps, in which it only lowers counts of one to zero. On metadata whose index trees are intact it succeeds exactly if every array block can be read, every mapping is fine and no origin block is mapped twice, no bit set is too long, and the metadata space map counts exactly the blocks in use, leaks excepted if they are ignored or repaired. After a successful repair no leaks remain and any later check without repairs succeeds. Metadata that cache_restore has written passes.", "quantifier": "all device contents, sizes, options, unreadable and unwritable blocks", "why_tests_cant": "device contents and failure patterns are unbounded", "anchors": ["src/cache/check.rs: check, check_mappings, inc_superblock, MappingChecker, HintChecker", "src/checker.rs / src/pdata/space_map/checker.rs: check_metadata_space_map, repair_space_map", "src/cache/superblock.rs: read_superblock, write_superblock", "src/pdata/bitset.rs: read_bitset_checked_with_sm"]}
{"id": "C60", "title": "era_check accepts exactly what is fine", "statement": "On metadata whose tree of writesets and array indexes are intact, era_check succeeds exactly if the format version is known, every archived writeset can be read and has no block beyond its last bit, and every block of the era array can be read and holds no era later than the current one; otherwise it reports an error, and it never panics. With --super-block-only the version alone decides. What era_restore writes passes, unless the document has an era in the future. The current writeset and the metadata space map are not checked.", "quantifier": "all device contents with intact indexes, sizes, numbers of writesets, unreadable blocks, restored documents", "why_tests_cant": "metadata and damage patterns are unbounded", "anchors": ["src/era/check.rs: check, EraChecker, check_superblock", "src/pdata/bitset.rs: read_bitset_checked_with_sm", "src/pdata/array_walker.rs", "src/pdata/btree_walker.rs: btree_to_map"]}
{"id": "C61", "title": "A dump that reports success is complete", "statement": "Whatever is on the metadata device, if thin_dump exits successfully then every node of the mapping tree of every device it had to dump, from the root to the leaves, could be read and was accepted, and the output is a complete document with exactly one section per such device, in order, whose mappings (references replaced by the definitions printed before) are exactly the entries of that tree's leaves; nothing unreadable is silently left out.", "quantifier": "all contents of the metadata device including damaged ones, all readable/unreadable patterns, all options (repair, metadata snapshot, dev-id selection, overrides)", "why_tests_cant": "there are unboundedly many ways to damage metadata; tests cover a few corruptions and cannot show that no unreadable node is ever skipped", "anchors": ["src/thin/dump.rs: dump_with_formatter, dump_metadata, emit_entries, emit_leaves", "src/pdata/btree_leaf_walker.rs: LeafWalker::walk, walk_node_, walk_nodes, get_depth", "src/thin/metadata.rs: build_metadata_with_dev, collect_leaves, optimise_metadata"]}
