# Formal model of thin-provisioning-tools in Rocq (Coq 8.16.1)

## Trusted base
* Coq 8.16.1's kernel (`coqc`, no plugins, no kernel flags changed).
* `Print Assumptions` is issued at the end of every `Props_*.v` file for every
  theorem claimed in MANIFEST.json.  Every one prints *Closed under the global
  context*: no axiom is used, neither our own nor the standard library's
  (sets and maps are modelled as functions compared pointwise, or as lists, so
  functional extensionality is not needed).  A checker that lists the axioms of
  the whole loaded environment also shows `Coq.ssr.ssrunder.Under_rel.*`: these
  are the fields of a module type in the standard library's ssreflect plugin
  files, loaded with it; no theorem here depends on them.
* The hand translation Rust -> Gallina.  Each definition in a `*_Model.v` file
  carries a comment with the file and the lines of /repo it models and lists
  the simplifications made.

## Conventions
* Rust `u8/u16/u32/u64/usize` are modelled by `N` (binary naturals).  Where the
  Rust code wraps (`wrapping_*`, `<<` on a fixed width, `as u32`) the model
  applies the modulus explicitly.  Where the Rust code could overflow with
  plain `+`/`*`, the theorem carries the width hypothesis or the model checks
  the bound.
* `Result` is `res A := Ok a | Err | Panic`; `Panic` stands for `unwrap` on
  `None`, slice index out of range, `assert!`.  Error messages are dropped,
  except where the kind of error matters.
* Byte strings are `list N` with `Forall (fun b => b < 256)`.
* Disks are functions `N -> block`; a write updates one point.  Disk I/O
  failures are modelled by an oracle where the property is about failures.
* Threads: where the property depends on interleaving (C29, C30) the model is a
  transition system over reader/writer steps and the theorem quantifies over
  all traces.  Elsewhere a `Mutex`-protected section is one atomic step.
* Not modelled: memory allocation, `Arc`, progress reporting, command-line
  parsing, the XML tokenizer (quick_xml), ioctls, O_DIRECT, timing.

## Layout
* `theories/Base.v`       result monad, byte/bit/list lemmas.
* `theories/X_Model.v`    Gallina definitions modelling the Rust code (with
                          source citations) - no proofs.
* `theories/X_Spec.v`     (where needed) the independent specification.
* `theories/X_Proofs.v`   lemmas.
* `theories/Props_X.v`    the claimed theorems, each stated in terms of
                          model + spec, `Print Assumptions`, and examples
                          showing the hypotheses are met by a concrete case.

Suffixes: `_partial` - part of the English property only (what is missing is in
the comment and in MANIFEST.json); `_refuted` - the model (hence, up to the
translation, the code) violates the English property and a concrete witness is
proved.

## Per-property plan
| id | model | proof |
|---|---|---|
| C01 | checksum.rs with a bitwise CRC32C | xor-linearity and bijectivity of the LFSR step |
| C02,C03 | btree.rs node codec on 4096-byte lists | list/LE arithmetic |
| C04,C05,C06 | record and superblock codecs | LE arithmetic, bit lemmas |
| C07,C08,C49 | pack/ delta list, VM byte code, node packing | induction on deltas; VM execution lemma |
| C09-C13 | btree_builder/lookup/iterator over an abstract block store | builder invariant; induction on tree depth |
| C14,C15 | space_map/base.rs | refinement to `N -> N`, histories as lists of ops |
| C16,C17 | space_map/common, disk, metadata writing | per-bitmap induction, read-back function as spec |
| C18,C19 | space_map/checker.rs | pointwise characterisation |
| C20,C21,C22,C24 | thin/restore.rs state machine + write batcher trace | trace invariants |
| C23,C25 | thin/dump.rs RunBuilder, thin/runs.rs Gatherer | fold invariants |
| C26 | thin/delta.rs merge loop | fuel-free well-founded merge, pointwise classification |
| C27 | thin/trim.rs range iterator | pointwise |
| C28,C29 | shrink planning, remap, copying | range arithmetic; transition system |
| C30,C31,C32 | copier, writeback | oracle-indexed copy semantics |
| C33,C34 | cache restore/dump/check | fold invariants |
| C35-C38 | era restore/dump/invalidate | word/bit lemmas, fold invariants |
| C39,C40 | io_engine gaps/sync, write_batcher | list partition lemmas, refinement |
| C41,C42 | array builder, bitset readers | fold invariants |
| C43,C44,C55 | thin/check.rs pieces | structural induction on trees |
| C45 | metadata_repair.rs comparison/superblock | arithmetic |
| C46,C47 | rmap, migrate stream | fold invariants |
| C48 | key-range splitting | list induction |
| C50-C53 | small utilities | direct |
| C54,C56 | walker, merge | structural induction |

## What is modelled and what is not
Simplifications that hold throughout (each is repeated at the definition):
* `HashMap`, `BTreeMap`, `RoaringBitmap`, `FixedBitSet`, `Vec` are lists or
  functions with the same observable behaviour; vector capacities are exact.
  `slice::binary_search` is a linear search for the same answer; `sort_by` is
  insertion sort.
* zlib and base64 are oracles with the round-trip law as a hypothesis of the
  theorem (C08, C49).  Block devices are oracles: a read may fail, a write may
  fail, each block on its own (C39, C42, C54).  `read_many` failing as a whole
  is modelled as each of its blocks failing.  The async io_uring engine is not
  modelled.
* f64 arithmetic in unit pretty-printing is exact rational arithmetic (C51).
* Tree walks take fuel (the number of levels) because block contents can be
  cyclic; theorems show that the fuel given suffices.
* `def` names in thin XML are numbers; XML text itself is not modelled, the
  visitor events are.
* The array walker's reference counts of array blocks are left out (nothing
  reads them); array blocks are visited after the index walk, which is the order
  in which their errors are reported.
* The events that a dump has emitted before it fails are left out for era.
* Threads are modelled only where a property depends on them.

| cluster | files of /repo/src | left out |
|---|---|---|
| Csum, Codec | checksum.rs, pdata/unpack.rs, btree.rs (codec), {thin,cache,era}/superblock.rs, pdata/space_map/common.rs (records) | - |
| Pack | pack/{delta_list,node_encode,vm,toplevel}.rs | zlib, threads of the packer |
| SpaceMap | pdata/space_map/{base,mod}.rs, RestrictedSpaceMap, RestrictedTwo..., nocrash | - |
| Io, Batcher | io_engine/{base,sync,gaps,...}, write_batcher.rs | async engine, O_DIRECT |
| Builder, Session | pdata/btree_builder.rs, btree.rs lookup, btree_iterator.rs, thin/restore.rs reference counting | - |
| Walker | pdata/btree_walker.rs, btree_to_map | LeafWalker, error paths' text |
| Array | pdata/array*.rs, bitset.rs | - |
| Runs, ThinOut | thin/{runs,dump,delta,trim,rmap,migrate,...}.rs | ioctls, threads |
| Utils | math.rs, units.rs, key ranges, hashvec, node maps | - |
| Era | era/{restore (writesets),dump,invalidate}.rs | superblock/section bookkeeping of restore |
| SmWrite | pdata/space_map/{common,disk,metadata}.rs, writing | - |
| SmCheck | pdata/space_map/checker.rs | report texts; read_many/write_many fail block by block |
| Restore | thin/restore.rs, Override of metadata_repair.rs, the event order of thin/xml.rs | report texts; BTreeMaps are sorted lists; an XML parse error is the end of the event sequence |
| RestoreDoc (C22, C24) | the same model, run on whole documents: `restored` describes superblock, details, mapping trees, data and metadata space maps on the device | documents outside `sections` (unsorted thin blocks, duplicate ids or names, empty or later definitions) only by the refutations |
| Shrink (C28) | shrink/toplevel.rs (build_remaps, find_first, remap), thin/shrink.rs (MappingCollector, DataRemapper) | the RangeSet dependency is a sorted list of ranges with its documented coalescing and gaps; sums of block numbers do not wrap |
| Copier (C29, C30) | copier/{sync_copier,rescue_copier,batcher,wrapper}.rs, thin/shrink.rs copy_regions | byte offsets, block sizes as numbers of bytes; progress reports; a vectored read or write is one step per block (its contract is C39's); threads are a transition system driven by a schedule |
| Writeback (C31, C32) | cache/writeback.rs with the copiers of Copier_Model and the arrays of Array_Model | the data devices are maps from block numbers to contents; page alignment, offsets, report texts left out; if an error stops the retry pass early, the operations sent until then are not copied |
| CacheCheck | C34 | `cache/check.rs` mapping checkers of both formats, origin limit from the discard fields, `ArrayWalker` on the shared space map | errors = [] iff table fine, for any contents of the array blocks under an intact index; refutations for shared roots, zero block size, wrapping product |
| CacheIo | C33 | `cache/restore.rs` (whole visitor state machine), `cache/dump.rs` (`dump_metadata`, both mapping emitters, hints), `cache/ir.rs`; array builder, bitset reader and array walker of the Array cluster, metadata space map of SmWrite | documents = visitor calls (XML text not modelled); from_utf8 is a parameter; roundtrip through the specification `cache_on`/`cache_restored` |
| Repair (C45) | src/thin/metadata_repair.rs: compare_time_counts, merge_time_counts, NodeCollector (gather_info and its helpers, collect_infos, gather_roots), devices_identical, lower_bound, upper_bound, find_root_pairs, find_roots, to_found_roots, to_partial_found_roots, check_data_block_size, is_superblock_consistent, rebuild_superblock, read_or_rebuild_superblock; btree_to_key_set | The two unstable sorts are parameters with only their contract; recursion carries fuel (C45_no_panic shows it is never exhausted). Not modelled: log_results, override_superblock is Restore_Model.override_sb | Invariant over the collector: what is recorded of a block is true of the tree stored there (C45_infos_true), everything of an intact pool is recorded (C45_complete); pairs characterised exactly (C45_pairs); superblock fields (C45_rebuild, C45_rebuilt_covers). Refuted: a misplaced node, a leaf of small values, pointers off the device |
| C43, C44 | thin/check.rs: NodeSummary, summarize_tree, read_node_, get_depth, read_internal_nodes, collect_nodes_in_use, unpacker/summariser/read_leaf_nodes (leaves delivered in any order), check_mapped_blocks, create_*_sm, get_devices, get_thins_*, clear_needs_check_flag, check (all options but the paths) | ThinCheck_Model; ThinCheck_Spec has `holds` (keys below a block), `sound`, `searchable`, `finds`, `under` | Invariants: the node map holds only true nodes below the roots; a summary is justified by the keys below its block. C43 is partial: accepted trees need not be searchable (two gaps, refuted with witnesses and proved to be the only ones), a loop overflows the stack, pointers are cut to 32 bits. C44: what is written, the flag, what success guarantees about devices and counts; refutations for what it lets pass. |
| C56 | pdata/btree_merge.rs: LeafVisitor, collect_leaves, merge (unfinished: todo!()) | Merge_Model on top of Walker_Model; Merge_Spec: `summarises`, `in_sequence` | Lock step of the walk with a refusing visitor and the walk with an accepting one (Merge_Proofs), then the walker's theorems of C54. Partial: merge never returns. |
| C24 | pdata/btree_leaf_walker.rs (all), thin/metadata.rs (collect_leaves, build_metadata_with_dev, build_metadata_without_mappings, devices_iter; optimise_metadata is Runs_Model), thin/dump.rs: to_superblock_ir, dump_metadata, dump_with_formatter (emit_entries is ThinOut_Model) | Dump_Model: the calls made on the output visitor, for an output that does not fail; XML text is ThinOut_Model (C26). Dump_Spec: `mapping_tree` (any tree the strict reader accepts, sharing allowed), `pool_ok`. Not modelled: mk_context, the choice of writer | Walker invariant: leaves are visited in key order and the entries emitted for a device are its mappings; the run/definition split only groups them (C25). Then C22 applies to the document produced: C24_round_trip. "Dumping again gives the same output" is refuted (definition names are block numbers, flags, version); proved instead: it describes the same devices in the same order. |
| C57 | thin/ls.rs: NodeSummary, is_seen, read_node_, read_internal_nodes, collect_nodes_in_use, summarize_tree, count_mapped_blocks, unpacker/summariser/exclusive_leaves_summariser (leaves delivered in any order), count_data_mappings, the numbers in the cells, ls | Ls_Model; Ls_Spec: `thin_tree`, `uses`, `right_row`. Not modelled: the layout of the table, size units as text (C51), option parsing | The reference counts of nodes (0, 1, many) equal the number of occurrences in the unfolded forest; a node reached once contributes its own count and a node reached twice has all its blocks shared; induction on the depth with the map of summaries as invariant. C57_after_restore: metadata written by thin_restore meets the hypotheses. |
| C20 (cache, era) | cache/restore.rs (CacheIo_Model), era/restore.rs as a whole: Restorer, finalize, the visitor, restore | EraIo_Model (events as in the XML reader); superblock written straight to the device. Not modelled: xml::read (its calls are the input) | Order_Proofs: every operation but the superblock write keeps "block 0 is allocated, neither queued nor written"; a generic lemma over call sequences (before / during / after the superblock) gives the order of writes. |
| C58 | era/restore.rs as a whole, followed by era/dump.rs and era/invalidate.rs | EraIo_Model, Era_Model; EraIo_Spec: `edoc` (documents), `era_restored` (what is on the device afterwards, with the footprint of every structure) | Between two sections: every writeset restored so far is an intact array of its own blocks, the era builder is at its last entry, every block taken is counted once (`RE`); a writeset's calls are one array build (EraRestore_Proofs). Finalizing adds the tree, array and space map. Then C36-C38 apply to the result. |
| C59 | cache/check.rs as a whole (check, check_mappings, all options), on the model of its parts (C34, C18, C19, C41) | CacheCmd_Model; CacheCmd_Spec: `cache_with` (the parts of a cache and the blocks they occupy), `arrays_fine`, `map_fine` (the verdict). Not modelled: progress and logging, opening the device; the asynchronous engine is a function from block numbers to contents or failure | What is written: case analysis over the run, every write is a repaired bitmap or the superblock. Verdict: each array walk succeeds iff its blocks read back (sections_iff), and then the map in core counts exactly their blocks; check_disk_iff (C18) gives the space map part; the repaired bitmaps are those of C19. |
| C60 | era/check.rs as a whole | EraCmd_Model; EraCmd_Spec: `era_with` (the parts), `era_fine` (the verdict). Not modelled: reports, opening the device | The shared map in core never counts a block more often than it is used, whatever was wrong so far (`counts_le`), so every walk visits exactly the blocks of its array; errors of a walk are empty iff its blocks are fine. |
| C44 (shared nodes) | thin/check.rs:243-401 read_node_, read_internal_nodes, get_depth | ThinShare_Spec (even_trees, pointers) on ThinCheck_Model | induction on the depth: a node above the leaves is read at most once, since it is kept only when its count was zero; every pointer adds one; the set of nodes read is the set of internal nodes of the node map; last part of C44_accepts_partial, example with two devices that share leaves in Props_ThinShareEx |
| C61 | the leaf walker, collect_leaves, optimise_metadata and the output, as in C24, on arbitrary (damaged) metadata | DumpSound_Spec (`read_tree`: every node read, `opened`, `listed`, `headed`) on Dump_Model | inversion of a successful run: the walk gives a tree of accepted internal nodes over leaves below the end of the device, C25 splits the leaves among definitions and devices, and each was emitted, hence read. |
| C46 (command) | thin/rmap.rs:208-241 with the walker of C54 | Rmap_Model: `rmap_loop`, `rmap_cmd` | induction on the devices: undamaged trees over blocks the walker has not seen hand over their entries in order (C54), which C46_rmap_exact turns into the statement; C46_shared_refuted is an example computed on the output of restore. Not modelled: opening the device, text formatting. |
| C26 (command) | thin/delta.rs:113-122, 238-282, 313-334 | Delta_Model: `get_mappings`, `snap_root`, `dump_diff`, `delta_cmd` | undamaged trees hand over their entries in order, each with its own walker, so the two sides may share blocks (C54); C26_delta_classifies gives the classification. Props_DeltaEx shows a device and its snapshot with a shared leaf. Not modelled: opening the device, text formatting. |
