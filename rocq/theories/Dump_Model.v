(** Model of thin_dump from the superblock to the calls made on the output:
    src/pdata/btree_leaf_walker.rs, src/thin/metadata.rs (all but optimise_metadata,
    which is in Runs_Model) and src/thin/dump.rs:318-409. *)
From Verif Require Import Base Csum_Model Codec_Model SpaceMap_Model Utils_Model Walker_Model ThinOut_Model Runs_Model
  Restore_Model Repair_Model.

(** ** src/pdata/btree_leaf_walker.rs *)
Section LeafWalker.
Context {V : Type} (c : codec V) (ignore_non_fatal : bool).
(** The number of blocks of the engine, which is the capacity of the walker's
    bitset of leaves (:48-60), and the device: [None] when a block cannot be read.  A failed
    read_many as a whole (:92-95) has the same effect as the failure of its first block. *)
Context (nr : N) (eng : N -> option (list N)).

(** The space map is a RestrictedSpaceMap (thin/metadata.rs:102).  sm_inc (:63-68): both
    unwraps panic when the map refuses. *)
Definition lw_sm_inc (b : N) (sm : rsm) : rsm * res unit :=
  match rsm_get sm b with
  | Ok _ => match rsm_inc sm b 1 with
            | (sm', Ok _) => (sm', Ok tt)
            | (sm', _) => (sm', Panic)
            end
  | _ => (sm, Panic)
  end.
Fixpoint lw_sm_inc_all (bs : list N) (sm : rsm) : rsm * res unit :=
  match bs with
  | [] => (sm, Ok tt)
  | b :: r => match lw_sm_inc b sm with (sm', Ok _) => lw_sm_inc_all r sm' | x => x end
  end.
(** The block type is checked before the node is unpacked (:126-131, :181-184); the block
    number in the header is not looked at. *)
Definition lw_unpack (data : list N) (is_root : bool) : res (node V) :=
  match metadata_block_type data with
  | NODE => unpack_node_raw c data ignore_non_fatal is_root
  | _ => Err
  end.

(** What a walk did: the space map, the calls to visit (key range and block; the visitor
    of this model never refuses, and its end_walk does nothing) and the result. *)
Definition lw_out := (rsm * list (key_range * N) * res unit)%type.
(** The lowest internal nodes (:137-146): every child is visited.  [leaves.insert] panics
    beyond the end of the bitset, and all children are inserted in every round. *)
Fixpoint lw_visit (all : list N) (krs : list key_range) (bs : list N) (sm : rsm) : lw_out :=
  match krs, bs with
  | [], _ => (sm, [], Ok tt)
  | _ :: _, [] => (sm, [], Panic)
  | kr :: krs', b :: bs' =>
      match rsm_inc sm b 1 with
      | (sm', Ok _) =>
          if existsb (fun v => nr <=? v) all then (sm', [], Panic)
          else let '(sm'', out, r) := lw_visit all krs' bs' sm' in (sm'', (kr, b) :: out, r)
      | (sm', _) => (sm', [], Panic)
      end
  end.
(** The second half of walk_nodes (:97-106): the children one after the other. *)
Fixpoint lw_children (walk_one : key_range -> list N -> rsm -> lw_out) (krs : list key_range) (bs : list N) (sm : rsm) : lw_out :=
  match krs, bs with
  | kr :: krs', b :: bs' =>
      match eng b with
      | None => (sm, [], Err)
      | Some data =>
          match walk_one kr data sm with
          | (sm', out, Ok _) =>
              let '(sm'', out', r) := lw_children walk_one krs' bs' sm' in (sm'', out ++ out', r)
          | x => x
          end
      end
  | _, _ => (sm, [], Ok tt)
  end.
(** walk_node, walk_node_ and walk_nodes (:70-174).  The path is only for error messages. *)
Fixpoint lw_node (depth : nat) (kr : key_range) (data : list N) (is_root : bool) (sm : rsm) : lw_out :=
  match lw_unpack data is_root with
  | Ok (Internal _ keys values) =>
      match split_key_ranges kr keys with
      | Ok krs =>
          match depth with
          | O => lw_visit values krs values sm
          | S depth =>
              if negb (length krs =? length values)%nat then (sm, [], Panic) else
              match lw_sm_inc_all values sm with
              | (sm', Ok _) => lw_children (fun kr data sm => lw_node depth kr data false sm) krs values sm'
              | (sm', r) => (sm', [], r)
              end
          end
      | Err => (sm, [], Err)
      | Panic => (sm, [], Panic)
      end
  | Ok (Leaf _ _ _) => (sm, [], Err)
  | Err => (sm, [], Err)
  | Panic => (sm, [], Panic)
  end.
(** get_depth (:176-195).  The recursion follows first children only; when [fuel] runs out
    the program is in a cycle and overflows its stack. *)
Fixpoint lw_depth (fuel : nat) (b : N) (is_root : bool) : res nat :=
  match fuel with
  | O => Panic
  | S fuel =>
      match eng b with
      | None => Err
      | Some data =>
          n <- lw_unpack data is_root ;;
          match n with
          | Internal _ _ values =>
              match values with
              | [] => Panic
              | v :: _ => d <- lw_depth fuel v false ;; Ok (S d)
              end
          | Leaf _ _ _ => Ok O
          end
      end
  end.
(** walk (:197-220): a chain of more than [nr] blocks has a cycle. *)
Definition lw_walk (root : N) (sm : rsm) : lw_out :=
  match lw_depth (S (N.to_nat nr)) root true with
  | Ok depth =>
      match lw_sm_inc root sm with
      | (sm', Ok _) =>
          match depth with
          | O => if nr <=? root then (sm', [], Panic) else (sm', [(full_range, root)], Ok tt)
          | S depth =>
              match eng root with
              | None => (sm', [], Err)
              | Some data => lw_node depth full_range data true sm'
              end
          end
      | (sm', r) => (sm', [], r)
      end
  | Err => (sm, [], Err)
  | Panic => (sm, [], Panic)
  end.
End LeafWalker.

(** ** src/thin/metadata.rs *)

(** collect_leaves (:97-114) with the visitor CollectLeaves (:71-95), for the roots in order;
    the BTreeMap as the association list in key order (the roots come from a BTreeSet, so every
    insertion appends). *)
Fixpoint collect_leaves (nr : N) (eng : N -> option (list N)) (roots : list N) (sm : rsm) : res (list (N * list entry)) :=
  match roots with
  | [] => Ok []
  | r :: rest =>
      match lw_walk bt_codec false nr eng r sm with
      | (sm', out, Ok _) =>
          m <- collect_leaves nr eng rest sm' ;; Ok ((r, map (fun x => EnLeaf (snd x)) out) :: m)
      | (_, _, Err) => Err
      | (_, _, Panic) => Panic
      end
  end.

(** Device (:33-37) and Def (:40-43), without the key ranges, which are never used. *)
Record md_dev := mkmd { md_id : N; md_detail : device_detail; md_entries : list entry }.
Record metadata := mkmeta { mt_defs : list (N * list entry); mt_devs : list md_dev; mt_nr : N }.

Fixpoint map_get {A} (m : list (N * A)) (k : N) : option A :=
  match m with [] => None | (k', v) :: r => if k =? k' then Some v else map_get r k end.
(** build_metadata_with_dev_ (:125-153); [thin_id as u32] truncates. *)
Fixpoint build_devs (m : list (N * list entry)) (devices : list (N * (N * device_detail))) : res (list md_dev) :=
  match devices with
  | [] => Ok []
  | (id, (root, detail)) :: r =>
      match map_get m root with
      | None => Panic
      | Some es => rest <- build_devs m r ;; Ok (mkmd (id mod W32) detail es :: rest)
      end
  end.
Definition build_metadata_with_dev_ (nr : N) (eng : N -> option (list N)) (devices : list (N * (N * device_detail))) : res metadata :=
  let roots := fold_left (fun l d => snd (set_insert (fst (snd d)) l)) devices [] in
  m <- collect_leaves nr eng roots (rsm_new nr) ;;
  devs <- build_devs m devices ;;
  Ok (mkmeta [] devs nr).

(** devices_iter (:155-167): the roots zipped with the details, in key order of each. *)
Definition devices_iter (nr : N) (eng : N -> option (list N)) (sb : thin_sb) : res (list (N * (N * device_detail))) :=
  details <- btree_to_map dd_codec nr eng true (ts_details_root sb) ;;
  roots <- btree_to_map u64_codec nr eng true (ts_mapping_root sb) ;;
  Ok (map (fun x => (fst (fst x), (snd (fst x), snd x))) (combine roots (map snd details))).

(** The filter on selected devices (:174-196): sort_unstable and binary_search find exactly
    the members.  The keys of the iterator are increasing, so collecting it into a BTreeMap
    gives it back. *)
Definition selected (sel : option (list N)) (devs : list (N * (N * device_detail))) : list (N * (N * device_detail)) :=
  match sel with
  | None => devs
  | Some l => filter (fun d => existsb (N.eqb (fst d)) l) devs
  end.
(** build_metadata_with_dev (:169-199) *)
Definition build_metadata_with_dev (nr : N) (eng : N -> option (list N)) (sb : thin_superblock) (sel : option (list N)) : res metadata :=
  devs <- match sb with
          | OnDisk sb => devices_iter nr eng sb
          | InCore sb => Ok (co_devices sb)
          end ;;
  build_metadata_with_dev_ nr eng (selected sel devs).
(** build_metadata_without_mappings (:201-241) *)
Definition build_metadata_without_mappings (nr : N) (eng : N -> option (list N)) (sb : thin_superblock) : res metadata :=
  details <- match sb with
             | OnDisk sb => btree_to_map dd_codec nr eng true (ts_details_root sb)
             | InCore sb => Ok (map (fun d => (fst d, snd (snd d))) (co_devices sb))
             end ;;
  Ok (mkmeta [] (map (fun d => mkmd (fst d mod W32) (snd d) []) details) nr).
(** optimise_metadata (:324-346) on a Metadata; Runs_Model has the entries. *)
Definition optimise (md : metadata) : res metadata :=
  ' (defs, outs) <- optimise_metadata (mt_nr md) (map md_entries (mt_devs md)) ;;
  Ok (mkmeta defs (map (fun x => mkmd (md_id (fst x)) (md_detail (fst x)) (snd x)) (combine (mt_devs md) outs)) (mt_nr md)).

(** ** src/thin/dump.rs *)

(** to_superblock_ir (:318-344) *)
Definition to_superblock_ir (sb : thin_superblock) : res ir_sb :=
  match sb with
  | OnDisk sb =>
      ' (root, _) <- smroot_unpack (ts_data_sm_root sb) ;;
      Ok (mkirsb (ts_time sb) (ts_transaction_id sb) (if ts_needs_check sb then Some 1 else None) (Some (ts_version sb))
                 (ts_data_block_size sb) (sr_nr_blocks root) None)
  | InCore sb =>
      Ok (mkirsb (co_time sb) (co_tid sb) (if co_needs_check sb then Some 1 else None) (Some (co_version sb))
                 (co_block_size sb) (co_nr_data_blocks sb) None)
  end.

(** dump_metadata (:346-379): the calls made on the output, which is taken not to fail, and
    the result. *)
Fixpoint dump_sections {A} (eng : N -> option (list N)) (before : A -> event) (entries : A -> list entry) (after : event)
    (l : list A) (rest : list event * res unit) : list event * res unit :=
  match l with
  | [] => rest
  | x :: r =>
      match emit_entries eng (entries x) with
      | (o, Ok _) => let '(o', y) := dump_sections eng before entries after r rest in (before x :: o ++ after :: o', y)
      | (o, y) => (before x :: o, y)
      end
  end.
Definition dev_ir (d : md_dev) : ir_dev :=
  mkirdev (md_id d) (dd_mapped (md_detail d)) (dd_tid (md_detail d)) (dd_ctime (md_detail d)) (dd_stime (md_detail d)).
Definition dump_metadata (eng : N -> option (list N)) (sb : thin_superblock) (md : metadata) : list event * res unit :=
  match to_superblock_ir sb with
  | Ok out_sb =>
      let '(o, r) :=
        dump_sections eng (fun d => EvDefB (fst d)) snd EvDefE (mt_defs md)
          (dump_sections eng (fun d => EvDevB (dev_ir d)) md_entries EvDevE (mt_devs md) ([EvSbE; EvEof], Ok tt)) in
      (EvSbB out_sb :: o, r)
  | Err => ([], Err)
  | Panic => ([], Panic)
  end.

(** dump_with_formatter (:383-409) once the superblock is known *)
Definition dump_from (nr : N) (eng : N -> option (list N)) (skip_mappings : bool) (sel : option (list N)) (sb : thin_superblock)
  : list event * res unit :=
  match (if skip_mappings then build_metadata_without_mappings nr eng sb
         else md <- build_metadata_with_dev nr eng sb sel ;; optimise md) with
  | Ok md => dump_metadata eng sb md
  | Err => ([], Err)
  | Panic => ([], Panic)
  end.
(** read_superblock_snap (thin/superblock.rs:103-109) *)
Definition read_sb_snap (eng : N -> option (list N)) : res thin_sb :=
  actual <- read_sb eng 0 ;;
  if ts_metadata_snap actual =? 0 then Err else read_sb eng (ts_metadata_snap actual).
(** dump_with_formatter (:383-409); the two sorts are those of --repair (Repair_Model). *)
Definition thin_dump (sort_devs : list dev_info -> list dev_info) (sort_details : list det_info -> list det_info)
    (nr : N) (eng : N -> option (list N)) (repair use_snap skip_mappings : bool) (o : overrides) (sel : option (list N))
  : list event * res unit :=
  match (if repair then read_or_rebuild_superblock nr eng sort_devs sort_details 0 o
         else if use_snap then sb <- read_sb_snap eng ;; Ok (OnDisk sb)
         else sb <- read_sb eng 0 ;; sb' <- override_sb o sb ;; Ok (OnDisk sb')) with
  | Ok sb => dump_from nr eng skip_mappings sel sb
  | Err => ([], Err)
  | Panic => ([], Panic)
  end.
