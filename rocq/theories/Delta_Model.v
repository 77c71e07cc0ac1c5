(** Model of thin_delta as a command: get_mappings, dump_diff and delta in src/thin/delta.rs, on
    the comparison of ThinOut_Model, the walker of Walker_Model and the check of Repair_Model. *)
From Verif Require Import Base Csum_Model Codec_Model SpaceMap_Model Walker_Model ThinOut_Model Repair_Model Dump_Model Rmap_Model.

(** Snap (delta_visitor.rs:39-42) *)
Inductive snap := DeviceId (id : N) | RootBlock (b : N).

(** get_mappings (delta.rs:113-122): a new walker for every tree.  [rmap_entries] are the
    entries of the leaves visited; visit_again and end_walk of the recorder do nothing
    (delta.rs:100-106). *)
Definition get_mappings (nr : N) (eng : N -> option (list N)) (root : N) : res (list dmap) :=
  match walk bt_codec false eng (fun _ _ => true) [] root (walker_new nr) with
  | (s, None) => Ok (record_mappings (rmap_entries (w_log s)))
  | (_, Some _) => Err
  end.
(** The root of a snap (delta.rs:248-253, 256-261) *)
Definition snap_root (roots : list (N * N)) (x : snap) : res N :=
  match x with
  | DeviceId id => match map_get roots id with Some r => Ok r | None => Err end
  | RootBlock b => Ok b
  end.
(** dump_diff (delta.rs:238-282): the superblock given to the visitor and the deltas it writes.
    Nothing is written before both trees have been read. *)
Definition dump_diff (nr : N) (eng : N -> option (list N)) (sb : thin_sb) (snap1 snap2 : snap) : res (ir_sb * list delta) :=
  roots <- btree_to_map u64_codec nr eng false (ts_mapping_root sb) ;;
  root1 <- snap_root roots snap1 ;;
  m1 <- get_mappings nr eng root1 ;;
  root2 <- snap_root roots snap2 ;;
  m2 <- get_mappings nr eng root2 ;;
  ' (data_root, _) <- smroot_unpack (ts_data_sm_root sb) ;;
  ds <- dump_delta_mappings m1 m2 ;;
  Ok (mkirsb (ts_time sb) (ts_transaction_id sb) (if ts_needs_check sb then Some 1 else None) (Some 2) (ts_data_block_size sb) (sr_nr_blocks data_root) None,
      delta_runs ds).
(** delta (delta.rs:313-334); is_superblock_consistent is metadata_repair.rs:810-823.
    Opening the device and writing the text are not modelled. *)
Definition delta_cmd (nr : N) (eng : N -> option (list N)) (use_snap : bool) (snap1 snap2 : snap) : res (ir_sb * list delta) :=
  sb <- (if use_snap then read_sb_snap eng else read_sb eng 0) ;;
  if devices_identical nr eng false (ts_mapping_root sb) (ts_details_root sb) then dump_diff nr eng sb snap1 snap2 else Err.
