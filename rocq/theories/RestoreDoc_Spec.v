(** What a restore input says: definitions, devices and their mappings. *)
From Verif Require Import Base Codec_Model Codec_Spec Builder_Spec ThinOut_Model.

(** The content of a <device>: mapping runs and references to a definition made earlier. *)
Inductive content := CMap (m : ir_map) | CRef (name : N).
Inductive sect := SDef (name : N) (ms : list ir_map) | SDev (d : ir_dev) (its : list content).

(** The calls made by a reader of the document (thin/xml.rs, or dump with a restorer as output). *)
Definition content_event (x : content) : event := match x with CMap m => EvMap m | CRef name => EvRef name end.
Definition sect_events (x : sect) : list event :=
  match x with
  | SDef name ms => EvDefB name :: map EvMap ms ++ [EvDefE]
  | SDev d its => EvDevB d :: map content_event its ++ [EvDevE]
  end.
Definition doc_events (sb : ir_sb) (secs : list sect) : list event := EvSbB sb :: flat_map sect_events secs ++ [EvSbE].

(** A run of [m_len] thin blocks mapped to consecutive data blocks. *)
Definition map_entries (m : ir_map) : list (N * block_time) :=
  map (fun i => (m_thin m + i, mkbt (m_data m + i) (m_time m))) (range 0 (m_len m)).
(** The mappings of a device, references replaced by what was defined under that name. *)
Fixpoint content_entries (defs : list (N * list (N * block_time))) (its : list content) : option (list (N * block_time)) :=
  match its with
  | [] => Some []
  | CMap m :: r => match content_entries defs r with Some l => Some (map_entries m ++ l) | None => None end
  | CRef name :: r =>
      match assoc defs name, content_entries defs r with Some kvs, Some l => Some (kvs ++ l) | _, _ => None end
  end.
Definition details_of (d : ir_dev) : device_detail := mkdd (id_mapped d) (id_transaction d) (id_creation d) (id_snap d).

(** A device as the document describes it. *)
Record device := mkdev { dv_id : N; dv_details : device_detail; dv_maps : list (N * block_time) }.
(** [sections defs secs devs]: after the definitions [defs] the sections [secs] are in order
    (thin blocks increasing within each section, numbers that fit their fields, references
    only to earlier definitions, of which only the first in a device may be empty, no name and
    no device id used twice) and describe the devices [devs]. *)
Inductive sections : list (N * list (N * block_time)) -> list sect -> list device -> Prop :=
| secs_nil defs : sections defs [] []
| secs_def defs name ms secs devs :
    ~ In name (map fst defs) -> entries_ok bt_range (flat_map map_entries ms) ->
    sections (defs ++ [(name, flat_map map_entries ms)]) secs devs ->
    sections defs (SDef name ms :: secs) devs
| secs_dev defs d its kvs secs devs :
    content_entries defs its = Some kvs -> entries_ok bt_range kvs ->
    (forall name, In (CRef name) (tl its) -> assoc defs name <> Some []) ->
    id_dev d < 2 ^ 64 -> dd_range (details_of d) -> ~ In (id_dev d) (map dv_id devs) ->
    sections defs secs devs ->
    sections defs (SDev d its :: secs) (mkdev (id_dev d) (details_of d) kvs :: devs).

(** All mappings: those of the definitions, and those of the devices with references replaced. *)
Definition doc_values (secs : list sect) (devs : list device) : list block_time :=
  flat_map (fun x => match x with SDef _ ms => map snd (flat_map map_entries ms) | SDev _ _ => [] end) secs ++
  flat_map (fun d => map snd (dv_maps d)) devs.

(** A superblock whose numbers fit their fields, with a block size restore accepts. *)
Definition sb_fits (sb : ir_sb) : Prop :=
  is_nr_data_blocks sb < 2 ^ 64 /\ is_time sb < 2 ^ 32 /\ is_transaction sb < 2 ^ 64 /\ 128 <= is_data_block_size sb <= 2097152 /\ exists k, is_data_block_size sb = 128 * k.

(** The superblock as changed by the options --transaction-id (never lowered) and --data-block-size. *)
Definition overridden (tid bs : option N) (sb : ir_sb) : ir_sb :=
  mkirsb (is_time sb) (match tid with Some t => N.max t (is_transaction sb) | None => is_transaction sb end) (is_flags sb) (is_version sb)
         (match bs with Some b => b | None => is_data_block_size sb end) (is_nr_data_blocks sb) (is_metadata_snap sb).

(** ** What should be on the device afterwards *)
From Coq Require Import Permutation.
From Verif Require Import Csum_Model SpaceMap_Model SpaceMap_Spec Builder_Model SmWrite_Spec Session_Spec.

(** A device of the document with the tree that holds its mappings. *)
Record dtree := mkdt { dt_dev : device; dt_root : N; dt_depth : nat; dt_foot : list N }.

(** Superblock, device details and mapping trees. *)
Definition devices_on_disk (D : disk) (sb : ir_sb) (devs : list device) (s : thin_sb) (trees : list dtree) (fd fm : list N) : Prop :=
  ts_needs_check s = false /\ ts_version s = 2 /\ ts_time s = is_time sb /\ ts_transaction_id s = is_transaction sb /\
  ts_metadata_snap s = 0 /\ ts_data_block_size s = is_data_block_size sb /\
  Permutation (map dt_dev trees) devs /\ increasing (map (fun t => dv_id (dt_dev t)) trees) /\
  (exists depth, tree dd_codec D true depth (ts_details_root s) (map (fun t => (dv_id (dt_dev t), dv_details (dt_dev t))) trees) fd) /\
  (exists depth, tree u64_codec D true depth (ts_mapping_root s) (map (fun t => (dv_id (dt_dev t), dt_root t)) trees) fm) /\
  Forall (fun t => tree bt_codec D true (dt_depth t) (dt_root t) (dv_maps (dt_dev t)) (dt_foot t)) trees.

(** The data space map: its root is in the superblock, and a reader gets for every data block
    the number of times it occurs in the leaves of the device trees, each leaf counted once
    however many devices share it. *)
Definition data_counts_on_disk (D : disk) (sb : ir_sb) (s : thin_sb) (trees : list dtree) : Prop :=
  exists r rest L enough, smroot_unpack (ts_data_sm_root s) = Ok (r, rest) /\ sr_nr_blocks r = is_nr_data_blocks sb /\
    leaf_set bt_codec D (map (fun t => (dt_root t, dt_depth t)) trees) L /\
    sr_nr_allocated r = nr_used (is_nr_data_blocks sb) (fun b => occ b (map bt_block (concat (map snd L)))) /\
    forall fuel b, (enough <= fuel)%nat ->
      disk_count fuel D r b = if is_nr_data_blocks sb <=? b then Err else Ok (Some (occ b (map bt_block (concat (map snd L))))).

(** The metadata space map of [n] blocks: the superblock, every block of a tree once per
    pointer to it, and the blocks of the two space maps; nothing else.  All of them are among
    the [n] blocks. *)
Definition metadata_counts_on_disk (D : disk) (n : N) (s : thin_sb) (trees : list dtree) (fd fm : list N) : Prop :=
  exists r rest m enough sms, smroot_unpack (ts_metadata_sm_root s) = Ok (r, rest) /\ sr_nr_blocks r = n /\ ts_nr_metadata_blocks s = n /\
    load_metadata_index (mkblock (sr_bitmap_root r) (D (sr_bitmap_root r))) n = Ok m /\
    NoDup (0 :: fd ++ fm ++ sms) /\ (forall x, In x (flat_map dt_foot trees) -> ~ In x (0 :: fd ++ fm ++ sms)) /\
    Forall (fun b => b < n) (0 :: fd ++ fm ++ sms ++ flat_map dt_foot trees) /\
    forall fuel b, (enough <= fuel)%nat -> b < n ->
      exists ie, nth_error (mi_indexes m) (N.to_nat (b / 16320)) = Some ie /\ metadata_block_type (D (ie_blocknr ie)) = BITMAP /\
        entry_count fuel D (sr_ref_count_root r) (D (ie_blocknr ie)) b =
          Ok (Some (occ b (0 :: fd ++ fm ++ sms) + occ b (flat_map dt_foot trees))).

Definition restored (D : disk) (n : N) (sb : ir_sb) (devs : list device) : Prop :=
  exists s trees fd fm, thin_read_superblock D 0 = Ok s /\ devices_on_disk D sb devs s trees fd fm /\
    data_counts_on_disk D sb s trees /\ metadata_counts_on_disk D n s trees fd fm.
