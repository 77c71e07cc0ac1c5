(** What the output of a successful dump must be, whatever is on the device. *)
From Verif Require Import Base Csum_Model Codec_Model Codec_Spec SpaceMap_Model Walker_Model ThinOut_Model ThinOut_Spec Restore_Model Repair_Model RestoreDoc_Spec Dump_Model Dump_Spec.

(** Every node below block [b] down to the leaves at the given depth was read, and the leaves
    hold [kvs] in the order of the child pointers.  Internal nodes are those the strict reader
    accepts; a leaf is any readable node with the leaf flag.  Nothing is said about the order
    of keys across nodes. *)
Fixpoint read_tree (eng : N -> option (list N)) (is_root : bool) (depth : nat) (b : N) (kvs : list (N * block_time)) : Prop :=
  match depth with
  | O => leaf_is eng b kvs
  | S dp => exists h ks bs subs, node_on bt_codec eng is_root b (Internal h ks bs) /\ Forall2 (read_tree eng false dp) bs subs /\ kvs = concat subs
  end.

(** The superblock the options ask for. *)
Definition opened sort_devs sort_details (nr : N) (eng : N -> option (list N)) (repair use_snap : bool) (o : overrides) (sb : thin_superblock) : Prop :=
  if repair then read_or_rebuild_superblock nr eng sort_devs sort_details 0 o = Ok sb
  else if use_snap then exists live s, read_sb eng 0 = Ok live /\ ts_metadata_snap live <> 0 /\ read_sb eng (ts_metadata_snap live) = Ok s /\ sb = OnDisk s
  else exists s0 s, read_sb eng 0 = Ok s0 /\ override_sb o s0 = Ok s /\ sb = OnDisk s.

(** Its devices, each an id, the root of a tree and details: the entries of the two trees
    paired by position (C24_misattributed_refuted shows what that can do), or those found by
    a repair. *)
Definition listed (nr : N) (eng : N -> option (list N)) (sb : thin_superblock) (devs : list (N * (N * device_detail))) : Prop :=
  match sb with
  | OnDisk s => exists details roots, btree_to_map dd_codec nr eng true (ts_details_root s) = Ok details /\ btree_to_map u64_codec nr eng true (ts_mapping_root s) = Ok roots /\
      map fst devs = map fst (firstn (length details) roots) /\ map (fun d => fst (snd d)) devs = map snd (firstn (length details) roots) /\
      map (fun d => snd (snd d)) devs = map snd (firstn (length roots) details)
  | InCore c => devs = co_devices c
  end.
(** --dev-id: all devices, or those listed. *)
Definition chosen (sel : option (list N)) (devs : list (N * (N * device_detail))) : list (N * (N * device_detail)) :=
  match sel with None => devs | Some l => filter (fun d => if in_dec N.eq_dec (fst d) l then true else false) devs end.
(** The attributes of the superblock in the output. *)
Definition headed (sb : thin_superblock) (ir : ir_sb) : Prop :=
  match sb with
  | OnDisk s => exists r rest, smroot_unpack (ts_data_sm_root s) = Ok (r, rest) /\
      ir = mkirsb (ts_time s) (ts_transaction_id s) (if ts_needs_check s then Some 1 else None) (Some (ts_version s)) (ts_data_block_size s) (sr_nr_blocks r) None
  | InCore c => ir = mkirsb (co_time c) (co_tid c) (if co_needs_check c then Some 1 else None) (Some (co_version c)) (co_block_size c) (co_nr_data_blocks c) None
  end.
Definition device_header (d : N * (N * device_detail)) : ir_dev :=
  let t := snd (snd d) in mkirdev (fst d mod 2 ^ 32) (dd_mapped t) (dd_tid t) (dd_ctime t) (dd_stime t).
(** The definitions of a document. *)
Definition definitions (secs : list sect) : list (N * list (N * block_time)) :=
  flat_map (fun x => match x with SDef name ms => [(name, flat_map map_entries ms)] | SDev _ _ => [] end) secs.
