(** What the metadata of a pool contains, for trees of any origin that the strict reader accepts. *)
From Verif Require Import Base Csum_Model Codec_Model Codec_Spec Builder_Spec ThinOut_Model RestoreDoc_Spec.

(** Block [b] can be read, has the checksum of a node, and the strict reader accepts the node:
    keys increasing, sizes consistent, and at least a third full unless it is a root. *)
Definition node_on {V} (c : codec V) (eng : N -> option (list N)) (is_root : bool) (b : N) (n : node V) : Prop :=
  exists data, eng b = Some data /\ metadata_block_type data = NODE /\ unpack_node_raw c data false is_root = Ok n.

(** The tree of mappings of the given depth at block [b] holds [kvs]: the leaves are all at that
    depth, and the entries below the i-th child of an internal node, of which there is at least
    one, have keys from key i up to key i+1. *)
Fixpoint mapping_tree (eng : N -> option (list N)) (is_root : bool) (depth : nat) (b : N) (kvs : list (N * block_time)) : Prop :=
  match depth with
  | O => exists h ks vs, node_on bt_codec eng is_root b (Leaf h ks vs) /\ kvs = combine ks vs
  | S dp => exists h ks bs subs, node_on bt_codec eng is_root b (Internal h ks bs) /\ ks <> [] /\
      children_ok (fun _ b s => mapping_tree eng false dp b s) ks bs subs /\ kvs = concat subs
  end.

(** A device of the pool: its id, the root of its tree of mappings, its details and mappings. *)
Record pool_dev := mkpd { pd_id : N; pd_root : N; pd_detail : device_detail; pd_maps : list (N * block_time) }.
Definition as_device (p : pool_dev) : device := mkdev (pd_id p) (pd_detail p) (pd_maps p).
(** The trees are there; 32-bit ids, in order; the fields of the details fit; there is no mapping
    for the very last thin block number.  Trees may share nodes. *)
Record pool_ok (eng : N -> option (list N)) (pool : list pool_dev) : Prop := {
  po_trees : Forall (fun p => exists depth, mapping_tree eng true depth (pd_root p) (pd_maps p)) pool;
  po_ids : increasing (map pd_id pool) /\ Forall (fun p => pd_id p < 2 ^ 32) pool;
  po_details : Forall (fun p => dd_range (pd_detail p)) pool;
  po_keys : Forall (fun p => Forall (fun kv => fst kv < 2 ^ 64 - 1) (pd_maps p)) pool }.
