(** What thin_ls is to report. *)
From Verif Require Import Base Csum_Model Codec_Model Codec_Spec Builder_Spec RestoreDoc_Spec Dump_Spec Ls_Model.

(** A node that the strict reader accepts (node_on), that has its own block number in its header
    and, unless it is a root, at least 84 entries: a third of the 252 the kernel gives a node. *)
Definition full_node (eng : N -> option (list N)) (is_root : bool) (b : N) (n : node block_time) : Prop :=
  node_on bt_codec eng is_root b n /\ nh_block (get_header n) = b /\ (is_root = false -> 84 <= nlen (get_keys n)).
(** mapping_tree (Dump_Spec) with such nodes *)
Fixpoint thin_tree (eng : N -> option (list N)) (is_root : bool) (depth : nat) (b : N) (kvs : list (N * block_time)) : Prop :=
  match depth with
  | O => exists h ks vs, full_node eng is_root b (Leaf h ks vs) /\ kvs = combine ks vs
  | S dp => exists h ks bs subs, full_node eng is_root b (Internal h ks bs) /\ ks <> [] /\
      children_ok (fun _ b s => thin_tree eng false dp b s) ks bs subs /\ kvs = concat subs
  end.

(** How many thin blocks, of all devices, are mapped to data block [d]. *)
Definition uses (pool : list pool_dev) (d : N) : N := nlen (filter (fun kv => bt_block (snd kv) =? d) (flat_map pd_maps pool)).
(** The mappings of a device to data blocks that nothing else is mapped to, and the others. *)
Definition exclusive_to (pool : list pool_dev) (p : pool_dev) : list (N * block_time) :=
  filter (fun kv => uses pool (bt_block (snd kv)) =? 1) (pd_maps p).
Definition shared_of (pool : list pool_dev) (p : pool_dev) : list (N * block_time) :=
  filter (fun kv => 2 <=? uses pool (bt_block (snd kv))) (pd_maps p).
Definition highest (p : pool_dev) : N := last (map fst (pd_maps p)) 0.
Definition right_row (pool : list pool_dev) (p : pool_dev) : row :=
  mkrow (pd_id p) (pd_detail p) (nlen (pd_maps p)) (nlen (shared_of pool p)) (highest p).

(** The pool: trees that may share nodes, no mapping for the very last thin block number, and
    no mapping past the end of the data device, of [nr_data] blocks. *)
Record thin_pool (eng : N -> option (list N)) (nr_data : N) (pool : list pool_dev) : Prop := {
  tp_trees : Forall (fun p => exists depth, thin_tree eng true depth (pd_root p) (pd_maps p)) pool;
  tp_keys : Forall (fun p => Forall (fun kv => fst kv < 2 ^ 64 - 1) (pd_maps p)) pool;
  tp_data : Forall (fun p => Forall (fun kv => bt_block (snd kv) < nr_data) (pd_maps p)) pool }.
