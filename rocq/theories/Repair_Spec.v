(** What thin_repair relies on when it looks for the roots of a pool. *)
From Verif Require Import Base Csum_Model Codec_Model.

(** The node that a block holds. *)
Definition node_in {V} (c : codec V) (eng : N -> option (list N)) (b : N) (n : node V) : Prop :=
  exists data, eng b = Some data /\ metadata_block_type data = NODE /\ unpack_node_raw c data true true = Ok n.

(** The entries of the tree rooted at a block, from the first leaf to the last. *)
Inductive stored {V} (c : codec V) (eng : N -> option (list N)) : N -> list (N * V) -> Prop :=
| stored_leaf b h ks vs : node_in c eng b (Leaf h ks vs) -> stored c eng b (combine ks vs)
| stored_inner b h ks bs kvss : node_in c eng b (Internal h ks bs) -> bs <> [] ->
    Forall2 (stored c eng) bs kvss -> stored c eng b (concat kvss).

(** The two-level mapping tree: for every device its mappings. *)
Definition stored_devices (eng : N -> option (list N)) (b : N) (devs : list (N * list (N * block_time))) : Prop :=
  exists roots, stored u64_codec eng b roots /\
    Forall2 (fun r d => fst r = fst d /\ stored bt_codec eng (snd r) (snd d)) roots devs.
(** All the mappings of all the devices. *)
Definition all_mappings (devs : list (N * list (N * block_time))) : list block_time :=
  flat_map (fun d => map snd (snd d)) devs.

(** [x] is the largest member of [l]; 0 for no members. *)
Definition greatest (l : list N) (x : N) : Prop :=
  (forall y, In y l -> y <= x) /\ (In x l \/ l = [] /\ x = 0).

(** How often something happened at a time, in a table of times and counts. *)
Definition count_at (t : N) (m : list (N * N)) : N :=
  match find (fun tc => fst tc =? t) m with Some tc => snd tc | None => 0 end.
Definition times_at (t : N) (ts : list N) : N := nlen (filter (N.eqb t) ts).
(** [m] counts the times [ts], with 32-bit counters. *)
Definition counts_times (m : list (N * N)) (ts : list N) : Prop :=
  increasing (map fst m) /\ (forall t, In t (map fst m) <-> In t ts) /\
  forall t, count_at t m = times_at t ts mod 2 ^ 32.

(** One table is ahead of another: at the latest time where they differ it has more. *)
Definition ahead (a b : list (N * N)) : Prop :=
  exists t, count_at t b < count_at t a /\ forall t', t < t' -> count_at t' a = count_at t' b.

(** The block number in the header of a node (which nothing compares with the block
    the node was read from). *)
Definition claims (eng : N -> option (list N)) (b x : N) : Prop :=
  exists data h rest, eng b = Some data /\ metadata_block_type data = NODE /\ nh_unpack data = Ok (h, rest) /\ nh_block h = x.
(** Every node is where it says it is. *)
Definition homed (eng : N -> option (list N)) : Prop := forall b x, claims eng b x -> x = b.
(** Blocks are 4096 bytes. *)
Definition device (eng : N -> option (list N)) : Prop :=
  forall b data, eng b = Some data -> bytes data /\ nlen data = 4096.

(** The keys [ks] are in order and between two bounds. *)
Definition within (low high : N) (ks : list N) : Prop :=
  increasing ks /\ low <= high /\ forall k, In k ks -> low <= k <= high.

(** A pool on the device: for each of its blocks the keys of the tree rooted there. *)
Inductive part := PDev (ks : list N) | PMap (ks : list N) | PDet (ks : list N).
Definition part_keys (p : part) : list N := match p with PDev ks | PMap ks | PDet ks => ks end.
Definition same_part (p q : part) : Prop :=
  match p, q with PDev _, PDev _ | PMap _, PMap _ | PDet _, PDet _ => True | _, _ => False end.
(** An internal node of it: the children are parts of the same kind, lower down, not empty
    and in order. *)
Definition inner_part (eng : N -> option (list N)) (K : N -> option part) (lvl : N -> nat) (b : N) (p : part) : Prop :=
  exists h ks bs kss, node_in u64_codec eng b (Internal h ks bs) /\ nh_value_size h = 8 /\ bs <> [] /\
    Forall2 (fun b' ks' => exists q, K b' = Some q /\ same_part p q /\ part_keys q = ks' /\ ks' <> [] /\ (lvl b' < lvl b)%nat) bs kss /\
    part_keys p = concat kss /\ increasing (concat kss).
Definition leaf_part (nr : N) (eng : N -> option (list N)) (K : N -> option part) (lvl : N -> nat) (b : N) (p : part) : Prop :=
  match p with
  | PDev ks => exists h bs, node_in u64_codec eng b (Leaf h ks bs) /\ bs <> [] /\
      Forall (fun b' => exists ks', K b' = Some (PMap ks') /\ (lvl b' < lvl b)%nat) bs
  (* some mapping in the leaf, as a number, is above the number of metadata blocks *)
  | PMap ks => exists h vs raw, node_in bt_codec eng b (Leaf h ks vs) /\ node_in u64_codec eng b (Leaf h ks raw) /\
      (raw = [] \/ exists v, In v raw /\ nr < v)
  | PDet ks => exists h vs, node_in dd_codec eng b (Leaf h ks vs)
  end.
Definition pool_on (nr : N) (eng : N -> option (list N)) (K : N -> option part) (lvl : N -> nat) : Prop :=
  forall b p, K b = Some p -> b < nr /\ (leaf_part nr eng K lvl b p \/ inner_part eng K lvl b p).

(** No pointer leads off the device: the children of internal nodes are below [nr], and no
    leaf that may be the top level (all its values are at most [nr]) has the value [nr]. *)
Definition pointers_within (nr : N) (eng : N -> option (list N)) : Prop := forall b,
  (forall h ks bs, node_in u64_codec eng b (Internal h ks bs) -> forall x, In x bs -> x < nr) /\
  (forall h ks vs, node_in u64_codec eng b (Leaf h ks vs) -> (forall v, In v vs -> v <= nr) -> ~ In nr vs).
