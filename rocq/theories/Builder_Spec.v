(** What a B-tree on a device is, independently of the builder and the readers
    other than the node reader (Codec_Model.check_and_unpack_node). *)
From Coq Require Import Permutation.
From Verif Require Import Base Csum_Model Codec_Model SpaceMap_Model Batcher_Model Builder_Model.

(** Block [b] of the device holds the node [n]: both the strict and the lenient
    reader (checksum, block number, header and key checks) return it. *)
Definition holds {V} (c : codec V) (d : disk) (b : N) (n : node V) : Prop :=
  bytes (d b) /\ nlen (d b) = 4096 /\
  forall ignore_non_fatal is_root,
    (ignore_non_fatal = false -> is_root = false ->
       nh_max_entries (get_header n) / 3 <= nh_nr_entries (get_header n)) ->
    check_and_unpack_node c (mkblock b (d b)) ignore_non_fatal is_root = Ok n.

Definition first_key {V} (kvs : list (N * V)) : N := match kvs with (k, _) :: _ => k | [] => 0 end.

(** The tree of the given depth rooted at block [b] contains [kvs] in order and
    occupies the blocks [foot], each listed once per pointer to it (the root
    once).  Every leaf is at the same depth; the key of a child is the first key
    below it; no node has more than max_entries entries, and none but the root
    fewer than half of that. *)
Fixpoint tree {V} (c : codec V) (d : disk) (is_root : bool) (depth : nat) (b : N)
    (kvs : list (N * V)) (foot : list N) : Prop :=
  match depth with
  | O =>
      exists h ks vs, holds c d b (Leaf h ks vs) /\ length ks = length vs /\ kvs = combine ks vs /\
        nh_nr_entries h = nlen kvs /\ nh_max_entries h = calc_max_entries c /\ nlen kvs <= calc_max_entries c /\
        (is_root = false -> calc_max_entries c / 2 <= nlen kvs) /\ foot = [b]
  | S dp =>
      exists h children subs,
        holds c d b (Internal h (map fst children) (map snd children)) /\
        nh_nr_entries h = nlen children /\ nh_max_entries h = calc_max_entries u64_codec /\
        2 <= nlen children <= calc_max_entries u64_codec /\
        (is_root = false -> calc_max_entries u64_codec / 2 <= nlen children) /\
        Forall2 (fun (kb : N * N) (sub : list (N * V) * list N) =>
                   fst sub <> [] /\ fst kb = first_key (fst sub) /\
                   tree c d false dp (snd kb) (fst sub) (snd sub)) children subs /\
        kvs = concat (map fst subs) /\ foot = b :: concat (map snd subs)
  end.

(** The leaves below a block, left to right, once per path to them: block
    number and values. *)
Fixpoint leaves {V} (c : codec V) (d : disk) (depth : nat) (b : N) : list (N * list V) :=
  match depth, unpack_node_raw c (d b) true true with
  | O, Ok (Leaf _ _ vs) => [(b, vs)]
  | S dp, Ok (Internal _ _ bs) => flat_map (leaves c d dp) bs
  | _, _ => []
  end.

(** The internal nodes below (and at) a block, once per path, and the blocks an
    internal node points to. *)
Fixpoint inner {V} (c : codec V) (d : disk) (depth : nat) (b : N) : list N :=
  match depth, unpack_node_raw c (d b) true true with
  | S dp, Ok (Internal _ _ bs) => b :: flat_map (inner c d dp) bs
  | _, _ => []
  end.
Definition children {V} (c : codec V) (d : disk) (b : N) : list N :=
  match unpack_node_raw c (d b) true true with Ok (Internal _ _ bs) => bs | _ => [] end.

(** How often [x] occurs in a list. *)
Fixpoint occ (x : N) (l : list N) : N :=
  match l with [] => 0 | y :: r => (if x =? y then 1 else 0) + occ x r end.

(** A tree of any origin that the lenient reader can read: the entries below the
    i-th child of an internal node have keys from key i up to key i+1. *)
Fixpoint children_ok {X V} (P : N -> X -> list (N * V) -> Prop) (ks : list N) (bs : list X)
    (subs : list (list (N * V))) : Prop :=
  match ks, bs, subs with
  | [], [], [] => True
  | k :: ks', b :: bs', s :: subs' =>
      P k b s /\ s <> [] /\
      (forall k', In k' (map fst s) -> k <= k' /\ match ks' with k2 :: _ => k' < k2 | [] => True end) /\
      children_ok P ks' bs' subs'
  | _, _, _ => False
  end.
Fixpoint wf_tree {V} (c : codec V) (d : disk) (depth : nat) (b : N) (kvs : list (N * V)) : Prop :=
  match depth with
  | O => exists h ks vs, (forall root, unpack_node_raw c (d b) true root = Ok (Leaf h ks vs)) /\
                         kvs = combine ks vs
  | S dp => exists h ks bs subs,
      (forall root, unpack_node_raw c (d b) true root = Ok (Internal h ks bs)) /\
      ks <> [] /\ children_ok (fun _ b s => wf_tree c d dp b s) ks bs subs /\ kvs = concat subs
  end.

(** A finite map given as a list. *)
Fixpoint assoc {V} (kvs : list (N * V)) (k : N) : option V :=
  match kvs with [] => None | (k', v) :: r => if k =? k' then Some v else assoc r k end.

(** Value reference counters: [rep rc vs] says that exactly the values [vs] (with
    multiplicity) have been counted in state [rc].  Counting [v] (of the codec's
    range) on top of [vs] either succeeds or fails because [bad vs v]. *)
Record counter_ok {V R} (range : V -> Prop) (rcinc : V -> st R unit) (rep : R -> list V -> Prop) (bad : list V -> V -> Prop) : Prop := {
  co_inc : forall r vs v, range v -> rep r vs ->
    match rcinc v r with
    | (r', Ok _) => rep r' (v :: vs)
    | (_, Err) => bad vs v
    | (_, Panic) => False
    end;
  co_perm : forall r vs vs', rep r vs -> Permutation vs vs' -> rep r vs' }.

(** [a] is contained in [u], with multiplicities. *)
Definition within {V} (a u : list V) : Prop := exists rest, Permutation (a ++ rest) u.

(** A pre-built leaf handed to the builder: a summary that is true of the block
    it names, which is referenced and marked as shared. *)
Definition prebuilt {V} (c : codec V) (n : N) (d : disk) (count : N -> N) (s : summary) (kvs : list (N * V)) : Prop :=
  su_block s < n /\ su_nr s = nlen kvs /\ su_key s = first_key kvs /\ nlen kvs <= calc_max_entries c /\
  (exists h, holds c d (su_block s) (Leaf h (map fst kvs) (map snd kvs)) /\
             nh_nr_entries h = nlen kvs /\ nh_max_entries h = calc_max_entries c) /\
  0 < count (su_block s) /\ su_shared s = true.

(** The entries a sequence of pushes stands for.  Runs of several pre-built
    leaves are at least half full, as the builder insists. *)
Inductive pushes {V} (c : codec V) (n : N) (d : disk) (count : N -> N) : list (@build_op V) -> list (N * V) -> Prop :=
| pushes_nil : pushes c n d count [] []
| pushes_value k v os kvs : pushes c n d count os kvs -> pushes c n d count (PushValue k v :: os) ((k, v) :: kvs)
| pushes_nodes ns kvss os kvs :
    ns <> [] -> Forall2 (prebuilt c n d count) ns kvss -> Forall (fun kvs => kvs <> []) kvss ->
    ((1 < length ns)%nat -> Forall (fun s => calc_max_entries c / 2 <= su_nr s) ns) ->
    pushes c n d count os kvs -> pushes c n d count (PushNodes ns :: os) (concat kvss ++ kvs).

(** The first push may also be of a single empty leaf, such as the root of an empty tree. *)
Definition pushed {V} (c : codec V) (n : N) (d : disk) (count : N -> N) (os : list (@build_op V)) (kvs : list (N * V)) : Prop :=
  pushes c n d count os kvs \/
  exists s os', os = PushNodes [s] :: os' /\ prebuilt c n d count s [] /\ pushes c n d count os' kvs.

(** Entries that may be stored: increasing 64-bit keys and values of the codec's range. *)
Definition entries_ok {V} (range : V -> Prop) (kvs : list (N * V)) : Prop :=
  increasing (map fst kvs) /\ Forall (fun kv => fst kv < 2 ^ 64 /\ range (snd kv)) kvs.

(** A device and space map the builder can work with: every block the map knows
    can be read and written, the map agrees with its own counters, and freshly
    allocated memory is a block of arbitrary bytes. *)
Definition usable (n max : N) (w : wb) : Prop :=
  n < 2 ^ 64 /\
  sm_nr (wb_sm w) = n /\ sm_max (wb_sm w) = max /\ 1 <= max /\
  sm_nalloc (wb_sm w) = nlen (filter (fun b => negb (sm_counts (wb_sm w) b =? 0)) (range 0 n)) /\
  sm_begin (wb_sm w) <= n /\ (forall b, b < n -> sm_counts (wb_sm w) b <= max) /\
  Forall (fun b => wb_good w (b_loc b) = true) (wb_queue w) /\
  (forall b, b < n -> wb_good w b = true) /\
  (forall b, bytes (wb_junk w b) /\ nlen (wb_junk w b) = 4096).

(** No free block, or a counter at its maximum. *)
Definition exhausted (n max : N) (w : wb) : Prop :=
  (forall b, b < n -> sm_counts (wb_sm w) b <> 0) \/ (exists b, b < n /\ sm_counts (wb_sm w) b = max).

(** Why a build may fail: the device is exhausted, or a value among [all] could
    not be counted on top of others of them. *)
Definition build_failed {V} (n max : N) (bad : list V -> V -> Prop) (all : list V) (w : wb) : Prop :=
  exhausted n max w \/ exists v vs, bad vs v /\ within (v :: vs) all.

(** The device once everything queued has been written. *)
Definition flushed (w : wb) : disk := wb_disk (fst (wb_flush w)).
