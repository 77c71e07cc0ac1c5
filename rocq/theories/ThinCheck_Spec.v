(** What thin_check should establish. *)
From Verif Require Import Base.

(** ** Trees of keys *)
Section Tree.
(** The leaves that could be read, with their keys; the internal nodes, with keys and
    children. *)
Context (leaf : N -> option (list N)) (inner : N -> option (list N * list N)).

(** The keys below a block, from left to right; a block that is neither holds none. *)
Inductive holds : N -> list N -> Prop :=
| holds_leaf b ks : leaf b = Some ks -> holds b ks
| holds_inner b ks cs kss : leaf b = None -> inner b = Some (ks, cs) -> Forall2 holds cs kss -> holds b (concat kss)
| holds_none b : leaf b = None -> inner b = None -> holds b [].

(** The keys below the children of a node lie where the node's keys say: none is above the
    key of the next child, none in a leaf is below the leaf's own key. *)
Fixpoint placed (ks cs : list N) (kss : list (list N)) : Prop :=
  match ks, cs, kss with
  | k :: ks, c :: cs, kk :: kss =>
      (forall x, In x kk -> match ks with k' :: _ => x <= k' | [] => True end) /\
      (leaf c <> None -> forall x, In x kk -> k <= x) /\ placed ks cs kss
  | [], [], [] => True
  | _, _, _ => False
  end.
(** Entries of a node. *)
Definition entries (b : N) : N :=
  match leaf b with
  | Some ks => nlen ks
  | None => match inner b with Some (ks, _) => nlen ks | None => 0 end
  end.
(** A sound tree: every block of it is a node, the keys strictly increase from the first leaf
    to the last, they are placed as the internal nodes say, and, if [filled], every node but
    the root has at least 84 entries. *)
Inductive sound (filled : bool) : N -> list N -> Prop :=
| sound_leaf b ks : leaf b = Some ks -> increasing ks -> sound filled b ks
| sound_inner b ks cs kss : leaf b = None -> inner b = Some (ks, cs) -> increasing ks -> Forall2 (sound filled) cs kss ->
    increasing (concat kss) -> placed ks cs kss -> (filled = true -> forall c, In c cs -> 84 <= entries c) -> sound filled b (concat kss).

(** Following the keys from a block to the leaf where a key should be. *)
Fixpoint pick (ks cs : list N) (k : N) : option N :=
  match ks, cs with
  | k0 :: ks, c :: cs => if k0 <=? k then match pick ks cs k with Some c' => Some c' | None => Some c end else None
  | _, _ => None
  end.
Inductive finds : N -> N -> Prop :=
| finds_leaf b ks k : leaf b = Some ks -> In k ks -> finds b k
| finds_inner b ks cs c k : leaf b = None -> inner b = Some (ks, cs) -> pick ks cs k = Some c -> finds c k -> finds b k.
(** The keys of the internal nodes separate the children. *)
Fixpoint separated (ks : list N) (kss : list (list N)) : Prop :=
  match ks, kss with
  | k :: ks, kk :: kss => (forall x, In x kk -> k <= x /\ match ks with k' :: _ => x < k' | [] => True end) /\ separated ks kss
  | [], [] => True
  | _, _ => False
  end.
Inductive searchable : N -> list N -> Prop :=
| searchable_leaf b ks : leaf b = Some ks -> searchable b ks
| searchable_inner b ks cs kss : leaf b = None -> inner b = Some (ks, cs) -> increasing ks -> Forall2 searchable cs kss -> separated ks kss ->
    searchable b (concat kss).
(** What the check leaves open: a key that equals the key of the next child, an internal node
    whose first key is below the key it has in its parent. *)
Fixpoint apart (ks : list N) (kss : list (list N)) : Prop :=
  match ks, kss with
  | _ :: ks, kk :: kss => (match ks with k' :: _ => ~ In k' kk | [] => True end) /\ apart ks kss
  | _, _ => True
  end.
Definition first_key_ok (k c : N) : Prop :=
  match leaf c, inner c with None, Some (k' :: _, _) => k <= k' | _, _ => True end.
Inductive aligned : N -> Prop :=
| aligned_leaf b ks : leaf b = Some ks -> aligned b
| aligned_inner b ks cs : leaf b = None -> inner b = Some (ks, cs) -> Forall2 first_key_ok ks cs ->
    (forall kss, Forall2 holds cs kss -> apart ks kss) -> (forall c, In c cs -> aligned c) -> aligned b.
(** The blocks of the tree below a block. *)
Inductive under : N -> N -> Prop :=
| under_self b : under b b
| under_child b ks cs c b' : inner b = Some (ks, cs) -> In c cs -> under c b' -> under b b'.
End Tree.

(** ** Trees on a device *)
From Verif Require Import Csum_Model Codec_Model SpaceMap_Model Builder_Spec.
Section Device.
Context (eng : N -> option (list N)) (ignore_non_fatal : bool).
(** The keys of a leaf of mappings; the keys and the children of an internal node. *)
Definition leaf_on (b : N) : option (list N) :=
  match eng b with
  | Some data => match check_and_unpack_node bt_codec (mkblock b data) ignore_non_fatal true with
                 | Ok (Leaf _ ks _) => Some ks
                 | _ => None
                 end
  | None => None
  end.
Definition inner_on (b : N) : option (list N * list N) :=
  match eng b with
  | Some data => match check_and_unpack_node u64_codec (mkblock b data) ignore_non_fatal true with
                 | Ok (Internal _ ks cs) => Some (ks, cs)
                 | _ => None
                 end
  | None => None
  end.
(** The data blocks a leaf maps to, once per mapping. *)
Definition targets (b : N) : list N :=
  match eng b with
  | Some data => match check_and_unpack_node bt_codec (mkblock b data) ignore_non_fatal true with
                 | Ok (Leaf _ _ vs) => map bt_block vs
                 | _ => []
                 end
  | None => []
  end.
(** How many mappings in these leaves refer to data block [b]. *)
Definition references (leaves : list N) (b : N) : N := nlen (filter (N.eqb b) (flat_map targets leaves)).
(** No pointer exceeds 32 bits. *)
Definition small_pointers : Prop := forall b ks cs c, inner_on b = Some (ks, cs) -> In c cs -> c < 4294967296.
End Device.
(** A device of [nr] blocks of 4096 bytes. *)
Definition device_of (nr : N) (eng : N -> option (list N)) : Prop :=
  nr < 4294967296 /\ forall b data, eng b = Some data -> b < nr /\ length data = 4096%nat /\ bytes data.

(** ** Repairs *)
(** What the repair of leaks may do to a block: nothing, or, in a bitmap, turn counts of one
    into zero. *)
Definition loosened (old new : list N) : Prop := new = old \/
  exists bm bm' rest rest', bitmap_unpack old = Ok (bm, rest) /\ bitmap_unpack new = Ok (bm', rest') /\
    metadata_block_type old = BITMAP /\ metadata_block_type new = BITMAP /\ bm_blocknr bm' = bm_blocknr bm /\
    Forall2 (fun e e' => e' = e \/ (e = Small 1 /\ e' = Small 0)) (bm_entries bm) (bm_entries bm').
(** The superblock with the flag cleared. *)
Definition unflagged (sb : thin_sb) : thin_sb :=
  mktsb false (ts_block sb) (ts_version sb) (ts_time sb) (ts_transaction_id sb) (ts_metadata_snap sb)
    (ts_data_sm_root sb) (ts_metadata_sm_root sb) (ts_mapping_root sb) (ts_details_root sb) (ts_data_block_size sb) (ts_nr_metadata_blocks sb).

(** ** Pools *)
(** The largest count in a map for [n] devices. *)
Definition limit (n : N) : N := if n <=? 1 then 1 else if n <=? 255 then 255 else if n <=? 65535 then 65535 else 4294967295.
(** The parts of a pool without a metadata snapshot: superblock; the entries of the device
    details and of the top level of the mappings; the data space map: root, index, large
    counts; the metadata space map: the same; and the blocks all of this occupies. *)
Record parts := mkparts {
  m_sb : thin_sb; m_devs : list (N * device_detail); m_roots : list (N * N);
  m_data : sm_root; m_data_index : list (N * index_entry); m_data_large : list (N * N);
  m_meta : sm_root; m_meta_index : list index_entry; m_meta_large : list (N * N);
  m_used : list N }.
(** The device holds these parts, nothing of them is shared, and none of it is a part of the
    mapping trees of the devices. *)
Definition pool_with (nr : N) (d : disk) (eng : N -> option (list N)) (ignore_non_fatal : bool) (m : parts) : Prop :=
  let sb := m_sb m in
  eng 0 = Some (d 0) /\ thin_read_superblock d 0 = Ok sb /\ ts_metadata_snap sb = 0 /\ nlen (m_roots m) < 4294967296 /\
  (exists rest, smroot_unpack (ts_data_sm_root sb) = Ok (m_data m, rest)) /\
  (exists rest, smroot_unpack (ts_metadata_sm_root sb) = Ok (m_meta m, rest)) /\
  increasing (map fst (m_devs m)) /\ increasing (map fst (m_roots m)) /\ increasing (map fst (m_data_index m)) /\
  increasing (map fst (m_data_large m)) /\ increasing (map fst (m_meta_large m)) /\
  load_metadata_index (mkblock (sr_bitmap_root (m_meta m)) (d (sr_bitmap_root (m_meta m)))) (sr_nr_blocks (m_meta m))
    = Ok (mkmi (sr_bitmap_root (m_meta m)) (m_meta_index m)) /\
  exists n1 n2 n3 n4 n5 f1 f2 f3 f4 f5,
    tree dd_codec d true n1 (ts_details_root sb) (m_devs m) f1 /\
    tree u64_codec d true n2 (ts_mapping_root sb) (m_roots m) f2 /\
    tree ie_codec d true n3 (sr_bitmap_root (m_data m)) (m_data_index m) f3 /\
    tree u32_codec d true n4 (sr_ref_count_root (m_data m)) (m_data_large m) f4 /\
    tree u32_codec d true n5 (sr_ref_count_root (m_meta m)) (m_meta_large m) f5 /\
    (forall b, In b (f1 ++ f2 ++ (f3 ++ f4) ++ f5 ++ [sr_bitmap_root (m_meta m)]) -> eng b = Some (d b)) /\
    m_used m = 0 :: f1 ++ f2 ++ (f3 ++ map ie_blocknr (map snd (m_data_index m)) ++ f4) ++
               (f5 ++ [sr_bitmap_root (m_meta m)] ++ map ie_blocknr (m_meta_index m)) /\
    NoDup (m_used m) /\ (forall b, In b (m_used m) -> b < nr) /\
    (forall b id root, In b (m_used m) -> In (id, root) (m_roots m) -> ~ under (inner_on eng ignore_non_fatal) root b).
