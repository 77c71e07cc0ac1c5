(** C45: examples, and where the repair falls short. *)
From Verif Require Import Base Csum_Model Codec_Model Codec_Spec Walker_Model Restore_Model
  Repair_Model Repair_Spec RepairInfo_Proofs Props_Repair Props_RepairSb.

Definition blk {V} (c : codec V) (n : node V) : list N :=
  match write_checksum (firstn 4096 (pack_node c n ++ repeat 0 4096)) NODE with Ok b => b | _ => [] end.
Definition map_leaf (at_ : N) (kvs : list (N * block_time)) : list N :=
  blk bt_codec (Leaf (mknh at_ true (nlen kvs) 252 8) (map fst kvs) (map snd kvs)).
Definition dev_leaf (at_ : N) (kvs : list (N * N)) : list N :=
  blk u64_codec (Leaf (mknh at_ true (nlen kvs) 252 8) (map fst kvs) (map snd kvs)).
Definition det_leaf (at_ : N) (kvs : list (N * device_detail)) : list N :=
  blk dd_codec (Leaf (mknh at_ true (nlen kvs) 126 24) (map fst kvs) (map snd kvs)).

(** A pool with one device, whose superblock is lost. *)
Definition b1 := Eval vm_compute in map_leaf 1 [(0, mkbt 100 1); (7, mkbt 3 2)].
Definition b3 := Eval vm_compute in dev_leaf 3 [(1, 1)].
Definition b5 := Eval vm_compute in det_leaf 5 [(1, mkdd 2 7 1 3)].
Definition ex_eng (b : N) : option (list N) := match b with 1 => Some b1 | 3 => Some b3 | 5 => Some b5 | _ => None end.
Lemma ex_cases b data : ex_eng b = Some data -> (b = 1 /\ data = b1) \/ (b = 3 /\ data = b3) \/ (b = 5 /\ data = b5).
Proof.
  assert (I : forall a c : list N, Some a = Some c -> c = a) by (intros; congruence).
  destruct (N.eqb_spec b 1) as [E|E]; [subst b; intros H; left; split; [auto|exact (I b1 data H)]|].
  destruct (N.eqb_spec b 3) as [E1|E1]; [subst b; intros H; right; left; split; [auto|exact (I b3 data H)]|].
  destruct (N.eqb_spec b 5) as [E2|E2]; [subst b; intros H; right; right; split; [auto|exact (I b5 data H)]|].
  unfold ex_eng. destruct b as [|[[[]|[]|]|[]|]]; try discriminate; congruence.
Qed.
Lemma ex_device : device ex_eng.
Proof.
  assert (B : forall l, forallb (fun x => x <? 256) l && (nlen l =? 4096) = true -> bytes l /\ nlen l = 4096).
  { intros l H. apply Bool.andb_true_iff in H. destruct H as [H1 H2]. apply N.eqb_eq in H2. split; [|auto].
    apply Forall_forall. intros x Hx. rewrite forallb_forall in H1. apply H1 in Hx. apply N.ltb_lt in Hx. auto. }
  intros b data H. apply B. destruct (ex_cases b data H) as [[_ ->]|[[_ ->]|[_ ->]]]; vm_compute; reflexivity.
Qed.
Lemma ex_homed : homed ex_eng.
Proof.
  intros b x (data & h & rest & H1 & _ & H2 & H3).
  assert (C : forall l n, match nh_unpack l with Ok (h, _) => nh_block h =? n | _ => false end = true -> nh_unpack l = Ok (h, rest) -> x = n).
  { intros l n E1 E2. rewrite E2 in E1. apply N.eqb_eq in E1. congruence. }
  destruct (ex_cases b data H1) as [[-> ->]|[[-> ->]|[-> ->]]]; eapply C; try exact H2; vm_compute; reflexivity.
Qed.
(** The pair of roots is found, and the superblock rebuilt from it. *)
Example C45_repair_met :
  device ex_eng /\ homed ex_eng /\ is_sort dev_le sort_devs /\ is_sort det_le sort_details /\
  find_roots 6 ex_eng sort_devs sort_details = Ok [mkfr (TOnDisk 3 5) 3 8 101] /\
  match read_or_rebuild_superblock 6 ex_eng sort_devs sort_details 0 (mkov None (Some 128) (Some 90)) with
  | Ok (OnDisk sb) => ts_time sb = 3 /\ ts_transaction_id sb = 8 /\ ts_mapping_root sb = 3 /\ ts_details_root sb = 5 /\
      firstn 8 (ts_data_sm_root sb) = [101; 0; 0; 0; 0; 0; 0; 0]
  | _ => False
  end.
Proof.
  conj; [exact ex_device|exact ex_homed|apply sorts_exist|apply sorts_exist|vm_compute; reflexivity|].
  assert (E : find_roots 6 ex_eng sort_devs sort_details = Ok [mkfr (TOnDisk 3 5) 3 8 101]) by (vm_compute; reflexivity).
  unfold read_or_rebuild_superblock. rewrite E. cbn [bind]. vm_compute. conj; reflexivity.
Qed.

(** Without the details, they are made up. *)
Definition ex_eng2 (b : N) : option (list N) := match b with 1 => Some b1 | 3 => Some b3 | _ => None end.
Example C45_without_details_met :
  find_roots 6 ex_eng2 sort_devs sort_details = Ok [mkfr (TInCore [(1, (1, 2))]) 3 1 101].
Proof. vm_compute. reflexivity. Qed.

(** ** Where it falls short *)
(** A node in the wrong place: block 4 holds a node that says it is block 3.  What is known
    of the one is taken for the other, and the rebuilt superblock's data device does not
    cover the blocks that its tree maps. *)
Definition b2 := Eval vm_compute in map_leaf 2 [(0, mkbt 50 4); (7, mkbt 3 4)].
Definition b4 := Eval vm_compute in dev_leaf 3 [(1, 2)].
Definition ex_eng4 (b : N) : option (list N) :=
  match b with 1 => Some b1 | 2 => Some b2 | 3 => Some b3 | 4 => Some b4 | 5 => Some b5 | _ => None end.
Theorem C45_misplaced_node_refuted :
  match find_roots 6 ex_eng4 sort_devs sort_details with
  | Ok (r :: _) => r = mkfr (TOnDisk 3 5) 4 8 51 /\
      match rebuild_superblock r None (mkov None (Some 128) None) with
      | Ok (OnDisk sb) => ts_mapping_root sb = 3 /\ firstn 8 (ts_data_sm_root sb) = [51; 0; 0; 0; 0; 0; 0; 0]
      | _ => False
      end
  | _ => False
  end /\
  unpack_node_raw bt_codec b1 true true = Ok (Leaf (mknh 1 true 2 252 8) [0; 7] [mkbt 100 1; mkbt 3 2]) /\
  unpack_node_raw u64_codec b3 true true = Ok (Leaf (mknh 3 true 1 252 8) [1] [1]).
Proof.
  conj; [|vm_compute; reflexivity|vm_compute; reflexivity].
  assert (E : match find_roots 6 ex_eng4 sort_devs sort_details with Ok (r :: _) => Some r | _ => None end = Some (mkfr (TOnDisk 3 5) 4 8 51))
    by (vm_compute; reflexivity).
  destruct (find_roots 6 ex_eng4 sort_devs sort_details) as [[|r rest]| |]; try discriminate E.
  assert (Er : r = mkfr (TOnDisk 3 5) 4 8 51) by congruence. rewrite Er. vm_compute. conj; reflexivity.
Qed.

(** A leaf of mappings to data block 0 looks like a leaf of the top level when its times
    are not above the number of metadata blocks: then it is taken for broken, and the pool
    is not found although nothing but the superblock is lost. *)
Definition s1 := Eval vm_compute in map_leaf 1 [(0, mkbt 0 1)].
Definition s5 := Eval vm_compute in det_leaf 5 [(1, mkdd 1 7 1 3)].
Theorem C45_small_leaf_lost_refuted :
  find_roots 6 (fun b => match b with 1 => Some s1 | 3 => Some b3 | 5 => Some s5 | _ => None end) sort_devs sort_details = Err /\
  unpack_node_raw bt_codec s1 true true = Ok (Leaf (mknh 1 true 1 252 8) [0] [mkbt 0 1]).
Proof. conj; vm_compute; reflexivity. Qed.

(** A stale node that points beyond the device, or whose value is exactly the number of
    blocks, brings the repair down. *)
Definition p1 := Eval vm_compute in map_leaf 1 [(0, mkbt 0 6)].
Definition p2 := Eval vm_compute in blk u64_codec (Internal (mknh 2 false 1 252 8) [0] [99]).
Theorem C45_panic_refuted :
  find_roots 6 (fun b => match b with 1 => Some p1 | _ => None end) sort_devs sort_details = Panic /\
  find_roots 6 (fun b => match b with 2 => Some p2 | _ => None end) sort_devs sort_details = Panic.
Proof. conj; vm_compute; reflexivity. Qed.
