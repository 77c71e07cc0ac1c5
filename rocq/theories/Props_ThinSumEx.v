(** C43: examples, and the trees thin_check accepts although they are not searchable. *)
From Verif Require Import Base Csum_Model Codec_Model Utils_Model Walker_Model SpaceMap_Model ThinCheck_Model ThinCheck_Spec ThinSum_Proofs Props_ThinSum.

Definition nblk {V} (c : codec V) (n : node V) : list N :=
  match write_checksum (firstn 4096 (pack_node c n ++ repeat 0 4096)) NODE with Ok b => b | _ => [] end.
Definition tleaf (at_ : N) (ks : list N) : list N :=
  nblk bt_codec (Leaf (mknh at_ true (nlen ks) 252 8) ks (map (fun k => mkbt k 0) ks)).
Definition tnode (at_ : N) (kcs : list (N * N)) : list N :=
  nblk u64_codec (Internal (mknh at_ false (nlen kcs) 252 8) (map fst kcs) (map snd kcs)).

(** The verdict on the device with root 1 on a device of 8 blocks, non-fatal errors ignored. *)
Definition bottom (fuel : nat) (eng : N -> option (list N)) :=
  check_mappings_bottom_level 8 eng true fuel (fun l => l) [1] (WCore (core_sm_for 8 10)) (WCore (core_sm_for 100 10)).
Definition accepts (eng : N -> option (list N)) (mapped : N) : Prop :=
  match bottom 20 eng with (_, _, Ok ss) => mapped_ok ss (1, (1, mkdd mapped 0 0 0)) = true | _ => False end.
Definition on_disk (l : list (N * list N)) (b : N) : option (list N) :=
  match find (fun x => fst x =? b) l with Some x => Some (snd x) | None => None end.
Lemma on_disk_device l : forallb (fun x => (fst x <? 8) && (nlen (snd x) =? 4096) && forallb (fun y => y <? 256) (snd x)) l = true -> device_of 8 (on_disk l).
Proof.
  intros H. split; [reflexivity|]. intros b data E. unfold on_disk in E. destruct (find _ l) as [[b' d]|] eqn:Ef; [|discriminate].
  assert (d = data) by (cbn [snd] in E; congruence). subst d. apply find_some in Ef. destruct Ef as [Hin Eb]. cbn [fst] in Eb. apply N.eqb_eq in Eb. subst b'.
  rewrite forallb_forall in H. apply H in Hin. cbn [fst snd] in Hin. apply Bool.andb_true_iff in Hin. destruct Hin as [Hin Hby].
  unfold nlen in Hin. conj; try lia. apply Forall_forall. intros y Hy. rewrite forallb_forall in Hby. apply Hby in Hy. unfold is_byte. lia.
Qed.
Lemma small_on_disk l : forallb (fun x => match inner_on (on_disk l) true (fst x) with Some (_, cs) => forallb (fun c => c <? 4294967296) cs | None => true end) l = true ->
  small_pointers (on_disk l) true.
Proof.
  intros H b ks cs c E Hc. rewrite forallb_forall in H.
  assert (exists d, In (b, d) l) as [d Hd].
  { unfold inner_on in E. destruct (on_disk l b) as [d|] eqn:Eb; [|discriminate]. unfold on_disk in Eb. destruct (find _ l) as [[b' d']|] eqn:Ef; [|discriminate].
    apply find_some in Ef. destruct Ef as [Hin Ex]. cbn [fst] in Ex. apply N.eqb_eq in Ex. subst b'. exists d'. exact Hin. }
  specialize (H _ Hd). cbn [fst] in H. rewrite E in H. rewrite forallb_forall in H. apply H in Hc. lia.
Qed.

Ltac hleaves := repeat first [apply Forall2_nil | apply Forall2_cons]; try apply holds_leaf; try apply searchable_leaf; vm_compute; reflexivity.
(** A tree of two levels, accepted; it meets the hypotheses of C43_accepted_partial, and is sound. *)
Definition good_disk := Eval vm_compute in [(1, tnode 1 [(0, 2); (5, 3)]); (2, tleaf 2 [0; 4]); (3, tleaf 3 [5; 9])].
Example C43_accepted_met : device_of 8 (on_disk good_disk) /\ small_pointers (on_disk good_disk) true /\ accepts (on_disk good_disk) 4 /\
  holds (leaf_on (on_disk good_disk) true) (inner_on (on_disk good_disk) true) 1 [0; 4; 5; 9] /\
  searchable (leaf_on (on_disk good_disk) true) (inner_on (on_disk good_disk) true) 1 [0; 4; 5; 9].
Proof.
  conj; [apply on_disk_device; vm_compute; reflexivity|apply small_on_disk; vm_compute; reflexivity|vm_compute; reflexivity| |].
  - apply (holds_inner _ _ 1 [0; 5] [2; 3] [[0; 4]; [5; 9]]); [vm_compute; reflexivity|vm_compute; reflexivity|].
    hleaves.
  - apply (searchable_inner _ _ 1 [0; 5] [2; 3] [[0; 4]; [5; 9]]); [vm_compute; reflexivity|vm_compute; reflexivity|repeat constructor| |].
    + hleaves.
    + cbn [separated]. conj; auto; intros x Hx; cbn [In] in Hx; intuition lia.
Qed.

(** "so every key in it can be found by lookup" is not so: a key may equal the key of the next
    child, because the range of the parent is compared as if it included its end. *)
Definition bound_disk := Eval vm_compute in [(1, tnode 1 [(0, 2); (5, 3)]); (2, tleaf 2 [0; 5]); (3, tleaf 3 [7])].
Lemma finds_inv leaf inner b k : finds leaf inner b k ->
  match leaf b with
  | Some ks => In k ks
  | None => match inner b with Some (ks, cs) => match pick ks cs k with Some c => finds leaf inner c k | None => False end | None => False end
  end.
Proof. intros [? ks ? E H|? ks cs c ? E1 E2 E3 H]; [rewrite E; auto|]. rewrite E1, E2, E3. auto. Qed.
(** one step down, for a known node *)
Ltac fstep H := apply finds_inv in H;
  match type of H with match ?x with Some _ => _ | None => _ end =>
    let v := eval vm_compute in x in replace x with v in H by (vm_compute; reflexivity); cbv iota in H;
    try match type of H with match ?y with Some _ => _ | None => _ end =>
      let w := eval vm_compute in y in replace y with w in H by (vm_compute; reflexivity); cbv iota beta in H end end.
Theorem C43_lookup_refuted : exists eng keys k, device_of 8 eng /\ small_pointers eng true /\ accepts eng (nlen keys) /\
  holds (leaf_on eng true) (inner_on eng true) 1 keys /\ In k keys /\ ~ finds (leaf_on eng true) (inner_on eng true) 1 k.
Proof.
  exists (on_disk bound_disk), [0; 5; 7], 5.
  conj; [apply on_disk_device; vm_compute; reflexivity|apply small_on_disk; vm_compute; reflexivity|vm_compute; reflexivity| |cbn; auto|].
  - apply (holds_inner _ _ 1 [0; 5] [2; 3] [[0; 5]; [7]]); [vm_compute; reflexivity|vm_compute; reflexivity|].
    hleaves.
  - intros H. fstep H. cbn [pick] in H. change (5 <=? 5) with true in H. change (0 <=? 5) with true in H. cbv iota in H. fstep H. cbn [In] in H. intuition discriminate.
Qed.
(** The first key of an internal node may be below its key in the parent: keys below the range
    of their node are accepted too. *)
Definition low_disk := Eval vm_compute in
  [(1, tnode 1 [(0, 2); (10, 3)]); (2, tnode 2 [(0, 4)]); (4, tleaf 4 [0]); (3, tnode 3 [(5, 5)]); (5, tleaf 5 [5])].
Theorem C43_low_refuted : exists eng keys k, device_of 8 eng /\ small_pointers eng true /\ accepts eng (nlen keys) /\
  holds (leaf_on eng true) (inner_on eng true) 1 keys /\ In k keys /\ ~ finds (leaf_on eng true) (inner_on eng true) 1 k.
Proof.
  exists (on_disk low_disk), [0; 5], 5.
  conj; [apply on_disk_device; vm_compute; reflexivity|apply small_on_disk; vm_compute; reflexivity|vm_compute; reflexivity| |cbn; auto|].
  - apply (holds_inner _ _ 1 [0; 10] [2; 3] [[0]; [5]]); [vm_compute; reflexivity|vm_compute; reflexivity|]. constructor; [|constructor; [|constructor]].
    + apply (holds_inner _ _ 2 [0] [4] [[0]]); [vm_compute; reflexivity|vm_compute; reflexivity|]. hleaves.
    + apply (holds_inner _ _ 3 [5] [5] [[5]]); [vm_compute; reflexivity|vm_compute; reflexivity|]. hleaves.
  - intros H. fstep H. cbn [pick] in H. change (10 <=? 5) with false in H. change (0 <=? 5) with true in H. cbv iota in H.
    fstep H. cbn [pick] in H. change (0 <=? 5) with true in H. cbv iota in H. fstep H. cbn [In] in H. intuition discriminate.
Qed.
(** "nr_mappings is the number of keys" is not so: a child that overlaps what comes before it
    is left out of the summary without an error. *)
Definition drop_disk := Eval vm_compute in [(1, tnode 1 [(0, 2); (5, 3)]); (2, tleaf 2 [0; 5]); (3, tleaf 3 [5; 9])].
Theorem C43_dropped_refuted : exists eng keys mapped, device_of 8 eng /\ small_pointers eng true /\ accepts eng mapped /\
  holds (leaf_on eng true) (inner_on eng true) 1 keys /\ mapped < nlen keys /\ ~ increasing keys.
Proof.
  exists (on_disk drop_disk), [0; 5; 5; 9], 2.
  conj; [apply on_disk_device; vm_compute; reflexivity|apply small_on_disk; vm_compute; reflexivity|vm_compute; reflexivity| |vm_compute; reflexivity|].
  - apply (holds_inner _ _ 1 [0; 5] [2; 3] [[0; 5]; [5; 9]]); [vm_compute; reflexivity|vm_compute; reflexivity|].
    hleaves.
  - intros H. apply (increasing_app [0] [5; 5; 9]) in H. destruct H as (_ & H & _). pose proof (increasing_head_lt _ _ _ H (or_introl eq_refl : In 5 [5; 9])). lia.
Qed.
(** A pointer is truncated to 32 bits: the tree is accepted although one of its children is
    not a block of the device. *)
Definition wide_disk := Eval vm_compute in [(1, tnode 1 [(0, 3); (5, 4294967298)]); (3, tleaf 3 [0]); (2, tleaf 2 [5; 6])].
Theorem C43_truncated_refuted : exists eng keys mapped, device_of 8 eng /\ accepts eng mapped /\
  holds (leaf_on eng true) (inner_on eng true) 1 keys /\ nlen keys < mapped /\
  exists ks cs c, inner_on eng true 1 = Some (ks, cs) /\ In c cs /\ eng c = None.
Proof.
  exists (on_disk wide_disk), [0], 3. conj; [apply on_disk_device; vm_compute; reflexivity|vm_compute; reflexivity| |vm_compute; reflexivity|].
  - apply (holds_inner _ _ 1 [0; 5] [3; 4294967298] [[0]; []]); [vm_compute; reflexivity|vm_compute; reflexivity|].
    constructor; [|constructor; [|constructor]].
    + apply holds_leaf; vm_compute; reflexivity.
    + apply holds_none; vm_compute; reflexivity.
  - exists [0; 5], [3; 4294967298], 4294967298. conj; [vm_compute; reflexivity|cbn; auto|vm_compute; reflexivity].
Qed.

(** A loop between internal nodes is followed forever: however deep the recursion may go, it
    is not deep enough (Panic: the stack overflows). *)
Lemma loop_forever nodes l a b c : inner_of nodes a = Some ([0], [b]) -> inner_of nodes b = Some ([0; 10], [c; a]) ->
  forall fuel is_root kr ss, ss a = None -> ss b = None -> ss c = Some l -> kr_end kr = None ->
  summarize_tree nodes true fuel is_root kr a ss = None /\
  summarize_tree nodes true fuel is_root kr b ss = None.
Proof.
  assert (U : forall x p, inner_of nodes x = Some p -> nm_get_type nodes x = NTInternal /\ hv_get (nm_info nodes) x = Ok (Some p)).
  { intros x p. unfold inner_of. destruct (nm_get_type nodes x); try discriminate. destruct (hv_get _ _) as [[p0|]| |]; try discriminate. intros H. split; [reflexivity|]. f_equal. exact H. }
  intros Ha Hb. apply U in Ha, Hb. destruct Ha as [A1 A2], Hb as [B1 B2].
  induction fuel as [|fuel IH]; intros is_root kr ss Sa Sb Sc Hk; [split; reflexivity|]. cbn [summarize_tree]. rewrite Sa, Sb, A1, B1, A2, B2.
  destruct kr as [ks ke]. cbn [kr_end] in Hk. subst ke. cbn [negb andb]. split.
  - change (split_key_ranges (mkkr ks None) [0]) with (Ok [mkkr (Some 0) None]). cbn [sum_children].
    rewrite (proj2 (IH false (mkkr (Some 0) None) ss Sa Sb Sc eq_refl)). reflexivity.
  - replace (split_key_ranges (mkkr ks None) [0; 10]) with (Ok [mkkr (Some 0) (Some 10); mkkr (Some 10) None]) by (destruct ks; reflexivity).
    cbn [sum_children]. destruct fuel as [|fuel]; [reflexivity|].
    replace (summarize_tree nodes true (S fuel) false (mkkr (Some 0) (Some 10)) c ss) with
      (Some (ss, if (0 <? s_nr l) && ((s_low l <? 0) || (10 <? s_high l)) then sum_error else l)) by (cbn [summarize_tree]; rewrite Sc; reflexivity).
    rewrite (proj1 (IH false (mkkr (Some 10) None) ss Sa Sb Sc eq_refl)). reflexivity.
Qed.
Definition loop_disk := Eval vm_compute in [(1, tnode 1 [(0, 2)]); (2, tnode 2 [(0, 3); (10, 1)]); (3, tleaf 3 [0; 5])].
Theorem C43_loop_refuted : exists eng, device_of 8 eng /\ small_pointers eng true /\ forall fuel, snd (bottom fuel eng) = Panic.
Proof.
  exists (on_disk loop_disk). conj; [apply on_disk_device; vm_compute; reflexivity|apply small_on_disk; vm_compute; reflexivity|].
  assert (F : match collect_nodes_in_use 8 (on_disk loop_disk) true [1] (WCore (core_sm_for 8 10)) with
              | Ok (_, nodes) => match read_leaves (on_disk loop_disk) true (leaves_of nodes) (nodes, WCore (core_sm_for 100 10), fun _ => None) with
                                 | Ok (nodes, _, ss) => inner_of nodes 1 = Some ([0], [2]) /\ inner_of nodes 2 = Some ([0; 10], [3; 1]) /\
                                     ss 1 = None /\ ss 2 = None /\ ss 3 = Some (sum_leaf [0; 5])
                                 | _ => False
                                 end
              | _ => False
              end) by (vm_compute; conj; reflexivity).
  intros fuel. unfold bottom, check_mappings_bottom_level. cbv beta.
  destruct (collect_nodes_in_use _ _ _ _ _) as [[m nodes]| |]; try (exfalso; exact F).
  destruct (read_leaves _ _ _ _) as [[[nodes' dsm] ss]| |]; try (exfalso; exact F). destruct F as (F1 & F2 & F3 & F4 & F5).
  cbn [count_mapped_blocks]. change (1 mod W32) with 1.
  rewrite (proj1 (loop_forever nodes' (sum_leaf [0; 5]) 1 2 3 F1 F2 fuel true full_range ss F3 F4 F5 eq_refl)). reflexivity.
Qed.
