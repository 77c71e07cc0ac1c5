(** C44: an example, and what thin_check accepts although it should not. *)
From Coq Require Import Permutation.
From Verif Require Import Base Csum_Model Codec_Model SpaceMap_Model Batcher_Model Walker_Model ThinOut_Model Restore_Model RestoreDoc_Spec Props_RestoreDoc
  Builder_Spec SmCheck_Spec Repair_Model ThinCheck_Model ThinCheck_Spec Props_ThinSumEx.

(** The metadata thin_restore writes for one device with one mapping, on a device of 20 blocks. *)
Definition ex_one : list sect := [SDev (mkirdev 3 1 0 0 0) [CMap (mkmap 5 4 0 1)]].
Definition one_blocks : list (list N) := Eval vm_compute in
  let d := wb_disk (r_w (fst (ex_run no_overrides (doc_events ex_sb ex_one ++ [EvEof])))) in map d (range 0 10).
Definition with_patches (ps : list (N * list N)) : disk :=
  fun b => match find (fun p => fst p =? b) ps with
           | Some p => snd p
           | None => nth (N.to_nat b) one_blocks (repeat 0 4096%nat)
           end.
Definition one_disk : disk := with_patches [].
Definition plain := mkco false false false false false false None None.
Definition run (o : check_opts) (d : disk) := thin_check 20 30 (fun l => l) o (fun _ => true) (fun _ => true) d.
Definition sb_of (d : disk) : thin_sb := match thin_read_superblock d 0 with Ok sb => sb | _ => mktsb false 0 0 0 0 0 [] [] 0 0 0 0 end.
Definition one_sb : thin_sb := Eval vm_compute in sb_of one_disk.
Definition vals {V} (c : codec V) (b : N) : list (N * V) :=
  match check_and_unpack_node c (mkblock b (one_disk b)) true true with Ok (Leaf _ ks vs) => combine ks vs | _ => [] end.
Definition root_of (bs : list N) : sm_root := match smroot_unpack bs with Ok (r, _) => r | _ => mksmroot 0 0 0 0 end.
Definition one_parts : parts := Eval vm_compute in
  mkparts one_sb (vals dd_codec 2) (vals u64_codec 3) (root_of (ts_data_sm_root one_sb)) (vals ie_codec 6) (vals u32_codec 5)
    (root_of (ts_metadata_sm_root one_sb))
    (match load_metadata_index (mkblock 9 (one_disk 9)) 20 with Ok mi => mi_indexes mi | _ => [] end) (vals u32_codec 8)
    [0; 2; 3; 6; 4; 5; 8; 9; 7].

Lemma patched_ok ps : forallb (fun l => (nlen l =? 4096) && forallb (fun x => x <? 256) l) (map snd ps ++ one_blocks) = true -> dev_ok (with_patches ps).
Proof.
  intros H b. rewrite forallb_forall in H.
  assert (Z : (nlen (repeat 0 4096) =? 4096) && forallb (fun x => x <? 256) (repeat 0 4096) = true) by (vm_compute; reflexivity).
  assert (X : (nlen (with_patches ps b) =? 4096) && forallb (fun x => x <? 256) (with_patches ps b) = true).
  { unfold with_patches. destruct (find _ ps) as [[k l]|] eqn:E.
    - apply find_some in E. destruct E as [E _]. cbn [snd]. apply H, in_or_app. left. exact (in_map snd _ _ E).
    - destruct (nth_in_or_default (N.to_nat b) one_blocks (repeat 0 4096%nat)) as [E'|E']; [apply H, in_or_app; right; exact E'|rewrite E'; exact Z]. }
  apply Bool.andb_true_iff in X. destruct X as [X1 X2]. apply N.eqb_eq in X1. split; [|exact X1].
  apply Forall_forall. intros x Hx. rewrite forallb_forall in X2. apply X2 in Hx. unfold is_byte. lia.
Qed.
Definition all_readable (d : disk) := dev 20 (fun _ => true) d.
Lemma no_inner d : forallb (fun b => match inner_on (all_readable d) false b with None => true | _ => false end) (range 0 20) = true ->
  forall b, inner_on (all_readable d) false b = None.
Proof.
  intros H b. destruct (N.ltb_spec b 20) as [Hb|Hb].
  - rewrite forallb_forall in H. specialize (H b ltac:(apply in_range; lia)). destruct (inner_on _ _ b); [discriminate|reflexivity].
  - unfold inner_on, all_readable, dev. replace (b <? 20) with false by (symmetry; apply N.ltb_ge; exact Hb). reflexivity.
Qed.
Lemma under_leaf inner r b : inner r = None -> under inner r b -> b = r.
Proof. intros E H. inversion H as [|? ? ? ? ? E']; subst; [reflexivity|congruence]. Qed.

Ltac leaf_tree DEV c b :=
  let n := eval vm_compute in (check_and_unpack_node c (mkblock b (one_disk b)) true true) in
  match n with Ok (Leaf ?h ?ks ?vs) => exists h, ks, vs end;
  conj; try reflexivity; try (vm_compute; congruence);
  split; [exact (proj1 (DEV b))|split; [exact (proj2 (DEV b))|]];
  intros inf is_root Hm; destruct inf, is_root;
  first [vm_compute; reflexivity | exfalso; apply (Hm eq_refl eq_refl); vm_compute; reflexivity].

(** The hypotheses of C44_accepts_partial are met, and the check succeeds. *)
Example C44_accepts_met :
  dev_ok one_disk /\ small_pointers (all_readable one_disk) false /\ pool_with 20 one_disk (all_readable one_disk) false one_parts /\
  (forall id root, In (id, root) (m_roots one_parts) -> root < 4294967296) /\
  holds (leaf_on (all_readable one_disk) false) (inner_on (all_readable one_disk) false) 1 [5] /\
  run plain one_disk = (one_disk, Ok tt).
Proof.
  assert (NI : forall b, inner_on (all_readable one_disk) false b = None) by (apply no_inner; vm_compute; reflexivity).
  assert (DEV : dev_ok one_disk) by (apply patched_ok; vm_compute; reflexivity).
  conj.
  - exact DEV.
  - intros b ks cs c E. rewrite NI in E. discriminate.
  - unfold pool_with. conj.
    + reflexivity.
    + vm_compute; reflexivity.
    + reflexivity.
    + reflexivity.
    + eexists. vm_compute; reflexivity.
    + eexists. vm_compute; reflexivity.
    + repeat constructor.
    + repeat constructor.
    + repeat constructor.
    + repeat constructor.
    + repeat constructor.
    + vm_compute; reflexivity.
    + exists 0%nat, 0%nat, 0%nat, 0%nat, 0%nat, [2], [3], [6], [5], [8]. conj.
      * leaf_tree DEV dd_codec 2.
      * leaf_tree DEV u64_codec 3.
      * leaf_tree DEV ie_codec 6.
      * leaf_tree DEV u32_codec 5.
      * leaf_tree DEV u32_codec 8.
      * intros b Hb. unfold all_readable, dev. cbn in Hb. replace (b <? 20) with true; [reflexivity|]. symmetry. apply N.ltb_lt. intuition lia.
      * reflexivity.
      * repeat constructor; cbn; intuition discriminate.
      * intros b Hb. cbn in Hb. intuition lia.
      * intros b id root Hb Hr Hu. cbn in Hr. destruct Hr as [Hr|[]]. assert (root = 1) by congruence. subst root.
        apply under_leaf in Hu; [|apply NI]. subst b. cbn in Hb. intuition discriminate.
  - intros id root [E|[]]. assert (root = 1) by congruence. subst. reflexivity.
  - apply ThinCheck_Spec.holds_leaf. vm_compute; reflexivity.
  - apply injective_projections; [|vm_compute; reflexivity]. reflexivity.
Qed.

(** ** What is accepted *)
Definition maps (kvs : list (N * N)) : list N :=
  nblk bt_codec (Leaf (mknh 1 true (nlen kvs) 252 8) (map fst kvs) (map (fun kv => mkbt (snd kv) 0) kvs)).
Definition details (n : N) : list N := nblk dd_codec (Leaf (mknh 2 true 1 126 24) [3] [mkdd n 0 0 0]).
(** "succeeds only if every mapping refers to a data block inside the data device" is not so:
    the errors of the increments are ignored.  The data device has 10 blocks. *)
Definition far_patches := Eval vm_compute in [(1, maps [(5, 4); (6, 999)]); (2, details 2)].
Theorem C44_out_of_range_refuted : exists d, dev_ok d /\ run plain d = (d, Ok tt) /\
  sr_nr_blocks (root_of (ts_data_sm_root (sb_of d))) = 10 /\ targets (all_readable d) false 1 = [4; 999].
Proof.
  exists (with_patches far_patches). conj; [apply patched_ok; vm_compute; reflexivity| |vm_compute; reflexivity|vm_compute; reflexivity].
  apply injective_projections; [reflexivity|vm_compute; reflexivity].
Qed.
(** "the expected counts equal the stored ones" is not so with at most one device: a block
    mapped twice counts once. *)
Definition twice_patches := Eval vm_compute in [(1, maps [(5, 4); (6, 4)]); (2, details 2)].
Theorem C44_count_refuted : exists d, dev_ok d /\ run plain d = (d, Ok tt) /\ targets (all_readable d) false 1 = [4; 4] /\
  exists bm rest, bitmap_unpack (d 4) = Ok (bm, rest) /\ nth_error (bm_entries bm) 4 = Some (Small 1).
Proof.
  exists (with_patches twice_patches). conj; [apply patched_ok; vm_compute; reflexivity| |vm_compute; reflexivity|].
  - apply injective_projections; [reflexivity|vm_compute; reflexivity].
  - do 2 eexists. conj; vm_compute; reflexivity.
Qed.
(** --skip-mappings tries to clear the flag although it was not asked to, and fails on the
    device, which is open for reading only. *)
Definition flag_patches := Eval vm_compute in
  [(0, match thin_write_superblock one_disk 0
         (mktsb true (ts_block one_sb) (ts_version one_sb) (ts_time one_sb) (ts_transaction_id one_sb) (ts_metadata_snap one_sb) (ts_data_sm_root one_sb)
            (ts_metadata_sm_root one_sb) (ts_mapping_root one_sb) (ts_details_root one_sb) (ts_data_block_size one_sb) (ts_nr_metadata_blocks one_sb)) with
       | Ok d => d 0 | _ => [] end)].
Theorem C44_skip_mappings_refuted : exists d, dev_ok d /\ run plain d = (d, Ok tt) /\
  run (mkco false true false false false false None None) d = (d, Err).
Proof.
  exists (with_patches flag_patches). conj; [apply patched_ok; vm_compute; reflexivity| |];
  (apply injective_projections; [reflexivity|vm_compute; reflexivity]).
Qed.
(** A leak is found, and repaired: after a block has been counted though it is in no tree, the
    check fails, --auto-repair succeeds, and then the check does, too. *)
Definition leaky_patches := Eval vm_compute in
  [(4, match bitmap_unpack (one_disk 4) with
       | Ok (bm, _) =>
           match bitmap_pack (mkbitmap 4 (firstn 7 (bm_entries bm) ++ [Small 1] ++ skipn 8 (bm_entries bm))) with
           | Ok bs => match write_checksum (firstn 4096 (bs ++ repeat 0 4096)) BITMAP with Ok b => b | _ => [] end
           | _ => []
           end
       | _ => []
       end)].
Example C44_leak : let d := with_patches leaky_patches in dev_ok d /\
  run plain d = (d, Err) /\
  snd (run (mkco false false false true false false None None) d) = Ok tt /\
  fst (run (mkco false false false true false false None None) d) 4 = one_disk 4 /\
  snd (run plain (fst (run (mkco false false false true false false None None) d))) = Ok tt.
Proof.
  cbv zeta. conj; [apply patched_ok; vm_compute; reflexivity| | | |].
  - apply injective_projections; [reflexivity|vm_compute; reflexivity].
  - vm_compute; reflexivity.
  - vm_compute; reflexivity.
  - vm_compute; reflexivity.
Qed.
