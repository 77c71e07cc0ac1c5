(** C31, C32: the theorems' hypotheses met, runs, and where cache_writeback falls short. *)
From Verif Require Import IoMany_Proofs Base Csum_Model Codec_Model Codec_Spec Codec_Proofs Props_Codec SpaceMap_Model Utils_Model Utils_Proofs Batcher_Model Builder_Model Builder_Spec Builder_Proofs BtreeBuild_Proofs Props_Btree Walker_Model Array_Model Array_Spec Array_Proofs Props_Array Copier_Model Writeback_Model Writeback_Spec Props_Writeback.

Lemma array_frame {V} (c : codec V) (d d' : disk) root vs foot blocks : (forall b, In b (blocks ++ foot) -> d' b = d b) ->
  array_at c d root vs foot blocks -> array_at c d' root vs foot blocks.
Proof.
  intros Hd (depth & vss & A & B & C & D). exists depth, vss. conj; auto.
  - eapply tree_frame; [|exact A]. intros x Hx. apply Hd, in_or_app. auto.
  - eapply Forall2_impl_in; [|exact B]. intros b v Hb (H1 & H2 & H3 & H4). unfold array_block_at. rewrite Hd by (apply in_or_app; auto). auto.
Qed.

(** What array_build and the superblock's writer leave on a device is what the theorems ask for. *)
Theorem C31_device_met : forall n max w maps0 nr_maps bits nr_words w1 w2 sb d e,
  usable n max w -> 0 < sm_counts (wb_sm w) 0 -> nr_maps < 2 ^ 32 -> nr_words <= 2 ^ 26 ->
  Forall (fun kv => cm_range (snd kv)) maps0 -> Forall (fun kv => snd kv < 2 ^ 64) bits ->
  array_build cm_codec (mkcm 0 0) nr_maps maps0 w = (w1, Ok (cs_mapping_root sb)) ->
  (exists root, cs_dirty_root sb = Some root /\ array_build u64_codec 0 nr_words bits w1 = (w2, Ok root)) ->
  cache_sb_range sb -> cs_version sb = 2 -> nr_words = div_up (cs_cache_blocks sb) 64 -> nr_maps <= 64 * nr_words ->
  cache_write_superblock (flushed w2) 0 sb = Ok d -> e_nr e = n -> (forall b, e_rd e b = true) ->
  cache_read_superblock d 0 = Ok sb /\
  exists blocks foot wblocks wfoot, mappings_on e d sb (contents (mkcm 0 0) nr_maps maps0) blocks foot /\
    format e d sb (contents (mkcm 0 0) nr_maps maps0) (contents 0 nr_words bits) wblocks wfoot.
Proof.
  intros n max w maps0 nr_maps bits nr_words w1 w2 sb d e Hu H0 Hnm Hnw Hr1 Hr2 E1 (root & Hroot & E2) Hsb Hv Hw Hmw Hd Hn Hrd.
  destruct (C05_cache_superblock (flushed w2) 0 sb Hsb) as (d0 & D1 & D2 & D3 & _). rewrite Hd in D1. injection D1 as <-. split; auto.
  pose proof (proj1 (usable_env n max w) Hu) as [Hn64 He].
  pose proof (array_build_wp n max Hn64 cm_codec cm_range (mkcm 0 0) cm_lossless ltac:(cbn; lia) ltac:(split; cbn; lia) nr_maps maps0 w ltac:(change (array_per cm_codec) with 509; lia) He Hr1) as G. unfold wp in G. rewrite E1 in G.
  destruct G as (bl0 & fo0 & G & _). pose proof (gr_env _ _ _ _ _ G) as He1. assert (Hu1 : usable n max w1) by (apply usable_env; auto). clear G.
  assert (Hcr : cm_range (mkcm 0 0)) by (split; cbn; lia).
  pose proof (C41_array_build _ cm_codec cm_range (mkcm 0 0) n max w nr_maps maps0 w1 _ cm_lossless ltac:(cbn; lia) Hcr Hu ltac:(lia) Hr1 E1) as (_ & _ & _ & blocks & foot & A1 & A2 & A3 & A4 & A5).
  pose proof (C41_array_build _ u64_codec (fun v => v < 2 ^ 64) 0 n max w1 nr_words bits w2 _ u64_lossless ltac:(cbn; lia) ltac:(reflexivity) Hu1 ltac:(lia) Hr2 E2) as (_ & _ & _ & wblocks & wfoot & B1 & B2 & B3 & B4 & B5).
  exists blocks, foot, wblocks, wfoot.
  assert (Hc1 : 0 < sm_counts (wb_sm w1) 0) by (rewrite A4; lia).
  assert (Hlen : forall V (x : V) k l, nlen (contents x k l) = k). { intros V x k l. unfold contents, nlen. rewrite map_length, range_length. lia. }
  split.
  - unfold mappings_on. conj; auto.
    + eapply array_frame; [|exact A1]. intros b Hb. destruct (A3 b Hb) as [_ A3b]. rewrite D3 by (intros ->; lia). apply B5. rewrite A4. destruct (in_dec N.eq_dec b (blocks ++ foot)); [lia|contradiction].
    + intros b Hb. rewrite Hn. destruct (A3 b Hb). auto.
    + lia.
    + rewrite Hlen. auto.
  - right. conj; auto; [|rewrite Hlen; lia|rewrite !Hlen; lia]. exists root. conj; auto.
    + eapply array_frame; [|exact B1]. intros b Hb. destruct (B3 b Hb) as [_ B3b]. apply D3. intros ->. lia.
    + intros b Hb. rewrite Hn. destruct (B3 b Hb). auto.
    + lia.
    + unfold cache_sb_range in Hsb. tauto.
Qed.

(** ** A cache of three blocks, the first and the last dirty *)
Definition ex_w1 : wb := wb_new (fun _ => repeat 0 4096) (fun _ => true) (mksm 16 255 1 1 (fun b => if b =? 0 then 1 else 0)) 8 (fun _ => repeat 0 4096).
Lemma ex_w1_usable : usable 16 255 ex_w1.
Proof.
  unfold usable, ex_w1, wb_new. cbn [wb_sm wb_queue wb_good wb_junk sm_new sm_nr sm_max sm_nalloc sm_counts sm_begin].
  assert (bytes (repeat 0 4096)). { unfold bytes. apply Forall_forall. intros x Hx. apply repeat_spec in Hx. subst. reflexivity. }
  assert (nlen (repeat 0 4096) = 4096) by (vm_compute; reflexivity).
  conj; auto; try lia; try reflexivity. intros b _. destruct (b =? 0); lia.
Qed.
Definition ex_maps : list (N * cmapping) := [(0, mkcm 7 3); (2, mkcm 9 3)].
Definition ex_csb (version : N) (dirty : option N) : cache_sb :=
  mkcsb true false 0 version [115; 109; 113] [2; 0; 0] 4 (repeat 1 128) 2 dirty 0 0 0 0 128 3 0 0 0 0 0 0 0.
Notation ex_b1 := (array_build cm_codec (mkcm 0 0) 3 ex_maps ex_w1).
Notation ex_b2 bits := (array_build u64_codec 0 1 [(0, bits)] (fst ex_b1)).
Definition ex_write (d : disk) (sb : cache_sb) : disk := match cache_write_superblock d 0 sb with Ok d => d | _ => fun _ => [] end.
Notation ex_disk1 := (ex_write (flushed (fst ex_b1)) (ex_csb 1 None)).
Notation ex_disk2 bits := (ex_write (flushed (fst (ex_b2 bits))) (ex_csb 2 (Some 4))).
Definition ex_env : menv := mkmenv 16 (fun _ => true) (fun _ => true) (fun _ => []) (fun _ => repeat 0 4096).
Definition ex_data : mem (list N) := fun dv b => if dv then [1000 + b] else [b].
(** The first pass cannot read the first block; the retry can. *)
Definition ex_copier (bad : nat -> bool) (p : nat) : copier N :=
  CRescue (fun _ => mkf (fun n => negb (bad p && Nat.eqb n 0)) (fun _ => 77) (fun _ => true) (fun _ => 88) (fun _ => 99)) 1 0.

Example C31_example_hyps : exists blocks foot wblocks wfoot,
  cache_read_superblock (ex_disk2 5) 0 = Ok (ex_csb 2 (Some 4)) /\
  mappings_on ex_env (ex_disk2 5) (ex_csb 2 (Some 4)) [mkcm 7 3; mkcm 0 0; mkcm 9 3] blocks foot /\
  format ex_env (ex_disk2 5) (ex_csb 2 (Some 4)) [mkcm 7 3; mkcm 0 0; mkcm 9 3] [5] wblocks wfoot /\
  distinct_origins [mkcm 7 3; mkcm 0 0; mkcm 9 3] /\ fresh_ok ex_env /\ (forall bad p, copier_ok ex_data (ex_copier bad p)).
Proof.
  assert (E1 : snd ex_b1 = Ok 2) by (vm_compute; reflexivity).
  assert (E2 : snd (ex_b2 5) = Ok 4) by (vm_compute; reflexivity).
  assert (Hrg : cache_sb_range (ex_csb 2 (Some 4))).
  { unfold cache_sb_range, ex_csb. cbn [cs_clean_shutdown cs_needs_check cs_block cs_version cs_policy_name cs_policy_version cs_policy_hint_size cs_metadata_sm_root cs_mapping_root cs_dirty_root cs_hint_root cs_discard_root cs_discard_block_size cs_discard_nr_blocks cs_data_block_size cs_cache_blocks cs_compat_flags cs_compat_ro_flags cs_incompat_flags cs_read_hits cs_read_misses cs_write_hits cs_write_misses].
    conj; try lia; repeat constructor; try lia; try (vm_compute; reflexivity). vm_compute; discriminate. }
  assert (R1 : Forall (fun kv => cm_range (snd kv)) ex_maps) by (repeat constructor; cbn; lia).
  assert (R2 : Forall (fun kv : N * N => snd kv < 2 ^ 64) [(0, 5)]) by (repeat constructor; cbn; lia).
  assert (G : forall w1 w2 d, array_build cm_codec (mkcm 0 0) 3 ex_maps ex_w1 = (w1, Ok 2) -> array_build u64_codec 0 1 [(0, 5)] w1 = (w2, Ok 4) ->
    cache_write_superblock (flushed w2) 0 (ex_csb 2 (Some 4)) = Ok d ->
    cache_read_superblock d 0 = Ok (ex_csb 2 (Some 4)) /\ exists blocks foot wblocks wfoot,
    mappings_on ex_env d (ex_csb 2 (Some 4)) [mkcm 7 3; mkcm 0 0; mkcm 9 3] blocks foot /\
    format ex_env d (ex_csb 2 (Some 4)) [mkcm 7 3; mkcm 0 0; mkcm 9 3] [5] wblocks wfoot).
  { intros w1 w2 d F1 F2 F3.
    exact (C31_device_met 16 255 ex_w1 ex_maps 3 [(0, 5)] 1 w1 w2 (ex_csb 2 (Some 4)) d ex_env
      ex_w1_usable ltac:(cbn; lia) ltac:(lia) ltac:(lia) R1 R2 F1 (ex_intro _ 4 (conj eq_refl F2)) Hrg eq_refl eq_refl ltac:(lia) F3 eq_refl (fun _ => eq_refl)). }
  revert E1 E2. destruct ex_b1 as [w1 r1] eqn:F1. cbn [fst snd]. destruct (array_build u64_codec 0 1 [(0, 5)] w1) as [w2 r2] eqn:F2. cbn [fst snd]. intros -> ->.
  destruct (C05_cache_superblock (flushed w2) 0 _ Hrg) as (d & Hd & _). unfold ex_write. rewrite Hd.
  destruct (G w1 w2 d eq_refl F2 Hd) as (H1 & blocks & foot & wblocks & wfoot & H2 & H3). clear G.
  exists blocks, foot, wblocks, wfoot. conj; [exact H1|exact H2|exact H3|..].
    - intros i j m n Hi Hj Hm Hn Ho. destruct i as [|[|[|i]]]; destruct j as [|[|[|j]]]; cbn [nth_error] in *; try (destruct i; discriminate); try (destruct j; discriminate);
        injection Hi as <-; injection Hj as <-; cbn in *; congruence.
    - intros k. split; [|vm_compute; reflexivity]. unfold bytes. apply Forall_forall. intros x Hx. apply repeat_spec in Hx. subst. reflexivity.
    - intros bad p b. reflexivity.
Qed.

Definition ex_out (r : mem (list N) * mdev * option (res unit)) : list (list N) * list N * option (res unit) :=
  let '(m, v, o) := r in (map (m true) [7; 8; 9],
    match unpack_array_block cm_codec (v_disk v 1), unpack_array_block u64_codec (v_disk v 3) with
    | Ok a, Ok b => map cm_flags (ab_values a) ++ ab_values b | Ok a, _ => map cm_flags (ab_values a) | _, _ => [] end, o).
Example C31_example_v1 :
  ex_out (writeback ex_env true 10 1 (ex_copier (fun p => Nat.eqb p 0)) ex_disk1 ex_data) = ([[0]; [1008]; [2]], [1; 0; 1], Some (Ok tt)).
Proof. vm_compute. reflexivity. Qed.
Example C31_example_v2 :
  ex_out (writeback ex_env true 10 1 (ex_copier (fun _ => true)) (ex_disk2 5) ex_data) = ([[1007]; [1008]; [2]], [3; 0; 3; 1], Some Err).
Proof. vm_compute. reflexivity. Qed.

(** ** Where it falls short *)
(** Version 2: a dirty bit of a block without a mapping is counted but nothing is there to
    copy, so the command reports an incomplete writeback although all dirty blocks have been
    copied and their bits cleared. *)
Theorem C31_stray_dirty_bit_refuted :
  ex_out (writeback ex_env true 10 1 (ex_copier (fun _ => false)) (ex_disk2 7) ex_data) = ([[0]; [1008]; [2]], [3; 0; 3; 2], Some Err).
Proof. vm_compute. reflexivity. Qed.
(** Version 1 with an empty mapping array: the update panics. *)
Definition ex_empty_sb : cache_sb := mkcsb true false 0 1 [115] [2; 0; 0] 4 (repeat 1 128) 1 None 0 0 0 0 128 0 0 0 0 0 0 0 0.
Theorem C32_empty_panics_refuted :
  let '(w, root) := array_build cm_codec (mkcm 0 0) 0 [] ex_w1 in
  root = Ok 1 /\ snd (writeback ex_env true 10 1 (ex_copier (fun _ => false)) (ex_write (flushed w) ex_empty_sb) ex_data) = Some Panic.
Proof. vm_compute. split; reflexivity. Qed.

Print Assumptions C31_copy.
Print Assumptions C31_writeback.
Print Assumptions C32_update_v1.
Print Assumptions C32_update_v2.
Print Assumptions C31_device_met.
