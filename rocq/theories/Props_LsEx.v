(** Property C57: an example. *)
From Coq Require Import Permutation.
From Verif Require Import Base Csum_Model Codec_Model Codec_Spec Codec_Proofs SpaceMap_Model Utils_Model Builder_Spec Walker_Model
  Repair_Model Writeback_Model ThinCheck_Model ThinCheck_Spec ThinRead_Proofs Dump_Model Dump_Spec Ls_Model Ls_Spec Props_Ls Props_ThinSumEx.

(** Three devices: 10 and 20 share the leaf 4, and have leaves of their own, 5 and 7, that map
    thin blocks to common data blocks (150 to 183); 30 is empty. *)
Definition smr (n : N) : list N := match pack_root (mksmroot n 0 0 0) 128 with Ok l => l | _ => [] end.
Definition sb3 : thin_sb := Eval vm_compute in mktsb false 0 2 0 0 0 (smr 300) (smr 16) 2 1 128 16.
Definition det (n : N) : device_detail := mkdd n 0 0 0.
Definition ls_disk : list (N * list N) := Eval vm_compute in
  [(0, match thin_write_superblock (fun _ => []) 0 sb3 with Ok d => d 0 | _ => [] end);
   (1, nblk dd_codec (Leaf (mknh 1 true 3 126 24) [10; 20; 30] [det 168; det 168; det 0]));
   (2, nblk u64_codec (Leaf (mknh 2 true 3 252 8) [10; 20; 30] [3; 6; 8]));
   (3, tnode 3 [(0, 4); (100, 5)]); (4, tleaf 4 (range 0 84)); (5, tleaf 5 (range 100 184));
   (6, tnode 6 [(0, 4); (100, 7)]); (7, tleaf 7 (range 150 234)); (8, tleaf 8 [])].
Notation eng := (on_disk ls_disk).
Definition mapped (ks : list N) : list (N * block_time) := combine ks (map (fun k => mkbt k 0) ks).
Definition ls_pool : list pool_dev :=
  [mkpd 10 3 (det 168) (mapped (range 0 84) ++ mapped (range 100 184)); mkpd 20 6 (det 168) (mapped (range 0 84) ++ mapped (range 150 234)); mkpd 30 8 (det 0) []].

Lemma full_check e r b n : match e b with Some data => check_and_unpack_node bt_codec (mkblock b data) false r = Ok n /\ metadata_block_type data = NODE | None => False end ->
  (r = false -> 84 <= nlen (get_keys n)) -> full_node e r b n.
Proof.
  intros H H84. destruct (e b) as [data|] eqn:Ed; [|destruct H]. destruct H as [H T]. apply check_raw in H as [U B]. split; [exists data; auto|auto].
Qed.
Definition leaf_at (b : N) (ks : list N) : node block_time := Leaf (mknh b true (nlen ks) 252 8) ks (map (fun k => mkbt k 0) ks).
Lemma ls_leaf4 : thin_tree eng false 0 4 (mapped (range 0 84)).
Proof.
  exists (mknh 4 true 84 252 8), (range 0 84), (map (fun k => mkbt k 0) (range 0 84)). split; [|reflexivity]. apply full_check; [vm_compute; split; reflexivity|intros _; vm_compute; congruence].
Qed.
Lemma ls_leaf5 : thin_tree eng false 0 5 (mapped (range 100 184)).
Proof.
  exists (mknh 5 true 84 252 8), (range 100 184), (map (fun k => mkbt k 0) (range 100 184)). split; [|reflexivity]. apply full_check; [vm_compute; split; reflexivity|intros _; vm_compute; congruence].
Qed.
Lemma ls_leaf7 : thin_tree eng false 0 7 (mapped (range 150 234)).
Proof.
  exists (mknh 7 true 84 252 8), (range 150 234), (map (fun k => mkbt k 0) (range 150 234)). split; [|reflexivity]. apply full_check; [vm_compute; split; reflexivity|intros _; vm_compute; congruence].
Qed.
Lemma keys_within lo hi : forallb (fun k => (lo <=? k) && (k <? hi)) (range lo hi) = true -> forall k, In k (map fst (mapped (range lo hi))) -> lo <= k /\ k < hi.
Proof. intros _ k Hk. apply in_map_iff in Hk as ([k' v] & <- & H). apply in_combine_l in H. apply in_range in H. cbn. lia. Qed.
Lemma ls_root r b c lo hi : (match eng b with Some data => check_and_unpack_node bt_codec (mkblock b data) false true = Ok (Internal (mknh b false 2 252 8) [0; 100] [4; c]) /\ metadata_block_type data = NODE | None => False end) ->
  r = true -> 100 <= lo -> thin_tree eng false 0 c (mapped (range lo hi)) -> mapped (range lo hi) <> [] -> thin_tree eng r 1 b (mapped (range 0 84) ++ mapped (range lo hi)).
Proof.
  intros H -> Hlo Hc Hne. exists (mknh b false 2 252 8), [0; 100], [4; c], [mapped (range 0 84); mapped (range lo hi)].
  split; [apply full_check; [exact H|discriminate]|]. split; [discriminate|]. split; [|cbn [concat]; rewrite app_nil_r; reflexivity].
  cbn [Builder_Spec.children_ok]. conj; auto; [exact ls_leaf4|vm_compute; congruence| |].
  - intros k Hk. apply in_map_iff in Hk as ([k' v] & <- & Hk). apply in_combine_l in Hk. apply in_range in Hk. cbn. lia.
  - intros k Hk. apply in_map_iff in Hk as ([k' v] & <- & Hk). apply in_combine_l in Hk. apply in_range in Hk. cbn. split; [lia|exact I].
Qed.
Lemma ls_device : device_of 16 eng.
Proof.
  assert (H : forallb (fun x => (fst x <? 16) && (nlen (snd x) =? 4096) && forallb (fun y => y <? 256) (snd x)) ls_disk = true) by (vm_compute; reflexivity).
  split; [reflexivity|]. intros b data E. unfold on_disk in E. destruct (find _ ls_disk) as [[b' d]|] eqn:Ef; [|discriminate].
  assert (d = data) by (cbn [snd] in E; congruence). subst d. apply find_some in Ef. destruct Ef as [Hin Eb]. cbn [fst] in Eb. apply N.eqb_eq in Eb. subst b'.
  rewrite forallb_forall in H. apply H in Hin. cbn [fst snd] in Hin. apply Bool.andb_true_iff in Hin. destruct Hin as [Hin Hby].
  apply Bool.andb_true_iff in Hin. destruct Hin as [H1 H2]. apply N.ltb_lt in H1. apply N.eqb_eq in H2. unfold nlen in H2. conj; [exact H1|lia|].
  apply Forall_forall. intros y Hy. rewrite forallb_forall in Hby. apply Hby in Hy. unfold is_byte. apply N.ltb_lt. exact Hy.
Qed.
Lemma ls_thin_pool : thin_pool eng 300 ls_pool.
Proof.
  constructor.
  - apply Forall_cons; [exists 1%nat|apply Forall_cons; [exists 1%nat|apply Forall_cons; [exists 0%nat|apply Forall_nil]]]; cbn [pd_root pd_maps].
    + apply (ls_root true 3 5 100 184); [vm_compute; split; reflexivity|reflexivity|lia|exact ls_leaf5|vm_compute; congruence].
    + apply (ls_root true 6 7 150 234); [vm_compute; split; reflexivity|reflexivity|lia|exact ls_leaf7|vm_compute; congruence].
    + exists (mknh 8 true 0 252 8), [], []. split; [apply full_check; [vm_compute; split; reflexivity|discriminate]|reflexivity].
  - assert (H : forallb (fun p => forallb (fun kv => fst kv <? 2 ^ 64 - 1) (pd_maps p)) ls_pool = true) by (vm_compute; reflexivity).
    rewrite forallb_forall in H. apply Forall_forall. intros p Hp. apply Forall_forall. intros kv Hkv. specialize (H p Hp). rewrite forallb_forall in H. apply N.ltb_lt. auto.
  - assert (H : forallb (fun p => forallb (fun kv => bt_block (snd kv) <? 300) (pd_maps p)) ls_pool = true) by (vm_compute; reflexivity).
    rewrite forallb_forall in H. apply Forall_forall. intros p Hp. apply Forall_forall. intros kv Hkv. specialize (H p Hp). rewrite forallb_forall in H. apply N.ltb_lt. auto.
Qed.
(** The hypotheses of C57_counts are met, and this is the table. *)
Example C57_hypotheses_met :
  device_of 16 eng /\ read_sb eng 0 = Ok sb3 /\ devices_listed 16 eng sb3 ls_pool /\
  (exists rest, smroot_unpack (ts_data_sm_root sb3) = Ok (mksmroot 300 0 0 0, rest)) /\ (exists mr mrest, smroot_unpack (ts_metadata_sm_root sb3) = Ok (mr, mrest)) /\
  thin_pool eng 300 ls_pool /\
  map (right_row ls_pool) ls_pool = [mkrow 10 (det 168) 168 118 183; mkrow 20 (det 168) 168 118 233; mkrow 30 (det 0) 0 0 0] /\
  thin_ls 16 eng 20 (fun l => l) (fun l => rev l) false [FDevice; FAmount AMapped UBlocks] =
    Ok (128, [mkrow 10 (det 168) 168 118 183; mkrow 20 (det 168) 168 118 233; mkrow 30 (det 0) 0 0 0]).
Proof.
  assert (R : read_sb eng 0 = Ok sb3) by (vm_compute; reflexivity).
  assert (D : devices_listed 16 eng sb3 ls_pool) by (split; [vm_compute; reflexivity|split; vm_compute; reflexivity]).
  assert (M : map (right_row ls_pool) ls_pool = [mkrow 10 (det 168) 168 118 183; mkrow 20 (det 168) 168 118 233; mkrow 30 (det 0) 0 0 0]) by (vm_compute; reflexivity).
  assert (S1 : exists rest, smroot_unpack (ts_data_sm_root sb3) = Ok (mksmroot 300 0 0 0, rest)) by (eexists; vm_compute; reflexivity).
  assert (S2 : exists mr mrest, smroot_unpack (ts_metadata_sm_root sb3) = Ok (mr, mrest)) by (eexists; eexists; vm_compute; reflexivity).
  split; [exact ls_device|]. split; [exact R|]. split; [exact D|]. split; [exact S1|]. split; [exact S2|]. split; [exact ls_thin_pool|]. split; [exact M|].
  rewrite <- M. destruct S1 as (rest & S1), S2 as (mr & mrest & S2).
  apply (C57_counts 16 eng 20 (fun l => l) (fun l => rev l) false _ sb3 sb3 ls_pool (mksmroot 300 0 0 0) rest mr mrest); auto; try exact ls_device; try exact ls_thin_pool.
  - vm_compute. congruence.
  - intros l. symmetry. apply Permutation_rev.
Qed.
Print Assumptions C57_hypotheses_met.
