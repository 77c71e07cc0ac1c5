(** C44: thin_check. *)
From Coq Require Import Permutation.
From Verif Require Import Base Csum_Model Codec_Model Codec_Spec Codec_Proofs SpaceMap_Model Utils_Model Utils_Proofs Builder_Spec Walker_Model Walker_Spec Walker_Proofs Pack_Proofs SmCheck_Model SmCheck_Spec
  SmCheck_Proofs SmCheckTop_Proofs Props_SmCheck Repair_Model ThinCheck_Model ThinCheck_Spec ThinSum_Proofs ThinRead_Proofs Props_ThinSum ThinCheck_Proofs ThinSm_Proofs ThinFix_Proofs ThinShare_Spec ThinShare_Proofs Props_Walker.

(** ** What is written *)
(** Without --auto-repair and --clear-needs-check nothing is ever written, whatever is on the
    device and whatever the outcome. *)
Theorem C44_read_only : forall nr fuel order o readable writable d,
  o_auto_repair o = false -> o_clear_needs_check o = false -> fst (thin_check nr fuel order o readable writable d) = d.
Proof. exact run_ro. Qed.
(** Repairs are refused on anything but the pool's own metadata. *)
Theorem C44_refuses : forall nr fuel order o readable writable d,
  o_auto_repair o = true \/ o_clear_needs_check o = true ->
  o_metadata_snap o = true \/ o_mapping_root o <> None \/ o_details_root o <> None ->
  thin_check nr fuel order o readable writable d = (d, Err).
Proof.
  intros nr fuel order o readable writable d H1 H2. unfold thin_check.
  replace (o_auto_repair o || o_clear_needs_check o) with true by (symmetry; apply Bool.orb_true_iff; exact H1).
  replace (o_metadata_snap o || _ || _) with true; [reflexivity|]. symmetry.
  destruct H2 as [->|[H|H]]; [reflexivity|destruct (o_mapping_root o); [apply Bool.orb_true_iff; left; apply Bool.orb_true_r|congruence]|].
  destruct (o_details_root o); [apply Bool.orb_true_r|congruence].
Qed.
(** Whatever the options and the outcome, apart from the superblock a block either stays as it
    is or it was, and stays, a bitmap, in which counts of one became zero. *)
Theorem C44_writes : forall nr fuel order o readable writable d b, dev_ok d -> b <> 0 ->
  loosened (d b) (fst (thin_check nr fuel order o readable writable d) b).
Proof. exact run_loose. Qed.
(** After a successful repair the superblock reads back as before, with the flag cleared. *)
Theorem C44_flag : forall nr fuel order o readable writable d d' sb, dev_ok d ->
  o_auto_repair o || o_clear_needs_check o = true -> (o_sb_only o = true -> o_clear_needs_check o = true) ->
  read_sb (dev nr readable d) 0 = Ok sb ->
  thin_check nr fuel order o readable writable d = (d', Ok tt) -> read_sb (dev nr readable d') 0 = Ok (unflagged sb).
Proof. exact run_flag. Qed.

(** ** What success means *)
Lemma core_max nr n : sm_max (core_sm_for nr n) = N.max 255 (limit n).
Proof.
  unfold core_sm_for, limit, sm_new. destruct (N.leb_spec n 1) as [H1|H1], (N.leb_spec n 255) as [H2|H2], (N.leb_spec n 65535) as [H3|H3]; cbn [sm_max]; try reflexivity; exfalso; lia.
Qed.
Lemma tgt_targets eng inf : tgt eng inf = targets eng inf.
Proof. reflexivity. Qed.
Lemma filter_perm (f : N -> bool) l l' : Permutation l l' -> length (filter f l) = length (filter f l').
Proof. induction 1; cbn [filter]; auto; try congruence; repeat match goal with |- context [f ?y] => destruct (f y) end; cbn [length]; congruence. Qed.

Section Devices.
Context (nr : N) (o : check_opts) (eng : N -> option (list N)) (d : disk).
Lemma map_on_core {V} (c : codec V) depth root kvs foot sm : sm_nr sm = nr ->
  tree c d true depth root kvs foot -> increasing (map fst kvs) -> core_valid sm -> fresh sm foot -> (forall b, In b foot -> eng b = Some (d b)) ->
  exists sm', btree_to_map_with_sm c nr eng (o_ignore_non_fatal o) root (WCore sm) = (WCore sm', Ok kvs) /\ with_blocks foot sm sm'.
Proof.
  intros Hn HT Hi HV HF He. destruct (tree_on_core c (o_ignore_non_fatal o) eng d depth root kvs foot sm HT Hi HV HF He) as (s' & calls & sm' & E & L & K & _ & S & W).
  exists sm'. split; [|exact W]. unfold btree_to_map_with_sm. cbn [wsm_nr]. rewrite Hn, N.eqb_refl. cbn [negb]. unfold walker_on in E. rewrite E, S, L. rewrite (collect_calls calls kvs Hi K). reflexivity.
Qed.
Lemma get_devices_ok sb devs roots n1 n2 f1 f2 sm : sm_nr sm = nr ->
  tree dd_codec d true n1 (ts_details_root sb) devs f1 -> increasing (map fst devs) ->
  tree u64_codec d true n2 (ts_mapping_root sb) roots f2 -> increasing (map fst roots) -> core_valid sm -> fresh sm (f1 ++ f2) ->
  (forall b, In b (f1 ++ f2) -> eng b = Some (d b)) ->
  exists sm', get_devices nr o eng sb (WCore sm) = (WCore sm', Ok (devs, roots)) /\ with_blocks (f1 ++ f2) sm sm'.
Proof.
  intros Hn T1 I1 T2 I2 HV HF He. assert (F1 : fresh sm f1). { destruct HF as [HN HF]. split; [apply NoDup_app_iff_local in HN; tauto|]. intros; apply HF, in_or_app; auto. }
  destruct (map_on_core dd_codec n1 _ devs f1 sm Hn T1 I1 HV F1) as (m1 & E1 & W1); [intros; apply He, in_or_app; auto|].
  destruct (fresh_after _ _ _ _ HF W1) as [_ F2]. pose proof (with_blocks_valid _ _ _ HV F1 W1) as V1.
  destruct (map_on_core u64_codec n2 (ts_mapping_root sb) roots f2 m1) as (m2 & E2 & W2); auto; [destruct W1; congruence|intros; apply He, in_or_app; auto|].
  exists m2. split; [|eapply with_blocks_trans; eauto]. unfold get_devices. rewrite E1, E2. reflexivity.
Qed.
End Devices.

Lemma zip_in : forall (roots : list (N * N)) (devs : list (N * device_detail)) id root details, map fst roots = map fst devs -> NoDup (map fst devs) ->
  In (id, root) roots -> In (id, details) devs -> In (id, (root, details)) (zip_devices roots devs).
Proof.
  unfold zip_devices. induction roots as [|[i r] roots IH]; intros [|[i' dd] devs] id root details E HN H1 H2; cbn [map fst] in E; try discriminate; [destruct H1|].
  assert (i = i') by congruence. subst i'. cbn [combine map fst snd] in *. inversion HN as [|? ? Hn HN']; subst. assert (E' : map fst roots = map fst devs) by congruence.
  destruct H1 as [H1|H1], H2 as [H2|H2].
  - left. congruence.
  - exfalso. apply Hn. assert (id = i) by congruence. subst. exact (in_map fst _ _ H2).
  - exfalso. apply Hn. assert (id = i) by congruence. subst. rewrite <- E'. exact (in_map fst _ _ H1).
  - right. apply IH; auto.
Qed.

Lemma no_leaks' counts nrb ies ess : leaks_listed counts nrb ies ess [] ->
  forall b e, b < nrb -> entry_of ess b = Some e -> ~ is_leak (counts b) e.
Proof.
  intros (is & _ & Hiff & HF) b e Hb He Hl. inversion HF; subst.
  assert (In (N.to_nat (b / 16320)) []) as [].
  { apply Hiff. exists b, e. conj; auto. rewrite N2Nat.id. reflexivity. }
Qed.

(** A check of the whole metadata of a pool succeeds only if

    - the same devices are in the details and in the mappings;
    - the mapping tree of each has at least as many mappings as its details say, and, if
      exactly as many, is sound (C43);
    - the counts in the data space map agree ([tolerated]) with the number of mappings in a
      set of distinct leaves of the trees that includes the leaves of every device with
      exactly as many mappings as its details say, cut off at the limit for the number of
      devices;
    - the counts in the metadata space map agree with a count of the blocks in which the
      blocks of the superblock, of the top-level trees and of the space maps count once,
      blocks that are in no tree count zero and, if the trees are even, blocks of the mapping
      trees count once for each device they are the root of and once for each pointer to them
      in a set of distinct internal nodes of the trees, each counted once however many devices
      share it, that includes the internal nodes of every device with exactly as many mappings
      as its details say; cut off at the limit for the number of devices, which is at least 255;
    - unless leaks are repaired or ignored, no block is leaked.

    Missing from the full statement: see the refutations in Props_ThinCheckEx; a pool with a
    metadata snapshot. *)
Theorem C44_accepts_partial : forall nr fuel order o readable writable d d' m,
  let eng := dev nr readable d in
  let inf := o_ignore_non_fatal o in
  o_sb_only o = false -> o_skip_mappings o = false -> o_metadata_snap o = false -> o_mapping_root o = None -> o_details_root o = None ->
  (forall l, Permutation (order l) l) -> nr < 4294967296 -> dev_ok d -> small_pointers eng inf ->
  pool_with nr d eng inf m -> (forall id root, In (id, root) (m_roots m) -> root < 4294967296) ->
  thin_check nr fuel order o readable writable d = (d', Ok tt) ->
  map fst (m_roots m) = map fst (m_devs m) /\
  (forall id root details keys, In (id, root) (m_roots m) -> In (id, details) (m_devs m) ->
     holds (leaf_on eng inf) (inner_on eng inf) root keys ->
     dd_mapped details <= nlen keys /\
     (dd_mapped details = nlen keys -> sound (leaf_on eng inf) (inner_on eng inf) (negb inf) root keys)) /\
  (exists leaves ess, NoDup leaves /\
     (forall b, In b leaves -> exists id root, In (id, root) (m_roots m) /\ under (inner_on eng inf) root b) /\
     (forall id root details keys b, In (id, root) (m_roots m) -> In (id, details) (m_devs m) ->
        holds (leaf_on eng inf) (inner_on eng inf) root keys -> dd_mapped details = nlen keys ->
        under (inner_on eng inf) root b -> leaf_on eng inf b <> None -> In b leaves) /\
     bitmaps_on eng (map snd (m_data_index m)) ess /\
     (forall b e, b < sr_nr_blocks (m_data m) -> entry_of ess b = Some e ->
        let count := N.min (limit (nlen (m_roots m))) (references eng inf leaves b) in
        tolerated count e /\ (o_auto_repair o || o_clear_needs_check o || inf = false -> ~ is_leak count e)) /\
     (forall b v, In (b, v) (m_data_large m) -> b < sr_nr_blocks (m_data m) /\
        v = N.min (limit (nlen (m_roots m))) (references eng inf leaves b))) /\
  (exists counts ess, bitmaps_on eng (m_meta_index m) ess /\
     (forall b, In b (m_used m) -> counts b = 1) /\
     (forall b, b < nr -> ~ In b (m_used m) -> (forall id root, In (id, root) (m_roots m) -> ~ under (inner_on eng inf) root b) -> counts b = 0) /\
     (forall h, even_trees eng (map snd (m_roots m)) h -> exists nodes, NoDup nodes /\
        (forall b, In b nodes -> inner_on eng inf b <> None /\ exists id root, In (id, root) (m_roots m) /\ under (inner_on eng inf) root b) /\
        (forall id root details keys b, In (id, root) (m_roots m) -> In (id, details) (m_devs m) ->
           holds (leaf_on eng inf) (inner_on eng inf) root keys -> dd_mapped details = nlen keys ->
           under (inner_on eng inf) root b -> inner_on eng inf b <> None -> In b nodes) /\
        (forall b, b < nr -> ~ In b (m_used m) ->
           counts b = N.min (N.max 255 (limit (nlen (m_roots m)))) (occurrences b (map snd (m_roots m)) + pointers eng inf nodes b))) /\
     (forall b e, b < nr -> entry_of ess b = Some e ->
        tolerated (counts b) e /\ (o_auto_repair o || o_clear_needs_check o || inf = false -> ~ is_leak (counts b) e)) /\
     (forall b v, In (b, v) (m_meta_large m) -> b < nr /\ counts b = v)).
Proof.
  intros nr fuel order o readable writable d d' m eng inf O1 O2 O3 O4 O5 Ho Hnr Hd Hp HP Hr32 H.
  destruct (run_checked nr fuel order o readable writable d d' O1 O2 O3 H) as
    [sb msm0 msm1 msm2 msm3 devs roots more snap dsm0 dsm ss droot mroot drest mrest msm4 msm5 dn mn dl ml k_read k_start k_nosnap k_devices k_same k_data k_bottom k_mapped k_mapped_snap k_du k_dcheck k_mu k_mcheck k_finish].
  fold eng in k_read, k_devices, k_bottom, k_dcheck, k_mcheck. fold inf in k_bottom, k_dcheck, k_mcheck.
  destruct HP as (P0 & P1 & P2 & P3 & (rest1 & P4) & (rest2 & P5) & I1 & I2 & I3 & I4 & I5 & PL & n1 & n2 & n3 & n4 & n5 & f1 & f2 & f3 & f4 & f5 & T1 & T2 & T3 & T4 & T5 & He & EU & HN & HU & HX).
  assert (sb = m_sb m).
  { unfold read_sb in k_read. rewrite P0 in k_read. unfold thin_read_superblock in k_read, P1. rewrite P1 in k_read. congruence. }
  subst sb. destruct (k_nosnap P2) as [-> ->]. clear k_nosnap. rewrite app_nil_r in *.
  assert (EW : with_roots o (m_sb m) = m_sb m) by (unfold with_roots; rewrite O4, O5; destruct (m_sb m); reflexivity). rewrite EW in *. clear EW.
  rewrite P4 in k_du. rewrite P5 in k_mu. assert (droot = m_data m) by congruence. assert (mroot = m_meta m) by congruence. subst droot mroot. clear k_du k_mu.
  assert (Hdev : device_of nr eng).
  { split; [exact Hnr|]. intros b data E. unfold eng, dev in E. destruct (N.ltb_spec b nr); cbn [andb] in E; [|discriminate]. destruct (readable b); [|discriminate].
    assert (data = d b) by congruence. subst. destruct (Hd b) as [X1 X2]. conj; auto. unfold nlen in X2. lia. }
  assert (Hbk : blocks_ok eng) by (apply eng_ok, Hd).
  (* the superblock is counted *)
  destruct k_start as (n0 & Hn0 & k_start). unfold inc_superblock in k_start. rewrite P2 in k_start. change (0 <? 0) with false in k_start. cbv iota in k_start.
  set (sm0 := core_sm_for nr n0) in *.
  assert (Hmax0 : 1 <= sm_max sm0) by (unfold sm0, core_sm_for; clear; destruct (n0 <=? 255); [|destruct (n0 <=? 65535)]; cbn; lia).
  assert (V0 : core_valid sm0) by (unfold core_valid; conj; auto; [unfold sm0, core_sm_for, sm_new; cbn [sm_nr]; unfold W64; lia|intros; unfold sm0, core_sm_for, sm_new; cbn [sm_counts]; lia]).
  assert (F0 : fresh sm0 (m_used m)) by (split; [exact HN|]; intros b Hb; split; [apply HU, Hb|reflexivity]).
  assert (exists sm1, msm0 = WCore sm1 /\ with_blocks [0] sm0 sm1) as (sm1 & -> & W1).
  { pose proof (HU 0 ltac:(rewrite EU; left; auto)) as L0.
    assert (Hc0 : wcapped (WCore sm0)) by (intros b; cbn [wcount wmax]; unfold sm0, core_sm_for, sm_new; cbn [sm_counts sm_max]; lia).
    destruct (inc_one (WCore sm0) 0 ltac:(unfold W64; lia) Hc0) as (A1 & A2 & A3 & A4).
    cbn [wsm_inc] in *. destruct (sm_inc sm0 0 1) as [s1 r1]. destruct r1 as [u| |]; try discriminate. cbn [fst wsm_nr wmax wcount] in *.
    exists s1. split; [congruence|]. unfold with_blocks. conj; auto. intros b Hb. rewrite A4. replace (0 <? sm_nr sm0) with true by (symmetry; apply N.ltb_lt; exact L0).
    rewrite Bool.andb_true_r. unfold counted. cbn [count_occ]. destruct (N.eq_dec 0 b) as [E|E], (N.eqb_spec b 0) as [E'|E']; try congruence; unfold sm0, core_sm_for, sm_new in *; cbn [sm_counts] in *; lia. }
  assert (EU' : m_used m = [0] ++ ((f1 ++ f2) ++ (f3 ++ map ie_blocknr (map snd (m_data_index m)) ++ f4) ++ (f5 ++ [sr_bitmap_root (m_meta m)] ++ map ie_blocknr (m_meta_index m)))) by
    (rewrite EU; cbn [app]; rewrite <- !app_assoc; reflexivity).
  set (fd := f3 ++ map ie_blocknr (map snd (m_data_index m)) ++ f4) in *. set (fm := f5 ++ [sr_bitmap_root (m_meta m)] ++ map ie_blocknr (m_meta_index m)) in *.
  rewrite EU' in F0. destruct (fresh_after _ _ _ _ F0 W1) as [F01 F1]. pose proof (with_blocks_valid _ _ _ V0 F01 W1) as V1.
  assert (N1 : sm_nr sm1 = nr) by (destruct W1 as [X _]; rewrite X; reflexivity).
  (* the top level *)
  assert (F1a : fresh sm1 (f1 ++ f2)). { destruct F1 as [X Y]. split; [apply NoDup_app_iff_local in X; tauto|]. intros; apply Y, in_or_app; auto. }
  destruct (get_devices_ok nr o eng d (m_sb m) (m_devs m) (m_roots m) n1 n2 f1 f2 sm1 N1 T1 I1 T2 I2 V1 F1a) as (sm2 & E2 & W2).
  { intros b Hb. apply He. rewrite !in_app_iff in *. tauto. }
  rewrite E2 in k_devices. assert (msm1 = WCore sm2 /\ devs = m_devs m /\ roots = m_roots m) as (-> & -> & ->) by (conj; congruence). clear k_devices.
  destruct (fresh_after _ _ _ _ F1 W2) as [_ F2]. pose proof (with_blocks_valid _ _ _ V1 F1a W2) as V2.
  assert (N2 : sm_nr sm2 = nr) by (destruct W2 as [X _]; congruence).
  (* the mappings *)
  assert (Hmx : id (sm_max sm2 = N.max 255 (limit (nlen (m_roots m))))).
  { unfold id. rewrite (proj1 (proj2 W2)), (proj1 (proj2 W1)). unfold sm0.
    rewrite (Hn0 P2 (m_roots m) (C54_btree_to_map u64_codec inf eng d n2 (ts_mapping_root (m_sb m)) (m_roots m) f2 nr T2
      ltac:(destruct F1a as [X _]; apply NoDup_app_iff_local in X; tauto) I2 ltac:(change (2 ^ 64) with 18446744073709551616; lia)
      ltac:(intros b Hb; split; [apply HU; rewrite EU'; rewrite !in_app_iff; tauto|apply He; rewrite !in_app_iff; tauto]))).
    rewrite N.mod_small by exact P3. apply core_max. }
  assert (Cm2 : cmap nr (WCore sm2)) by (unfold cmap; cbn [wmax wsm_nr wrestr]; conj; [intros b Lb; apply V2; exact Lb|unfold id in Hmx; rewrite Hmx; clear; lia|exact N2|reflexivity]).
  set (P := fun b => exists id root, In (id, root) (m_roots m) /\ under (inner_on eng inf) root b).
  assert (Proot : forall r, In r (map snd (m_roots m)) -> P (r mod W32)).
  { intros r Hr. apply in_map_iff in Hr. destruct Hr as ([id root] & <- & Hin). cbn [snd]. rewrite N.mod_small by exact (Hr32 id root Hin). exists id, root. split; [auto|constructor]. }
  assert (Pdown : forall b ks cs c, P b -> inner_on eng inf b = Some (ks, cs) -> In c cs -> P c).
  { intros b ks cs c (id & r & Hr & Hu) E Hc. exists id, r. split; [auto|]. clear - Hu E Hc. induction Hu as [b|b ks' cs' c' b' E' Hc' Hu IH]; [|econstructor; eauto].
    eapply under_child; eauto. constructor. }
  assert (Hr' : forall r, In r (map snd (m_roots m)) -> r < W32) by (intros r Hr; apply in_map_iff in Hr; destruct Hr as ([id root] & <- & Hin); exact (Hr32 id root Hin)).
  assert (C2 : wcapped (WCore sm2)) by (intros b Lb; apply V2; exact Lb).
  pose proof (kept_bottom nr eng inf Hdev Hp P Pdown fuel order _ _ _ _ _ ss Proot C2 k_bottom) as ((K1 & K2 & K3) & K4 & K5).
  destruct msm3 as [sm3|]; [|discriminate]. cbn [as_core wsm_nr wmax wcount] in *.
  assert (V3 : core_valid sm3). { unfold core_valid. conj; [destruct V2; congruence|rewrite K2; apply V2|]. intros b Lb. apply K4. exact Lb. }
  assert (Hout : forall b, In b (m_used m) -> ~ P b) by (intros b Hb (id & root & Hin & Hu); exact (HX b id root Hb Hin Hu)).
  assert (F3 : fresh sm3 (fd ++ fm)).
  { destruct F2 as [X Y]. split; [exact X|]. intros b Hb. destruct (Y b Hb) as [Y1 Y2]. split; [congruence|]. rewrite K5; [exact Y2|]. apply Hout. rewrite EU'. rewrite !in_app_iff in *. tauto. }
  assert (N3 : sm_nr sm3 = nr) by congruence.
  destruct (accepted nr eng inf fuel order _ _ _ _ _ ss Hdev Hp Ho k_bottom) as (L & LN & LU & LD & LA).
  (* the space maps *)
  assert (F3a : fresh sm3 fd). { destruct F3 as [X Y]. split; [apply NoDup_app_iff_local in X; tauto|]. intros; apply Y, in_or_app; auto. }
  rewrite <- N3 in k_dcheck.
  destruct (check_disk_ok eng inf d (m_data m) (as_core dsm) sm3 n4 n3 (m_data_index m) (m_data_large m) f4 f3 Hbk V3 T3 I3 T4 I4) with (3 := k_dcheck) as (W4 & M4 & Q4).
  { intros b Hb. apply He. rewrite !in_app_iff in *. tauto. }
  { exact F3a. }
  fold fd in W4. destruct (fresh_after _ _ _ _ F3 W4) as [_ F4]. pose proof (with_blocks_valid _ _ _ V3 F3a W4) as V4.
  assert (N4 : sm_nr msm4 = nr) by (destruct W4 as [X _]; congruence).
  rewrite <- N4 in k_mcheck.
  destruct (C18_check_metadata_space_map eng inf d (m_meta m) msm4 n5 (m_meta_large m) f5 (m_meta_index m) Hbk V4 T5 I5) as (msm6 & out & E6 & W5 & Q5).
  { intros b Hb. apply He. rewrite !in_app_iff in *. tauto. }
  { exact PL. }
  { exact F4. }
  rewrite E6 in k_mcheck. assert (msm6 = msm5 /\ out = Ok (mn, ml)) as [-> E7] by (split; congruence). apply Q5 in E7. destruct E7 as (M5 & ess5 & B5 & TL5 & _ & LK5).
  apply (C18_check_low_ref_counts (as_core dsm) eng _ dn dl Hbk) in Q4. destruct Q4 as (ess4 & B4 & TL4 & _ & LK4).
  assert (Hleak : o_auto_repair o || o_clear_needs_check o || inf = false -> dl = [] /\ ml = []).
  { intros E. apply Bool.orb_false_iff in E. destruct E as [E Einf]. unfold finish_check, fix_leaks in k_finish. rewrite E in k_finish. fold inf in k_finish. rewrite Einf in k_finish.
    destruct dl; [|discriminate]. destruct ml; [auto|discriminate]. }
  (* the data map *)
  assert (HD : sm_nr (as_core dsm) = sr_nr_blocks (m_data m) /\
    forall b, b < sr_nr_blocks (m_data m) -> sm_counts (as_core dsm) b = N.min (limit (nlen (m_roots m))) (references eng inf L b)).
  { unfold create_data_sm in k_data. rewrite P4 in k_data. cbn [bind] in k_data. apply Ok_inj in k_data.
    rewrite N.mod_small in k_data by (unfold nlen; rewrite map_length; exact P3).
    assert (Hz : wsm_nr dsm0 = sr_nr_blocks (m_data m) /\ wmax dsm0 = limit (nlen (m_roots m)) /\ forall b, wcount dsm0 b = 0).
    { subst dsm0. replace (nlen (map snd (m_roots m))) with (nlen (m_roots m)) by (unfold nlen; rewrite map_length; reflexivity). unfold limit.
      destruct (nlen (m_roots m) <=? 1); [conj; auto|]. unfold core_sm_for, sm_new. cbn [wsm_nr wmax wcount sm_nr sm_max sm_counts]. conj; auto. }
    destruct Hz as (Z1 & Z2 & Z3).
    assert (Hcz : wcapped dsm0) by (intros b _; rewrite Z3; apply N.le_0_l).
    destruct (inc_all (flat_map (tgt eng inf) (order L)) dsm0) as (A1 & A2 & A3 & A4).
    { intros v Hv. apply in_flat_map in Hv. destruct Hv as (x & _ & Hx). exact (tgt_small nr eng inf x v Hdev Hx). }
    { exact Hcz. }
    rewrite <- LD in A1, A2, A4.
    assert (AC : sm_nr (as_core dsm) = wsm_nr dsm /\ forall b, sm_counts (as_core dsm) b = wcount dsm b) by (destruct dsm; split; reflexivity).
    destruct AC as [AC1 AC2]. split; [congruence|]. intros b Hb. rewrite AC2, A4 by congruence. rewrite Z2, Z3. f_equal. unfold references, nlen.
    rewrite (filter_perm _ _ (flat_map (tgt eng inf) L)); [rewrite tgt_targets; clear; lia|]. apply Permutation_flat_map. apply Ho. }
  destruct HD as [HD1 HD2].
  assert (HA : forall id root details keys, In (id, root) (m_roots m) -> In (id, details) (m_devs m) -> holds (leaf_on eng inf) (inner_on eng inf) root keys ->
    dd_mapped details <= nlen keys /\ (dd_mapped details = nlen keys -> sound (leaf_on eng inf) (inner_on eng inf) (negb inf) root keys /\
      forall b, under (inner_on eng inf) root b -> leaf_on eng inf b <> None -> In b L)).
  { intros id root details keys H1 H2 Hk. specialize (LA id root details keys). rewrite N.mod_small in LA by exact (Hr32 id root H1). apply LA; [|exact Hk].
    rewrite forallb_forall in k_mapped. apply k_mapped. apply zip_in; auto. apply increasing_NoDup. exact I1. }
  conj.
  - exact k_same.
  - intros id root details keys H1 H2 Hk. destruct (HA id root details keys H1 H2 Hk) as [X Y]. split; [exact X|]. intros E. apply (Y E).
  - exists L, ess4. conj; auto.
    + intros b Hb. destruct (LU b Hb) as (_ & r & Hr & Hu). apply in_map_iff in Hr. destruct Hr as ([id root] & <- & Hin). cbn [snd] in Hu.
      rewrite N.mod_small in Hu by exact (Hr32 id root Hin). exists id, root. auto.
    + intros id root details keys b H1 H2 Hk E Hu Hl. destruct (HA id root details keys H1 H2 Hk) as [_ Y]. apply (Y E); auto.
    + intros b e Hb Hee. cbv zeta. rewrite <- HD2 by exact Hb. rewrite <- HD1 in Hb. split; [apply TL4; auto|]. intros E. destruct (Hleak E) as [-> _].
      exact (no_leaks' _ _ _ _ LK4 b e Hb Hee).
    + intros b v Hin. destruct (M4 b v Hin) as [X Y]. rewrite HD1 in X. split; [exact X|]. rewrite <- HD2 by exact X. auto.
  - assert (N5 : sm_nr msm5 = nr) by (destruct W5 as [X _]; congruence).
    assert (HC : forall b, b < nr -> ~ P b -> sm_counts msm5 b = counted (m_used m) b).
    { intros b Hb HPb. destruct W5 as (_ & _ & X5). rewrite X5 by congruence. destruct W4 as (_ & _ & X4). rewrite X4 by congruence. rewrite K5 by exact HPb.
      destruct W2 as (_ & _ & X2). rewrite X2 by congruence. destruct W1 as (Y1 & _ & X1). rewrite X1 by (rewrite <- Y1; congruence).
      rewrite EU'. unfold counted. rewrite !count_occ_app. unfold fd, fm. rewrite !count_occ_app. unfold sm0, core_sm_for, sm_new. cbn [sm_counts]. clear. lia. }
    exists (sm_counts msm5), ess5. conj; auto.
    + intros b Hb. rewrite HC; [|apply HU, Hb|apply Hout, Hb]. rewrite counted_in_dec by exact HN. destruct (in_dec N.eq_dec b (m_used m)); [reflexivity|contradiction].
    + intros b Hb Hn Hun. rewrite HC; [|exact Hb|intros (id & root & Hin & Hu); exact (Hun id root Hin Hu)]. rewrite counted_in_dec by exact HN.
      destruct (in_dec N.eq_dec b (m_used m)); [contradiction|reflexivity].
    + intros h Hev. destruct (accepted_counts nr eng inf fuel order _ h _ _ _ _ ss Hdev Hp Ho Hr' Hev Cm2 k_bottom) as (R & R1 & R2 & R3 & R4).
      exists R. conj; auto.
      * intros b Hb. destruct (R2 b Hb) as [X (r & Hr & Hu)]. split; [exact X|]. apply in_map_iff in Hr. destruct Hr as ([id root] & <- & Hin). exists id, root. auto.
      * intros id root details keys b H1 H2 Hk E Hu Hl. apply (R4 id root details keys) with (3 := Hk) (4 := E); auto; [|exact (Hr32 id root H1)].
        rewrite forallb_forall in k_mapped. apply k_mapped. apply zip_in; auto. apply increasing_NoDup. exact I1.
      * intros b Hb Hn. specialize (R3 b Hb). cbn [wcount wmax] in R3. unfold id in Hmx. rewrite <- Hmx. clear Hmx.
        assert (Z : sm_counts sm2 b = 0 /\ sm_counts msm5 b = sm_counts sm3 b).
        { destruct W5 as (_ & _ & X5). rewrite X5 by congruence. destruct W4 as (_ & _ & X4). rewrite X4 by congruence.
          destruct W2 as (_ & _ & X2). rewrite X2 by congruence. destruct W1 as (Y1 & _ & X1). rewrite X1 by (rewrite <- Y1; congruence).
          assert (Z0 : forall l, (forall x, In x l -> In x (m_used m)) -> counted l b = 0).
          { intros l Hl. unfold counted. rewrite (proj1 (count_occ_not_In N.eq_dec l b)); [reflexivity|]. intros X. exact (Hn (Hl b X)). }
          rewrite !Z0; [unfold sm0, core_sm_for, sm_new; cbn [sm_counts]; split; clear; lia|..]; intros x Hx; rewrite EU'; unfold fd, fm in *; rewrite !in_app_iff in *; tauto. }
        destruct Z as [Z1 Z2]. rewrite Z2, R3, Z1. reflexivity.
    + intros b e Hb Hee. rewrite <- N5 in Hb. split; [apply TL5; auto|]. intros E. destruct (Hleak E) as [_ ->]. exact (no_leaks' _ _ _ _ LK5 b e Hb Hee).
    + intros b v Hin. destruct (M5 b v Hin) as [X Y]. rewrite N5 in X. auto.
Qed.

(** ** Threads *)
(** The order in which the threads deliver the leaves does not matter: the same metadata
    counts, the same data counts, the same summaries, the same verdict. *)
Theorem C44_order : forall nr eng inf fuel order order' roots msm dsm, device_of nr eng -> small_pointers eng inf ->
  (forall l, Permutation (order l) l) -> (forall l, Permutation (order' l) l) -> (forall b, b < wsm_nr dsm -> wcount dsm b <= wmax dsm) ->
  let '(m1, d1, r1) := check_mappings_bottom_level nr eng inf fuel order roots msm dsm in
  let '(m2, d2, r2) := check_mappings_bottom_level nr eng inf fuel order' roots msm dsm in
  m1 = m2 /\ wsm_nr d1 = wsm_nr d2 /\ (forall b, b < wsm_nr dsm -> wcount d1 b = wcount d2 b) /\
  match r1, r2 with
  | Ok s1, Ok s2 => (forall b, s1 b = s2 b) /\ forall devs, check_mapped_blocks devs s1 = check_mapped_blocks devs s2
  | Err, Err | Panic, Panic => True
  | _, _ => False
  end.
Proof.
  intros nr eng inf fuel order order' roots msm dsm Hd Hp Ho Ho' Hc. unfold check_mappings_bottom_level.
  pose proof (NI_collect nr eng inf Hd Hp (fun _ => True) (fun _ _ _ _ _ _ _ => I) roots msm (fun _ _ => I)) as H1.
  destruct (collect_nodes_in_use _ _ _ _ _) as [[m1 nodes]| |]; [|conj; auto|conj; auto]. cbn [snd] in H1.
  assert (R : forall ord, (forall l, Permutation (ord l) l) -> exists m' dsm' ss', read_leaves eng inf (ord (leaves_of nodes)) (nodes, dsm, fun _ => None) = Ok (m', dsm', ss') /\
    same_inner nodes m' /\ (forall b, ss' b = match leaf_in eng inf (leaves_of nodes) b with Some ks => Some (sum_leaf ks) | None => None end) /\
    wsm_nr dsm' = wsm_nr dsm /\ forall b, b < wsm_nr dsm -> wcount dsm' b = N.min (wmax dsm) (wcount dsm b + nlen (filter (N.eqb b) (flat_map (tgt eng inf) (leaves_of nodes))))).
  { intros ord Hord.
    destruct (leaves_run nr eng inf Hd Hp (fun _ => True) (fun _ _ _ _ _ _ _ => I) (ord (leaves_of nodes)) nodes dsm (fun _ => None)) as (m' & dsm' & ss' & E & _ & Si & Ss & Dd).
    { intros b Hb. apply (Permutation_in b (Hord _)) in Hb. destruct (NI_leaves nr eng inf Hd Hp (fun _ => True) (fun _ _ _ _ _ _ _ => I) nodes b H1 Hb) as (A & _ & B). auto. }
    { exact H1. }
    exists m', dsm', ss'. conj; auto.
    - intros b. rewrite Ss. unfold leaf_in. replace (has (ord (leaves_of nodes)) b) with (has (leaves_of nodes) b); [reflexivity|].
      apply Bool.eq_true_iff_eq. rewrite !has_in. split; apply Permutation_in; [symmetry|]; apply Hord.
    - subst dsm'. apply inc_all; auto. intros v Hv. apply in_flat_map in Hv. destruct Hv as (x & _ & Hx). exact (tgt_small nr eng inf x v Hd Hx).
    - intros b Hb. subst dsm'. destruct (inc_all (flat_map (tgt eng inf) (ord (leaves_of nodes))) dsm) as (_ & _ & _ & A4).
      { intros v Hv. apply in_flat_map in Hv. destruct Hv as (x & _ & Hx). exact (tgt_small nr eng inf x v Hd Hx). }
      { exact Hc. }
      rewrite A4 by exact Hb. f_equal. f_equal. unfold nlen. f_equal. apply filter_perm, Permutation_flat_map, Hord. }
  destruct (R order Ho) as (n1 & d1 & s1 & E1 & I1 & S1 & N1 & C1). destruct (R order' Ho') as (n2 & d2 & s2 & E2 & I2 & S2 & N2 & C2).
  replace (read_leaves eng inf (order (leaves_of nodes)) (nodes, dsm, fun _ => None)) with (Ok (n1, d1, s1) : res lst) by (symmetry; exact E1).
  replace (read_leaves eng inf (order' (leaves_of nodes)) (nodes, dsm, fun _ => None)) with (Ok (n2, d2, s2) : res lst) by (symmetry; exact E2).
  conj; [reflexivity|congruence|intros b Hb; rewrite C1, C2 by exact Hb; reflexivity|].
  pose proof (count_ext n1 n2 inf fuel ltac:(intros b; rewrite I1, I2; reflexivity) roots s1 s2 ltac:(intros b; rewrite S1, S2; reflexivity)) as X.
  destruct (count_mapped_blocks n1 _ _ _ _) as [t1|], (count_mapped_blocks n2 _ _ _ _) as [t2|]; try contradiction; auto. split; [exact X|].
  intros devs. unfold check_mapped_blocks. replace (forallb (mapped_ok t2) devs) with (forallb (mapped_ok t1) devs); [reflexivity|].
  induction devs as [|[id [root det]] devs IH]; cbn [forallb]; [reflexivity|]. rewrite IH. unfold mapped_ok. rewrite X. reflexivity.
Qed.
