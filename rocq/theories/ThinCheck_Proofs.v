(** thin_check: what it writes, what it has checked when it succeeds. *)
From Coq Require Import Permutation.
From Verif Require Import Base Csum_Model Codec_Model Codec_Spec Codec_Proofs SbCodec_Proofs Props_Codec SpaceMap_Model Utils_Model Utils_Spec Utils_Proofs Walker_Model Pack_Proofs
  SmCheck_Model SmCheck_Spec SmCheck_Proofs Props_SmCheck Repair_Model ThinCheck_Model ThinCheck_Spec ThinSum_Proofs ThinRead_Proofs.

Lemma F2_in_l {A B} (P : A -> B -> Prop) l m x : Forall2 P l m -> In x l -> exists y, In y m /\ P x y.
Proof. induction 1; intros []; subst; [eexists; split; [left; reflexivity|auto]|]. destruct IHForall2 as (z & H2 & H3); auto. exists z. split; [right|]; auto. Qed.
Lemma F2_in_r {A B} (P : A -> B -> Prop) l m y : Forall2 P l m -> In y m -> exists x, In x l /\ P x y.
Proof. induction 1; intros []; subst; [eexists; split; [left; reflexivity|auto]|]. destruct IHForall2 as (z & H2 & H3); auto. exists z. split; [right|]; auto. Qed.

Section Check.
Context (nr : N) (fuel : nat) (order : list N -> list N) (o : check_opts) (readable writable : N -> bool).
Notation run := (thin_check nr fuel order o readable writable).
Notation eng := (dev nr readable).

(** ** What is written *)
Lemma clear_ro d : can_write o writable 0 = false -> fst (clear_flag nr o readable writable d) = d.
Proof.
  intros H. unfold clear_flag. destruct (read_sb _ _) as [sb| |]; auto. destruct (ts_needs_check sb); auto.
  destruct (thin_write_superblock _ _ _); auto. rewrite H. auto.
Qed.
Lemma fails_disk {A B} (d : disk) (r : res A) : fst (@fails A B d r) = d.
Proof. reflexivity. Qed.
Ltac walk_check :=
  repeat match goal with
  | |- context [fst (fails _ _)] => rewrite fails_disk
  | |- fst (match ?x with _ => _ end) = _ => destruct x
  | |- fst (let '(_, _) := ?x in _) = _ => destruct x
  | |- ?x = ?x => reflexivity
  | |- fst (_, _) = _ => reflexivity
  end.
Lemma fix_ro sm lks d : o_auto_repair o = false -> o_clear_needs_check o = false -> fst (fix_leaks nr o readable writable sm lks d) = d.
Proof. intros H1 H2. unfold fix_leaks. rewrite H1, H2. destruct lks; auto. Qed.
Lemma finish_ro dsm msm dl ml d : o_auto_repair o = false -> o_clear_needs_check o = false -> fst (finish_check nr o readable writable dsm msm dl ml d) = d.
Proof.
  intros H1 H2. unfold finish_check. pose proof (fix_ro dsm dl d H1 H2) as F1. destruct (fix_leaks _ _ _ _ dsm dl d) as [d1 r1]. cbn [fst] in F1. subst d1.
  destruct r1; auto. pose proof (fix_ro msm ml d H1 H2) as F2. destruct (fix_leaks _ _ _ _ msm ml d) as [d2 r2]. cbn [fst] in F2. subst d2.
  destruct r2; auto. rewrite H1, H2. reflexivity.
Qed.
Lemma run_ro d : o_auto_repair o = false -> o_clear_needs_check o = false -> fst (run d) = d.
Proof.
  intros H1 H2. assert (G : can_write o writable 0 = false) by (unfold can_write; rewrite H1, H2; reflexivity).
  assert (C : fst (done (clear_flag nr o readable writable d)) = d) by (cbn [done fst]; apply clear_ro, G).
  assert (S : forall sb dsm msm, fst (check_space_maps nr o readable writable sb dsm msm d) = d).
  { intros. unfold check_space_maps. walk_check; apply finish_ro; auto. }
  assert (M : forall sb t ts rs msm, fst (check_mappings nr fuel order o readable writable sb t ts rs msm d) = d).
  { intros. unfold check_mappings. walk_check; apply S. }
  unfold thin_check. rewrite H1, H2. cbn [orb andb]. walk_check; auto.
Qed.

(** ** Success, step by step *)
Definition with_roots (sb : thin_sb) : thin_sb :=
  mktsb (ts_needs_check sb) (ts_block sb) (ts_version sb) (ts_time sb) (ts_transaction_id sb) (ts_metadata_snap sb)
    (ts_data_sm_root sb) (ts_metadata_sm_root sb)
    (match o_mapping_root o with Some r => r | None => ts_mapping_root sb end)
    (match o_details_root o with Some r => r | None => ts_details_root sb end)
    (ts_data_block_size sb) (ts_nr_metadata_blocks sb).

Inductive checked (d d' : disk) : Prop := mkchecked
  (sb : thin_sb) (msm0 msm1 msm2 msm3 : wsm) (devs : list (N * device_detail)) (roots : list (N * N))
  (more : list N) (snap : list (N * (N * device_detail))) (dsm0 dsm : wsm) (ss : sums)
  (droot mroot : sm_root) (drest mrest : list N) (msm4 msm5 : core_sm) (dn mn : N) (dl ml : list leak)
  (k_read : read_sb (eng d) 0 = Ok sb)
  (k_start : exists n, (ts_metadata_snap sb = 0 -> forall l, btree_to_map u64_codec nr (eng d) (o_ignore_non_fatal o) (ts_mapping_root (with_roots sb)) = Ok l -> n = nlen l mod W32) /\
     inc_superblock (WCore (core_sm_for nr n)) (ts_metadata_snap sb) = (msm0, Ok tt))
  (k_nosnap : ts_metadata_snap sb = 0 -> more = [] /\ msm2 = msm1)
  (k_devices : get_devices nr o (eng d) (with_roots sb) msm0 = (msm1, Ok (devs, roots)))
  (k_same : map fst roots = map fst devs)
  (k_data : create_data_sm (with_roots sb) (nlen (map snd roots ++ more) mod W32) = Ok dsm0)
  (k_bottom : check_mappings_bottom_level nr (eng d) (o_ignore_non_fatal o) fuel order (map snd roots ++ more) msm2 dsm0 = (msm3, dsm, Ok ss))
  (k_mapped : forallb (mapped_ok ss) (zip_devices roots devs) = true)
  (k_mapped_snap : forallb (mapped_ok ss) snap = true)
  (k_du : smroot_unpack (ts_data_sm_root sb) = Ok (droot, drest))
  (k_dcheck : check_disk_space_map nr (eng d) (o_ignore_non_fatal o) droot (as_core dsm) (as_core msm3) = (msm4, Ok (dn, dl)))
  (k_mu : smroot_unpack (ts_metadata_sm_root sb) = Ok (mroot, mrest))
  (k_mcheck : check_metadata_space_map nr (eng d) (o_ignore_non_fatal o) mroot msm4 = (msm5, Ok (mn, ml)))
  (k_finish : finish_check nr o readable writable (as_core dsm) msm5 dl ml d = (d', Ok tt)).

Lemma list_eqb_eq a : forall b, list_eqb a b = true -> a = b.
Proof.
  induction a as [|x a IH]; intros [|y b] H; cbn [list_eqb] in H; try discriminate; auto. apply Bool.andb_true_iff in H. destruct H as [H1 H2].
  apply N.eqb_eq in H1. f_equal; auto.
Qed.
Lemma fails_not_ok {A} (d d' : disk) (r : res A) : @fails A unit d r = (d', Ok tt) -> False.
Proof. unfold fails. destruct r; intros H; discriminate. Qed.
Lemma run_checked d d' : o_sb_only o = false -> o_skip_mappings o = false -> o_metadata_snap o = false ->
  run d = (d', Ok tt) -> checked d d'.
Proof.
  intros O1 O2 O3 H. unfold thin_check in H. rewrite O1, O2, O3 in H. cbn [andb orb] in H.
  destruct ((_ || _) && _); [discriminate|]. destruct (read_sb (eng d) 0) as [sb| |] eqn:Er; try (exfalso; exact (fails_not_ok _ _ _ H)).
  cbv zeta in H. change (mktsb (ts_needs_check sb) _ _ _ _ _ _ _ _ _ _ _) with (with_roots sb) in H.
  set (snap := if 0 <? ts_metadata_snap (with_roots sb) then _ else _) in H.
  destruct (create_metadata_sm _ _ _ _ _) as [m0| |] eqn:Ecm; cbn [bind] in H; try (exfalso; exact (fails_not_ok _ _ _ H)).
  assert (exists n, m0 = core_sm_for nr n /\ (ts_metadata_snap sb = 0 -> forall l, btree_to_map u64_codec nr (eng d) (o_ignore_non_fatal o) (ts_mapping_root (with_roots sb)) = Ok l -> n = nlen l mod W32)) as (n0 & -> & Hn0).
  { unfold create_metadata_sm in Ecm. destruct (btree_to_map_with_sm _ _ _ _ _ _) as [sm r] eqn:Eb. do 2 inv_bind Ecm. apply Ok_inj in Ecm. eexists. split; [symmetry; exact Ecm|].
    intros Z l El. unfold snap in E0. cbn [with_roots ts_metadata_snap] in E0. rewrite Z in E0. change (0 <? 0) with false in E0. cbv iota in E0. apply Ok_inj in E0. subst a0. f_equal. f_equal.
    unfold btree_to_map_with_sm in Eb. cbn [wsm_nr rsm_new r_nr] in Eb. rewrite N.eqb_refl in Eb. cbn [negb] in Eb. unfold btree_to_map, walker_new in El.
    destruct (walk _ _ _ _ _ _ _) as [w [e|]]; [discriminate|]. congruence. }
  destruct (inc_superblock _ _) as [m1 [u| |]] eqn:Ei; try (exfalso; exact (fails_not_ok _ _ _ H)).
  assert (Hst : exists n, (ts_metadata_snap sb = 0 -> forall l, btree_to_map u64_codec nr (eng d) (o_ignore_non_fatal o) (ts_mapping_root (with_roots sb)) = Ok l -> n = nlen l mod W32) /\ inc_superblock (WCore (core_sm_for nr n)) (ts_metadata_snap sb) = (m1, Ok tt)) by (exists n0; split; [exact Hn0|]; destruct u; exact Ei).
  unfold get_thins in H. destruct (get_devices nr o (eng d) (with_roots sb) m1) as [m2 [[devs roots]| |]] eqn:Eg; try (exfalso; exact (fails_not_ok _ _ _ H)).
  destruct (list_eqb (map fst roots) (map fst devs)) eqn:El; try (exfalso; exact (fails_not_ok _ _ _ H)). apply list_eqb_eq in El.
  set (q := match snap with Some (Ok sbs) => _ | Some _ => _ | None => _ end) in H.
  assert (Hq : ts_metadata_snap sb = 0 -> q = (m2, Ok ([], []))).
  { intros E0. unfold q, snap. cbn [with_roots ts_metadata_snap]. rewrite E0. reflexivity. }
  destruct q as [m3 x].
  assert (exists more snaps, (ts_metadata_snap sb = 0 -> more = [] /\ m3 = m2) /\ check_mappings nr fuel order o readable writable (with_roots sb) (zip_devices roots devs) snaps (map snd roots ++ more) m3 d = (d', Ok tt)) as (more & snaps & Hns & HC).
  { destruct x as [[ts rs]| |]; try discriminate; eexists _, _; (split; [|exact H]); intros E0; specialize (Hq E0); split; congruence. }
  clear H Hq Ecm Ei snap x. unfold check_mappings in HC. rewrite O3 in HC.
  destruct (create_data_sm _ _) as [dsm0| |] eqn:Ed; try (exfalso; exact (fails_not_ok _ _ _ HC)).
  destruct (smroot_unpack (ts_metadata_sm_root _)) as [[mroot mrest]| |] eqn:Em; try (exfalso; exact (fails_not_ok _ _ _ HC)).
  destruct (check_mappings_bottom_level _ _ _ _ _ _ _ _) as [[m4 dsm] [ss| |]] eqn:Eb; try (exfalso; exact (fails_not_ok _ _ _ HC)).
  unfold check_mapped_blocks in HC. destruct (forallb (mapped_ok ss) (zip_devices roots devs)) eqn:E1; try (exfalso; exact (fails_not_ok _ _ _ HC)).
  destruct snaps as [ts| |]; try (exfalso; exact (fails_not_ok _ _ _ HC)).
  destruct (forallb (mapped_ok ss) ts) eqn:E2; try (exfalso; exact (fails_not_ok _ _ _ HC)).
  unfold check_space_maps in HC. destruct (smroot_unpack (ts_data_sm_root _)) as [[droot drest]| |] eqn:Eu; try (exfalso; exact (fails_not_ok _ _ _ HC)).
  destruct (check_disk_space_map _ _ _ _ _ _) as [m5 [[dn dl]| |]] eqn:Edc; try (exfalso; exact (fails_not_ok _ _ _ HC)).
  rewrite Em in HC. destruct (check_metadata_space_map _ _ _ _ _) as [m6 [[mn ml]| |]] eqn:Emc; try (exfalso; exact (fails_not_ok _ _ _ HC)).
  exact (mkchecked d d' sb m1 m2 m3 m4 devs roots more ts dsm0 dsm ss droot mroot drest mrest m5 m6 dn mn dl ml Er Hst Hns Eg El Ed Eb E1 E2 Eu Edc Em Emc HC).
Qed.

(** ** The blocks that change *)
Definition leak_bitmaps (d : disk) (lks : list leak) : Prop := forall b, In b (map lk_loc lks) -> metadata_block_type (d b) = BITMAP.
Lemma eng_ok d : dev_ok d -> blocks_ok (eng d).
Proof. intros H b data E. unfold dev in E. destruct (_ && _); [|discriminate]. assert (data = d b) by congruence. subst. apply H. Qed.
Lemma low_leaks d sm ies n lks : dev_ok d -> check_low_ref_counts (eng d) sm ies = Ok (n, lks) -> leak_bitmaps d lks.
Proof.
  intros Hd H. apply (C18_check_low_ref_counts sm (eng d) ies n lks (eng_ok d Hd)) in H. destruct H as (ess & Hon & _ & _ & (is & _ & _ & HF)).
  intros b Hb. apply in_map_iff in Hb. destruct Hb as (lk & <- & Hin). destruct (F2_in_r _ _ _ _ HF Hin) as (i & _ & _ & (ie & Hi & ->)).
  apply nth_error_In in Hi. unfold bitmaps_on in Hon. destruct (F2_in_l _ _ _ _ Hon Hi) as (es & _ & (data & bm & rest & E1 & E2 & _)).
  unfold dev in E1. destruct (_ && _); [|discriminate]. assert (data = d (ie_blocknr ie)) by congruence. subst. exact E2.
Qed.
Lemma disk_check_low d inf root dsm msm msm' n lks : check_disk_space_map nr (eng d) inf root dsm msm = (msm', Ok (n, lks)) ->
  exists ies, check_low_ref_counts (eng d) dsm ies = Ok (n, lks).
Proof.
  unfold check_disk_space_map. intros H. destruct (negb _); [discriminate|]. destruct (walk _ _ _ _ _ _ _) as [s [e|]]; [discriminate|]. cbv zeta in H.
  destruct (inc_entries _ _) as [sm [u| |]]; try discriminate. destruct (walk _ _ _ _ _ _ _) as [s' e']. destruct (panicked _ _); [discriminate|].
  destruct e'; [discriminate|]. eexists. assert (forall (a b : core_sm) (x y : res (N * list leak)), (a, x) = (b, y) -> x = y) as P by (intros; congruence).
  exact (P _ _ _ _ H).
Qed.
Lemma metadata_check_low d inf root msm msm' n lks : check_metadata_space_map nr (eng d) inf root msm = (msm', Ok (n, lks)) ->
  exists ies, check_low_ref_counts (eng d) msm' ies = Ok (n, lks).
Proof.
  unfold check_metadata_space_map. intros H. destruct (negb _); [discriminate|]. destruct (count_btree_blocks _ _ _ _ _ _) as [s [e|]]; [discriminate|]. cbv zeta in H.
  destruct (eng d (sr_bitmap_root root)) as [data|]; [|discriminate]. destruct (load_metadata_index _ _) as [m| |]; try discriminate.
  destruct (sm_inc _ _ _) as [sm1 [u| |]]; try discriminate.
  destruct (inc_entries _ _) as [sm [u'| |]]; try discriminate. destruct (walk _ _ _ _ _ _ _) as [s' e']. destruct (panicked _ _); [discriminate|].
  destruct e'; [discriminate|]. assert (forall (a b : core_sm) (x y : res (N * list leak)), (a, x) = (b, y) -> a = b /\ x = y) as P by (intros; split; congruence).
  apply P in H. destruct H as [-> H]. eexists. exact H.
Qed.
Lemma fix_changes sm lks d b : ~ In b (map lk_loc lks) -> fst (fix_leaks nr o readable writable sm lks d) b = d b.
Proof.
  intros H. unfold fix_leaks. destruct lks as [|lk lks]; auto. destruct (_ || _); auto.
  destruct (repair_space_map _ _ _ _ _) as [d' r] eqn:E. cbn [fst]. exact (C19_only_listed_bitmaps _ _ _ _ _ _ _ E b H).
Qed.
Lemma clear_changes d b : b <> 0 -> fst (clear_flag nr o readable writable d) b = d b.
Proof.
  intros H. unfold clear_flag. destruct (read_sb _ _) as [sb| |]; auto. destruct (ts_needs_check sb); auto.
  destruct (thin_write_superblock _ _ _) as [d'| |] eqn:E; auto. destruct (can_write _ _ _); auto. cbn [fst].
  unfold thin_write_superblock in E. inv_bind E. inv_bind E. apply Ok_inj in E. subst d'. unfold upd. destruct (N.eqb_spec b 0); [congruence|auto].
Qed.
Lemma finish_changes dsm msm dl ml d b : b <> 0 -> ~ In b (map lk_loc dl) -> ~ In b (map lk_loc ml) ->
  fst (finish_check nr o readable writable dsm msm dl ml d) b = d b.
Proof.
  intros H1 H2 H3. unfold finish_check. pose proof (fix_changes dsm dl d b H2) as F1. destruct (fix_leaks _ _ _ _ dsm dl d) as [d1 r1]. cbn [fst] in F1.
  destruct r1; auto. pose proof (fix_changes msm ml d1 b H3) as F2. destruct (fix_leaks _ _ _ _ msm ml d1) as [d2 r2]. cbn [fst] in F2.
  destruct r2; cbn [fst]; try congruence. destruct (_ || _); cbn [fst]; [|congruence]. unfold done. cbn [fst]. rewrite clear_changes by auto. congruence.
Qed.
Lemma run_changes d b : dev_ok d -> fst (run d) b <> d b -> b = 0 \/ metadata_block_type (d b) = BITMAP.
Proof.
  intros Hd. destruct (N.eq_dec b 0) as [|Hb]; [auto|]. intros Hne. right.
  destruct (metadata_block_type (d b)) eqn:Et; auto; exfalso; apply Hne; clear Hne.
  all: assert (C : fst (done (clear_flag nr o readable writable d)) b = d b) by (cbn [done fst]; apply clear_changes, Hb).
  all: assert (S : forall sb dsm msm, fst (check_space_maps nr o readable writable sb dsm msm d) b = d b) by
    (intros; unfold check_space_maps; destruct (smroot_unpack (ts_data_sm_root sb)) as [[droot drest]| |]; auto;
     destruct (check_disk_space_map _ _ _ _ _ _) as [m5 [[dn dl]| |]] eqn:Edc; auto;
     destruct (smroot_unpack (ts_metadata_sm_root sb)) as [[mroot mrest]| |]; auto;
     destruct (check_metadata_space_map _ _ _ _ _) as [m6 [[mn ml]| |]] eqn:Emc; auto;
     apply finish_changes; auto; intros Hin;
     [apply disk_check_low in Edc; destruct Edc as [ies Edc]; pose proof (low_leaks d _ _ _ _ Hd Edc b Hin); congruence
     |apply metadata_check_low in Emc; destruct Emc as [ies Emc]; pose proof (low_leaks d _ _ _ _ Hd Emc b Hin); congruence]).
  all: assert (M : forall sb t ts rs msm, fst (check_mappings nr fuel order o readable writable sb t ts rs msm d) b = d b) by
    (intros; unfold check_mappings; repeat match goal with |- fst (match ?x with _ => _ end) _ = _ => destruct x end; auto).
  all: unfold thin_check; repeat match goal with |- fst (match ?x with _ => _ end) _ = _ => destruct x end; auto.
Qed.

End Check.
Lemma take_bytes n i x i' : bytes i -> p_take n i = Ok (x, i') -> bytes x /\ bytes i' /\ length x = n.
Proof.
  unfold p_take. intros H E. destruct (Nat.ltb_spec (length i) n); [discriminate|]. apply Ok_inj in E.
  assert (x = firstn n i /\ i' = skipn n i) as [-> ->] by (split; congruence). rewrite <- (firstn_skipn n i) in H. apply Forall_app in H. destruct H.
  conj; auto. rewrite firstn_length. lia.
Qed.
Lemma le_bytes n i x i' : bytes i -> p_le n i = Ok (x, i') -> x < 256 ^ N.of_nat n /\ bytes i'.
Proof.
  unfold p_le. intros H E. inv_bind E. destruct a as [y j]. apply Ok_inj in E. assert (x = le_dec y /\ j = i') as [-> ->] by (split; congruence).
  destruct (take_bytes _ _ _ _ H E0) as (H1 & H2 & H3). split; [|auto]. pose proof (le_dec_lt y H1). unfold nlen in H0. rewrite H3 in H0. exact H0.
Qed.
Lemma sb_unpack_range data sb rest : bytes data -> thin_sb_unpack data = Ok (sb, rest) -> thin_sb_range sb.
Proof.
  intros Hb H. unfold thin_sb_unpack in H.
  repeat match type of H with
  | bind (p_u32 ?i) _ = _ => let E := fresh "E" in destruct (p_u32 i) as [[? ?]| |] eqn:E; cbn [bind] in H; [|discriminate|discriminate];
      apply (le_bytes 4) in E; [|assumption]; change (256 ^ N.of_nat 4) with (2 ^ 32) in E; destruct E as [? ?]
  | bind (p_u64 ?i) _ = _ => let E := fresh "E" in destruct (p_u64 i) as [[? ?]| |] eqn:E; cbn [bind] in H; [|discriminate|discriminate];
      apply (le_bytes 8) in E; [|assumption]; change (256 ^ N.of_nat 8) with (2 ^ 64) in E; destruct E as [? ?]
  | bind (p_take ?n ?i) _ = _ => let E := fresh "E" in destruct (p_take n i) as [[? ?]| |] eqn:E; cbn [bind] in H; [|discriminate|discriminate];
      apply take_bytes in E; [|assumption]; destruct E as (? & ? & ?)
  end.
  apply Ok_inj in H. apply (f_equal fst) in H. cbn [fst] in H. subst sb. unfold thin_sb_range.
  cbn [ts_block ts_version ts_time ts_transaction_id ts_metadata_snap ts_data_sm_root ts_metadata_sm_root ts_mapping_root ts_details_root ts_data_block_size ts_nr_metadata_blocks].
  conj; auto; unfold nlen; match goal with H : length ?l = SPACE_MAP_ROOT_SIZE |- N.of_nat (length ?l) = _ => rewrite H end; reflexivity.
Qed.
