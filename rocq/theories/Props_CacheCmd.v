(** C59: cache_check. *)
From Verif Require Import IoMany_Proofs Base Csum_Model Codec_Model Codec_Spec Codec_Proofs Pack_Proofs SpaceMap_Model Utils_Model Utils_Proofs Batcher_Model Builder_Model Builder_Spec BtreeBuild_Proofs Walker_Model Walker_Spec
  Array_Model Array_Spec SmCheck_Model SmCheck_Spec Repair_Model ThinCheck_Model ThinCheck_Spec ThinCheck_Proofs CacheCheck_Model CacheCheck_Spec
  CacheCmd_Model CacheCmd_Spec CacheCmd_Proofs CacheCmdFix_Proofs CacheVerdict_Proofs.

(** ** What is written *)
(** Nothing, without --auto-repair and --clear-needs-check, whatever is on the device and
    whatever the outcome. *)
Theorem C59_read_only : forall nr o readable writable d,
  cc_auto_repair o = false -> cc_clear_needs_check o = false -> fst (cache_check nr o readable writable d) = d.
Proof. exact cache_ro. Qed.
(** Nor with any of the options that leave out a part of the check: the flag stays, even if it
    was to be cleared and the check succeeds. *)
Theorem C59_skips_write_nothing : forall nr o readable writable d,
  cc_sb_only o = true \/ cc_skip_mappings o = true \/ cc_skip_hints o = true \/ cc_skip_discards o = true ->
  fst (cache_check nr o readable writable d) = d.
Proof.
  intros nr o readable writable d H. apply cache_skip_ro. unfold cc_skips. destruct H as [H|[H|[H|H]]]; rewrite H; rewrite ?Bool.orb_true_r; auto.
Qed.
(** In any case, apart from the superblock a block either stays as it is or it was, and stays, a
    bitmap, in which counts of one became zero. *)
Theorem C59_writes : forall nr o readable writable d b, dev_ok d -> b <> 0 ->
  loosened (d b) (fst (cache_check nr o readable writable d) b).
Proof. exact cache_loose. Qed.
(** After a successful repair the superblock reads back as before, with the flag cleared. *)
Theorem C59_flag : forall nr o readable writable d d' sb, dev_ok d ->
  cc_auto_repair o || cc_clear_needs_check o = true -> cc_sb_only o = false ->
  cc_skip_mappings o = false -> cc_skip_hints o = false -> cc_skip_discards o = false ->
  read_csb (dev nr readable d) = Ok sb ->
  cache_check nr o readable writable d = (d', Ok tt) -> read_csb (dev nr readable d') = Ok (flag_cleared sb).
Proof.
  intros nr o readable writable d d' sb Hd Ho Hs H1 H2 H3. apply cache_flag; auto. unfold cc_skips. rewrite H1, H2, H3. reflexivity.
Qed.

(** ** The superblock *)
(** A superblock that cannot be read, or one of version 2 (or later) without dirty bits, is
    rejected whatever the options; with --super-block-only any other is accepted. *)
Theorem C59_superblock : forall nr o readable writable d,
  ((forall sb, read_csb (dev nr readable d) <> Ok sb) -> snd (cache_check nr o readable writable d) <> Ok tt) /\
  forall sb, read_csb (dev nr readable d) = Ok sb ->
    (2 <= cs_version sb /\ (cs_dirty_root sb = None \/ cs_dirty_root sb = Some 0) -> cache_check nr o readable writable d = (d, Err)) /\
    (cc_sb_only o = true -> (cs_version sb < 2 \/ exists r, cs_dirty_root sb = Some r /\ r <> 0) -> cache_check nr o readable writable d = (d, Ok tt)).
Proof.
  intros nr o readable writable d. split.
  - intros H. unfold cache_check. destruct (read_csb _) as [sb| |]; [exfalso; apply (H sb); auto|cbn; discriminate|cbn; discriminate].
  - intros sb H. unfold cache_check. rewrite H. unfold csb_ok. rewrite Bool.negb_involutive. split.
    + intros [A B]. destruct (N.leb_spec 2 (cs_version sb)); [|lia]. cbn [andb]. destruct B as [-> | ->]; reflexivity.
    + intros -> [A|(r & A & B)]; [destruct (N.leb_spec 2 (cs_version sb)); [lia|reflexivity]|]. rewrite A. destruct (N.eqb_spec r 0); [contradiction|]. rewrite Bool.andb_false_r. reflexivity.
Qed.
(** Versions other than 1 and 2 are rejected, unless the mappings are skipped. *)
Theorem C59_version : forall nr o readable writable d sb, read_csb (dev nr readable d) = Ok sb ->
  cs_version sb <> 1 -> cs_version sb <> 2 -> cc_sb_only o = false -> cc_skip_mappings o = false -> snd (cache_check nr o readable writable d) <> Ok tt.
Proof.
  intros nr o readable writable d sb H V1 V2 O1 O2. unfold cache_check. rewrite H, O1. destruct (negb (csb_ok sb)); [discriminate|].
  assert (E : forall x, mappings_part nr o (dev nr readable d) sb <> Ok x).
  { intros x. unfold mappings_part. rewrite O2. unfold CacheCheck_Model.check_mappings. destruct (nr_origin_blocks sb) as [ob| |]; [|discriminate|discriminate]. cbn [bind]. destruct (mc_new ob) as [l sn].
    destruct (N.eqb_spec (cs_version sb) 1); [contradiction|]. destruct (N.eqb_spec (cs_version sb) 2); [contradiction|]. discriminate. }
  unfold sections. destruct (mappings_part nr o (dev nr readable d) sb) as [x| |] eqn:Ex; [exfalso; apply (E x); auto|cbn; discriminate|cbn; discriminate].
Qed.

(** ** The verdict *)
(** On metadata whose indexes are intact, the check succeeds only if every array block can be
    read, the mappings are fine (C34), no bit set is too long, and the metadata space map has
    a count of one for the blocks in use and, unless leaks are ignored or repaired, of zero for
    the others. *)
Theorem C59_accepted_is_fine : forall nr o readable writable d d' sb m limit,
  let eng := dev nr readable d in
  dev_ok d -> cache_with nr d eng sb m -> origin_limit sb limit ->
  cc_sb_only o = false -> cc_skip_mappings o = false -> cc_skip_hints o = false -> cc_skip_discards o = false ->
  cache_check nr o readable writable d = (d', Ok tt) ->
  arrays_fine eng limit sb m /\ map_fine eng nr m (cc_ignore_non_fatal o || cc_auto_repair o || cc_clear_needs_check o).
Proof.
  intros nr o readable writable d d' sb m limit eng Hd HC HL H1 H2 H3 H4 H. rewrite <- Bool.orb_assoc. eapply accepts_sound; eauto.
  unfold cc_skips. rewrite H2, H3, H4. reflexivity.
Qed.
(** Without repairs it succeeds whenever that is so. *)
Theorem C59_fine_is_accepted : forall nr o readable writable d sb m limit,
  let eng := dev nr readable d in
  dev_ok d -> cache_with nr d eng sb m -> origin_limit sb limit ->
  cc_sb_only o = false -> cc_skip_mappings o = false -> cc_skip_hints o = false -> cc_skip_discards o = false ->
  cc_auto_repair o = false -> cc_clear_needs_check o = false ->
  arrays_fine eng limit sb m -> map_fine eng nr m (cc_ignore_non_fatal o) -> cache_check nr o readable writable d = (d, Ok tt).
Proof.
  intros nr o readable writable d sb m limit eng Hd HC HL H1 H2 H3 H4 H5 H6 HA HM. apply (accepts_plain nr o readable writable d sb m limit); auto.
  - unfold cc_skips. rewrite H2, H3, H4. reflexivity.
  - unfold cc_repairs. rewrite H5, H6. reflexivity.
Qed.

Lemma reads_as_ext {V} (c : codec V) eng eng' b vs : eng' b = eng b -> reads_as c eng b vs -> reads_as c eng' b vs.
Proof. intros E (data & h & A & B). exists data, h. rewrite E. auto. Qed.
Lemma bitset_ext eng eng' n blocks : (forall b, In b blocks -> eng' b = eng b) -> bitset_fine eng n blocks -> bitset_fine eng' n blocks.
Proof. intros E H i b Hb. destruct (H i b Hb) as [[ws A] B]. split; auto. exists ws. eapply reads_as_ext; [|exact A]. apply E. eapply nth_error_In; eauto. Qed.
Lemma stored_bit_ext eng eng' blocks x : (forall b, In b blocks -> eng' b = eng b) -> stored_bit eng' blocks x = stored_bit eng blocks x.
Proof.
  intros E. unfold stored_bit. destruct (nth_error blocks _) as [b|] eqn:Eb; auto. unfold block_words. rewrite (E b) by (eapply nth_error_In; eauto). reflexivity.
Qed.
Lemma arrays_ext eng eng' limit sb sb' m : (forall b, In b (p_dirty m ++ p_maps m ++ p_hints m ++ p_discards m) -> eng' b = eng b) ->
  cs_cache_blocks sb' = cs_cache_blocks sb -> cs_version sb' = cs_version sb -> cs_discard_nr_blocks sb' = cs_discard_nr_blocks sb ->
  arrays_fine eng limit sb m -> arrays_fine eng' limit sb' m.
Proof.
  intros E E1 E2 E3 (A & (vss & B1 & B2) & C & D). unfold arrays_fine. rewrite E1, E2, E3. conj.
  - eapply bitset_ext; [|exact A]. intros; apply E; rewrite !in_app_iff; tauto.
  - exists vss. split.
    + assert (HE : forall b, In b (p_maps m) -> eng' b = eng b) by (intros; apply E; rewrite !in_app_iff; tauto). clear - B1 HE. induction B1 as [|b vs bs vss HA HF IH]; constructor.
      * eapply reads_as_ext; [|exact HA]. apply HE. left. auto.
      * apply IH. intros; apply HE. right. auto.
    + destruct B2 as [B2 B3]. split; [|exact B3]. intros i x Hx. destruct (B2 i x Hx) as [|(P & Q & R)]; [left; auto|right]. conj; auto. intros Hv. rewrite <- (R Hv). unfold stored_dirty. rewrite E1.
      rewrite (stored_bit_ext eng eng'); auto. intros; apply E; rewrite !in_app_iff; tauto.
  - intros b Hb. destruct (C b Hb) as [hs HC]. exists hs. eapply reads_as_ext; [|exact HC]. apply E. rewrite !in_app_iff; tauto.
  - eapply bitset_ext; [|exact D]. intros; apply E; rewrite !in_app_iff; tauto.
Qed.
Lemma with_ext nr readable d d' sb m : cache_with nr d (dev nr readable d) sb m -> cache_read_superblock d' 0 = Ok (unflag sb) ->
  (forall b, b <> 0 -> ~ In b (map ie_blocknr (p_entries m)) -> d' b = d b) -> cache_with nr d' (dev nr readable d') (unflag sb) m.
Proof.
  intros (A1 & A2 & A3 & A4 & A5 & A6 & A7 & A8 & A9 & A10 & A11 & A12 & A13 & A14 & A15 & A16) Hsb He.
  set (safe := p_dirty_index m ++ p_dirty m ++ p_maps_index m ++ p_maps m ++ p_hints_index m ++ p_hints m ++ p_discards_index m ++ p_discards m ++ p_large_index m ++ [sr_bitmap_root (p_sm m)]).
  assert (Esafe : p_used m = [0] ++ safe ++ map ie_blocknr (p_entries m)) by (unfold p_used, safe; rewrite <- !app_assoc; reflexivity).
  assert (Hsafe : forall b, In b safe -> d' b = d b).
  { intros b Hb. rewrite Esafe in A13. apply He.
    - intros ->. cbn [app] in A13. inversion A13 as [|? ? Hn _]; subst. apply Hn. apply in_or_app. auto.
    - apply nodup_post in A13. apply NoDup_app_iff_local in A13 as (_ & _ & HX). auto. }
  assert (Hdev : forall b, In b safe -> dev nr readable d' b = dev nr readable d b) by (intros b Hb; unfold dev; rewrite Hsafe; auto).
  assert (Hix : forall root blocks foot, (forall b, In b foot -> In b safe) -> indexed d root blocks foot -> indexed d' root blocks foot).
  { intros root blocks foot Hf [dp T]. exists dp. eapply tree_frame; [|exact T]. intros; apply Hsafe; auto. }
  unfold cache_with. cbn [unflag cs_mapping_root cs_version cs_dirty_root cs_hint_root cs_policy_hint_size cs_discard_root cs_metadata_sm_root].
  assert (I1 : forall b, In b (p_maps_index m) -> In b safe) by (intros; unfold safe; rewrite !in_app_iff; tauto).
  assert (I2 : forall b, In b (p_dirty_index m) -> In b safe) by (intros; unfold safe; rewrite !in_app_iff; tauto).
  assert (I3 : forall b, In b (p_hints_index m) -> In b safe) by (intros; unfold safe; rewrite !in_app_iff; tauto).
  assert (I4 : forall b, In b (p_discards_index m) -> In b safe) by (intros; unfold safe; rewrite !in_app_iff; tauto).
  assert (I5 : forall b, In b (p_large_index m) -> In b safe) by (intros; unfold safe; rewrite !in_app_iff; tauto).
  assert (I6 : In (sr_bitmap_root (p_sm m)) safe) by (unfold safe; rewrite !in_app_iff; cbn [In]; tauto).
  conj; auto.
  - unfold dev in *. destruct (_ && _); [reflexivity|discriminate].
  - destruct A5 as [|(Ev & r & X & Y & Z)]; [left; auto|right]. split; auto. exists r. conj; auto.
  - destruct A6 as [|(X & Y & Z)]; [left; auto|right]. conj; auto.
  - destruct A7 as [|(X & Y)]; [left; auto|right]. conj; auto.
  - rewrite (Hsafe _ I6). exact A9.
  - destruct A10 as [dp T]. exists dp. eapply tree_frame; [|exact T]. intros; apply Hsafe; auto.
  - intros b Hb. assert (Hb' : In b safe) by (unfold safe; rewrite !in_app_iff in *; tauto). rewrite Hdev, Hsafe by auto. apply A12. exact Hb.
  - intros b data a Hb. rewrite Hdev by (unfold safe; rewrite !in_app_iff in *; tauto). apply A15. exact Hb.
  - intros b data a Hb. rewrite Hdev by (unfold safe; rewrite !in_app_iff in *; tauto). apply A16. exact Hb.
Qed.
(** With --auto-repair or --clear-needs-check it succeeds, if the superblock and the bitmaps can
    be written, also if there are leaks; they are then gone, and any later check without
    repairs finds nothing wrong: repairs are complete, and keep everything else. *)
Theorem C59_repaired : forall nr o readable writable d sb m limit,
  let eng := dev nr readable d in
  dev_ok d -> cache_with nr d eng sb m -> origin_limit sb limit ->
  cc_sb_only o = false -> cc_skip_mappings o = false -> cc_skip_hints o = false -> cc_skip_discards o = false ->
  cc_auto_repair o || cc_clear_needs_check o = true ->
  (forall b, b = 0 \/ In b (map ie_blocknr (p_entries m)) -> writable b = true) ->
  arrays_fine eng limit sb m -> map_fine eng nr m true ->
  exists d', cache_check nr o readable writable d = (d', Ok tt) /\
    (forall b, b <> 0 -> ~ In b (map ie_blocknr (p_entries m)) -> d' b = d b) /\
    read_csb (dev nr readable d') = Ok (flag_cleared sb) /\
    map_fine (dev nr readable d') nr m false /\
    forall o' writable', cc_sb_only o' = false -> cc_skip_mappings o' = false -> cc_skip_hints o' = false -> cc_skip_discards o' = false ->
      cc_auto_repair o' = false -> cc_clear_needs_check o' = false -> cache_check nr o' readable writable' d' = (d', Ok tt).
Proof.
  intros nr o readable writable d sb m limit eng Hd HC HL H1 H2 H3 H4 Ho Hw HA HM.
  assert (Hk : cc_skips o = false) by (unfold cc_skips; rewrite H2, H3, H4; reflexivity).
  destruct (accepts_repair nr o readable writable d sb m limit Hd HC HL H1 Hk Ho HA HM Hw) as (d' & E & Hd' & Hf & HM').
  assert (Hsb : read_csb (dev nr readable d') = Ok (unflag sb)) by (apply (cache_flag nr o readable writable d d' sb); auto; apply (csb_there _ _ _ _ _ HC)).
  exists d'. conj; auto. intros o' writable' P1 P2 P3 P4 P5 P6.
  pose proof (with_ext nr readable d d' sb m HC (proj1 (read_csb_in nr readable d' _ Hsb)) Hf) as HC'.
  eapply C59_fine_is_accepted with (1 := Hd') (2 := HC'); auto.
  - exact HL.
  - apply (arrays_ext eng (dev nr readable d') limit sb (unflag sb) m); auto. intros b Hb. unfold eng, dev. rewrite Hf; auto.
    + intros ->. destruct HC as (_ & _ & _ & _ & _ & _ & _ & _ & _ & _ & _ & _ & HN & _). unfold p_used in HN. cbn [app] in HN. inversion HN as [|? ? Hn _]; subst. apply Hn. rewrite !in_app_iff in *. tauto.
    + intros X. destruct HC as (_ & _ & _ & _ & _ & _ & _ & _ & _ & _ & _ & _ & HN & _). rewrite used_split in HN. apply NoDup_app_iff_local in HN as (_ & _ & HX). apply (HX b).
      * unfold p_arrays. rewrite !in_app_iff in *. tauto.
      * unfold p_map. rewrite !in_app_iff in *. tauto.
  - destruct HM' as (ess & B1 & B2 & B3). exists ess. conj; auto. intros b e Hb He. destruct (B2 b e Hb He) as [|[? _]]; [auto|discriminate].
Qed.
Print Assumptions C59_read_only.
Print Assumptions C59_skips_write_nothing.
Print Assumptions C59_writes.
Print Assumptions C59_flag.
Print Assumptions C59_accepted_is_fine.
Print Assumptions C59_fine_is_accepted.
Print Assumptions C59_repaired.
Print Assumptions C59_superblock.
Print Assumptions C59_version.
