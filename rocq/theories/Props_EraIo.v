(** C58: era_restore writes what the document says; what era_dump and era_invalidate then say. *)
From Coq Require Import Permutation.
From Verif Require EraDump_Proofs Props_Walker Props_Era.
From Verif Require Import Base Csum_Model Codec_Model Codec_Spec Codec_Proofs SbCodec_Proofs SpaceMap_Model SpaceMap_Spec SpaceMap_Proofs Batcher_Model Batcher_Proofs IoMany_Proofs
  Builder_Model Builder_Spec Builder_Proofs Utils_Proofs BtreeBuild_Proofs Session_Spec ThinOut_Model Walker_Model Array_Model Array_Spec Array_Proofs SmWrite_Model
  SmWrite_Spec SmWrite_Proofs SmMetaTop_Proofs Restore_Model RestoreSafe_Proofs Props_SmWrite ContigSafe_Proofs RestoreRun_Proofs RestoreDoc_Proofs RestoreFin_Proofs Props_RestoreDoc Utils_Model Era_Model Era_Spec
  CacheIo_Spec CacheRestore_Proofs CacheRestoreFin_Proofs EraRestore_Proofs EraIo_Model EraIo_Spec EraIo_Proofs.

Section Fin.
Variables n nr : N.
Let max := W32 - 1.
Hypothesis Hn : n < 2 ^ 64.
Hypothesis Hnr : nr < 2 ^ 32.
Let Hv1 : 1 = 1 \/ 1 = 2 := or_introl eq_refl.
Variable d : edoc.
Hypothesis Hnd : ei_nr_blocks (ed_sb d) = nr.
Hypothesis Hfit : edoc_fits d.

Definition rec_set (t : N * wrec) : (N * writeset) * list N := (rec_entry t, snd (fst (snd t))).
Lemma era_finalize_wp w T b : RE n nr w T b (ed_eras d) (ed_sets d) -> 0 < n <= 255 * 16320 ->
  wp (era_finalize (mker (Some (ed_sb d)) (map rec_entry T) None (Some b) ESSuperblock)) w
     (fun w' r' => eras_in_order d /\ era_restored (wb_disk w') n d /\ wb_queue w' = [] /\ er_sec r' = ESFinalized)
     (exhausted n max).
Proof using Hn Hnr Hnd Hfit.
  intros HR Hn255. destruct Hfit as (F1 & F2 & F3 & F4 & F5 & F6).
  assert (Hord : eras_in_order d).
  { pose proof (ai_keys _ _ _ _ _ _ _ _ (re_eras _ _ _ _ _ _ _ HR)) as [A1 A2]. split; auto. rewrite Hnd. eapply Forall_impl; [|exact A2]. cbn. tauto. }
  unfold era_finalize. cbn [er_sb er_sets er_eras]. apply wp_bind.
  (* the tree of writesets *)
  pose proof (re_recs _ _ _ _ _ _ _ HR) as Hrecs. rewrite Forall_forall in Hrecs.
  assert (Ekeys : map fst (map rec_entry T) = map fst T) by (rewrite map_map; reflexivity).
  assert (Hent : entries_ok ws_range (map rec_entry T)).
  { split; [rewrite Ekeys; apply HR|]. apply Forall_forall. intros kv Hkv. apply in_map_iff in Hkv as (t & <- & Ht). specialize (Hrecs t Ht).
    destruct Hrecs as [A1 A2 A3 A4 A5 A6 A0 A7]. cbn [rec_entry fst snd]. unfold ws_range. lia. }
  eapply wp_mono; [eapply wp_safe; [|apply j_btree_build; [exact Hn|apply values_in; eauto]|apply HR]| |intros w' Hx; exact Hx].
  { apply (build_tree_wp n max ws_codec ws_range w (map rec_entry T) Hn ws_lossless ltac:(reflexivity) ltac:(vm_compute; discriminate)); [apply HR|exact Hent]. }
  intros w1 t [(td & tf & G1 & Ht & Htr) Hj1]. apply wp_bind.
  (* the era array *)
  eapply wp_mono; [eapply wp_safe; [|apply j_ab_complete; exact Hn|exact Hj1]| |intros w' Hx; exact Hx].
  { apply (ab_complete_wp n max Hn u32_codec (fun v => v < 2 ^ 32) 0 u32_lossless u32_size eq_refl nr w1 b (ed_eras d)); [|eapply AInv_stable; [apply HR|exact G1]|apply G1].
    change (array_per u32_codec) with 1018. lia. }
  intros w3 aroot [(l3 & f3 & G3 & Hr3 & N3 & A3) Hj3]. set (ab := abb_blocks b ++ l3) in *.
  assert (G13 : grew n max w w3 (tf ++ (l3 ++ f3))) by (eapply grew_trans; eauto).
  assert (C3 : forall x, cnt w3 x = occ x (0 :: flat_map rec_blocks T ++ tf ++ (ab ++ f3))).
  { intros x. rewrite (gr_cnt _ _ _ _ _ G13), (re_cnt _ _ _ _ _ _ _ HR). unfold ab. cbn [occ]. rewrite !occ_app. lia. }
  assert (H30 : 0 < cnt w3 0) by (rewrite C3; cbn [occ N.eqb]; lia).
  assert (One3 : forall x, cnt w3 x <= 1) by (eapply (grew_one n 1 nr Hn Hnr Hv1); [exact G13|apply HR]).
  (* space map *)
  eapply wp_eq; [symmetry; apply (bind_assoc write_metadata_sm (fun sm => lift (pack_root sm SPACE_MAP_ROOT_SIZE)))|].
  apply wp_bind. eapply wp_mono; [apply (metadata_sm_done n Hn w3 (gr_env _ _ _ _ _ G3) Hj3 H30 Hn255)| |intros w' Hx; exact Hx].
  intros w4 packed (Q4 & Bp & Lp & sms & G4 & Hcounts). cbn beta.
  set (sb := mkesb _ _ _ _ _ _ _ _ _ _ _).
  assert (Hsb : era_sb_range sb).
  { unfold era_sb_range, sb. cbn [es_block es_version es_metadata_sm_root es_data_block_size es_nr_blocks es_current_era es_current_writeset es_writeset_tree_root es_era_array_root es_metadata_snap].
    unfold ws_range. cbn [ws_nr_bits ws_root]. conj; auto; try lia; try reflexivity. }
  destruct (write_esb_spec sb w4 Hsb) as (w5 & E5 & Rsb & O5 & Q5); [apply (e_good _ _ _ (gr_env _ _ _ _ _ G4)); lia|].
  eapply wp_step; [exact E5|]. apply wp_ret.
  split; [exact Hord|]. split; [|split; [rewrite Q5; exact Q4|reflexivity]].
  set (D := wb_disk w5) in *.
  assert (D4 : forall x, x <> 0 -> D x = wb_view w4 x) by (intros x Hx; rewrite (O5 x Hx); apply (empty_disk n max); [apply G4|auto]).
  set (used := 0 :: flat_map rec_blocks T ++ tf ++ (ab ++ f3) ++ sms).
  assert (C4 : forall x, cnt w4 x = occ x used).
  { intros x. rewrite (gr_cnt _ _ _ _ _ G4), C3. unfold used. cbn [occ]. rewrite !occ_app. lia. }
  assert (One4 : forall x, cnt w4 x <= 1) by (eapply (grew_one n 1 nr Hn Hnr Hv1); [exact G4|exact One3]).
  assert (HN : NoDup used) by (apply occ_NoDup; intros x; rewrite <- C4; apply One4).
  assert (Hz : forall x, In x (flat_map rec_blocks T ++ tf ++ (ab ++ f3) ++ sms) -> x <> 0) by (inversion HN; subst; intros x Hx ->; auto).
  assert (GD : forall w0 l x, grew n max w0 w4 l -> 0 < cnt w0 x -> x <> 0 -> D x = wb_view w0 x).
  { intros w0 l x G Hp Hb. rewrite D4 by auto. apply (gr_frame _ _ _ _ _ G). auto. }
  assert (G14 : grew n max w1 w4 ((l3 ++ f3) ++ sms)) by (eapply grew_trans; eauto).
  assert (G04 : grew n max w w4 ((tf ++ (l3 ++ f3)) ++ sms)) by (eapply grew_trans; eauto).
  assert (move : forall V (c : codec V) w0 l root vs foot blocks, array_at c (wb_view w0) root vs foot blocks -> grew n max w0 w4 l ->
     (forall x, In x (blocks ++ foot) -> 0 < cnt w0 x) -> (forall x, In x (blocks ++ foot) -> x <> 0) -> array_at c D root vs foot blocks).
  { clear - GD. intros V c w0 l root vs foot blocks (depth & vss & A & B & C & E) G H Hb. exists depth, vss. conj; auto.
    - eapply tree_frame; [|exact A]. intros x Hx. eapply GD; [exact G|apply H|apply Hb]; apply in_or_app; auto.
    - eapply Forall2_impl_in; [|exact B]. intros x v Hi Hab. eapply array_block_ext; [|exact Hab]. eapply GD; [exact G|apply H|apply Hb]; apply in_or_app; auto. }
  assert (HinT : forall t0 x, In t0 T -> In x (rec_blocks t0) -> In x (flat_map rec_blocks T)) by (intros t0 x Ht0 Hx; apply in_flat_map; eauto).
  assert (DS : forall t0, In t0 T -> array_at u64_codec D (ws_root (fst (fst (snd t0)))) (snd (fst (snd t0))) (snd (snd (snd t0))) (fst (snd (snd t0)))).
  { intros t0 Ht0. eapply move; [apply (rk_array _ _ _ _ (Hrecs t0 Ht0))|exact G04|apply (rec_used n nr w T b _ _ t0 HR Ht0)|]. intros x Hx. apply Hz. apply in_or_app. left. eapply HinT; eauto. }
  assert (DT : tree ws_codec D true td (fst t) (map rec_entry T) tf).
  { eapply tree_frame; [|exact Ht]. intros x Hx. eapply GD; [exact G14| |apply Hz; rewrite !in_app_iff; tauto]. rewrite (gr_cnt _ _ _ _ _ G1). apply occ_in in Hx. lia. }
  assert (DA : array_at u32_codec D aroot (contents 0 nr (ed_eras d)) f3 ab).
  { eapply move; [exact A3|exact G4| |]; intros x Hx; [rewrite C3; apply occ_in; right; rewrite !in_app_iff in *; tauto|apply Hz; rewrite !in_app_iff in *; tauto]. }
  assert (Hcap : forall x, In x used -> x < n).
  { intros x Hx. unfold used, ab in Hx. cbn [In] in Hx. rewrite !in_app_iff in Hx.
    pose proof (gr_free _ _ _ _ _ G1 x) as Y1. pose proof (gr_free _ _ _ _ _ G3 x) as Y3. pose proof (gr_free _ _ _ _ _ G4 x) as Y4. rewrite in_app_iff in Y3.
    pose proof (ai_used _ _ _ _ _ _ _ _ (re_eras _ _ _ _ _ _ _ HR) x) as Z1.
    destruct Hx as [Hx|[Hx|[Hx|[[[Hx|Hx]|Hx]|Hx]]]]; [lia| |apply Y1; auto|apply Z1; auto|apply Y3; auto|apply Y3; auto|apply Y4; auto].
    apply in_flat_map in Hx as (t0 & Ht0 & Hx). apply (rk_lt _ _ _ _ (Hrecs t0 Ht0)). exact Hx. }
  assert (HNs : forall a1 a2 a3 : list N, NoDup (a1 ++ a2 ++ a3) -> NoDup a2).
  { intros a1 a2 a3 H. apply NoDup_app_iff_local in H as (_ & H & _). apply NoDup_app_iff_local in H. tauto. }
  assert (NDt : NoDup tf) by (apply (HNs (0 :: flat_map rec_blocks T) tf ((ab ++ f3) ++ sms)); exact HN).
  assert (NDa : NoDup (ab ++ f3)) by (apply (HNs ((0 :: flat_map rec_blocks T) ++ tf) (ab ++ f3) sms); rewrite <- app_assoc; exact HN).
  assert (NDs : forall t0, In t0 T -> NoDup (rec_blocks t0)).
  { intros t0 Ht0. apply in_split in Ht0 as (T1 & T2 & ->). unfold used in HN. rewrite flat_map_app in HN. cbn [flat_map] in HN.
    apply (HNs (0 :: flat_map rec_blocks T1) (rec_blocks t0) (flat_map rec_blocks T2 ++ tf ++ (ab ++ f3) ++ sms)). rewrite <- !app_assoc in *. exact HN. }
  assert (Emap : map fst (map rec_set T) = map rec_entry T) by (rewrite map_map; reflexivity).
  exists sb, (map rec_set T), (contents 0 nr (ed_eras d)). rewrite Emap, Ekeys.
  assert (rd : forall V (c : codec V) root vs foot blocks, array_at c D root vs foot blocks -> NoDup (blocks ++ foot) -> (forall x, In x (blocks ++ foot) -> x < n) ->
     readable_array c (fun x => if x <? n then Some (D x) else None) D n root vs).
  { intros V c root vs foot blocks. apply (readable_from n 1 nr Hn Hnr Hv1 (mkcdoc (CacheIo_Model.mkcirsb [] 0 nr [] 0) [] [])). reflexivity. }
  conj.
  - exact Rsb.
  - exact Hsb.
  - repeat split.
  - reflexivity.
  - reflexivity.
  - reflexivity.
  - reflexivity.
  - exists td, tf. conj; auto. intros x Hx. assert (Hx' : x < n) by (apply Hcap; unfold used; right; rewrite !in_app_iff; tauto). split; auto. destruct (N.ltb_spec x n); [auto|lia].
  - apply HR.
  - apply Forall_forall. intros s0 Hs0. apply in_map_iff in Hs0 as (t0 & <- & Ht0). pose proof (Hrecs t0 Ht0) as [R1 R2 R3 R4 R5 R6 R0 R7]. cbn [rec_set rec_entry fst snd]. split; [|exact R7].
    unfold readable_set. conj; auto. eapply rd; [apply (DS t0 Ht0)|apply (NDs t0 Ht0)|]. intros x Hx. apply Hcap. unfold used. right. apply in_or_app. left. eapply HinT; eauto.
  - intros m Hm. apply (re_keys _ _ _ _ _ _ _ HR). apply in_map. exact Hm.
  - eapply rd; [exact DA|exact NDa|]. intros x Hx. apply Hcap. unfold used. right. rewrite !in_app_iff in *. tauto.
  - rewrite contents_len. auto.
  - rewrite Hnd. intros i Hi. rewrite contents_nth by auto. unfold value_at, doc_era.
    rewrite <- (map_id (ed_eras d)) at 1. rewrite (map_ext (fun e : N * N => e) (fun e => (fst e, snd e))) by (intros []; reflexivity). rewrite (assoc_find fst snd). destruct (find _ (ed_eras d)); reflexivity.
  - exists (map (fun t0 : N * wrec => snd (snd t0)) T), td, tf, ab, f3, sms.
    assert (Efm : flat_map (fun bl : list N * list N => fst bl ++ snd bl) (map (fun t0 : N * wrec => snd (snd t0)) T) = flat_map rec_blocks T).
    { clear. induction T as [|t0 T IH]; [reflexivity|]. cbn [map flat_map]. rewrite IH. reflexivity. }
    rewrite Efm. conj.
    + clear - DS. induction T as [|t0 T IH]; [constructor|]. cbn [map]. constructor; [apply (DS t0); left; auto|]. apply IH. intros; apply DS; right; auto.
    + exact DT.
    + exact DA.
    + cbn zeta. split; [exact HN|]. split; [exact Hcap|]. apply Hcounts; auto.
Qed.
End Fin.

(** A document of any number of writesets (with ranges in order) and eras, restored onto a device whose blocks can be
    written, for every batch size and previous contents: restore either succeeds, and then the
    eras were in order and the device says what the document says ([era_restored]): the
    superblock, every writeset with no marked block lost (and none added, unless a range
    crosses a word boundary, see C35), the era of every block, and the metadata space map
    counts exactly the blocks in use; or it reports an error, because the metadata device is
    full, the eras are out of order or past the end, or a writeset has no blocks or a range
    across a word boundary.  It never panics. *)
Theorem C58_restore : forall d good junk nr batch doc w r,
  let n := N.min nr (255 * 16320) in
  (forall b, b < n -> good b = true) -> (forall b, bytes (junk b) /\ nlen (junk b) = 4096) -> edoc_fits doc ->
  era_restore d good junk nr batch (edoc_events doc) = (w, r) ->
  match r with
  | Ok _ => eras_in_order doc /\ era_restored (wb_disk w) n doc /\ wb_queue w = []
  | Err => exhausted n (W32 - 1) w \/ ~ eras_in_order doc \/ Exists awkward (ed_sets doc)
  | Panic => False
  end.
Proof.
  intros d good junk nr0 batch doc w r n Hg Hj Hfit E. pose proof Hfit as (F1 & F2 & F3 & F4 & F5 & F6).
  assert (Hn : n < 2 ^ 64) by (unfold n; lia). set (nr := ei_nr_blocks (ed_sb doc)) in *.
  enough (HW : wp (evisits (edoc_events doc) erest_new) (wb_new d good (core_metadata_sm nr0 (W32 - 1)) batch junk)
    (fun w _ => eras_in_order doc /\ era_restored (wb_disk w) n doc /\ wb_queue w = [])
    (fun w => exhausted n (W32 - 1) w \/ doc_bad doc)).
  { unfold era_restore in E. unfold wp in HW. rewrite E in HW. destruct r; [exact HW|exact HW|exact HW]. }
  clear E w r. unfold edoc_events. cbn [app evisits]. apply wp_bind. cbn [evisit]. unfold era_superblock_b, in_esec. cbn [er_sec erest_new esec_eqb].
  unfold core_metadata_sm. change (N.of_nat MAX_METADATA_BITMAPS * ENTRIES_PER_BITMAP) with (255 * 16320). fold n.
  change (core_sm_for n (W32 - 1)) with (sm_new n (W32 - 1)). set (w0 := wb_new _ _ _ _ _).
  assert (I0 : sm_inv n (W32 - 1) (wb_sm w0)) by (apply sm_new_inv; unfold W32; lia).
  unfold wb_alloc. apply wp_bind, wp_bind. unfold wp at 1. destruct (wb_alloc_loc w0) as [w [b| |]] eqn:Ea.
  2:{ pose proof (wb_alloc_loc_spec n (W32 - 1) w0 w Err I0 Ea) as (_ & _ & _ & _ & _ & _ & _ & [(b & X & _)|(_ & H1 & H2 & _)]); [discriminate|].
      left. left. rewrite H2. exact H1. }
  2:{ pose proof (wb_alloc_loc_spec n (W32 - 1) w0 w Panic I0 Ea) as (_ & _ & _ & _ & _ & _ & _ & [(b & X & _)|(X & _)]); discriminate. }
  destruct (first_block d good junk n batch w b Ea Hn Hg Hj) as (-> & Hn0 & He & HC & Hc).
  unfold wp at 1. cbn [b_loc N.eqb negb]. apply wp_ret. fold nr. cbn [er_sets erest_new].
  assert (HR : RE n nr w [] (abb_new u32_codec nr) [] []).
  { constructor; auto.
    - split; [exact HC|intros ? []].
    - apply (AInv_new n Hn u32_codec _ 0 u32_size). change (array_per u32_codec) with 1018. lia.
    - reflexivity.
    - exact I.
    - cbn. tauto.
    - intros x. rewrite Hc. cbn [flat_map abb_new abb_blocks app occ]. rewrite N.add_0_r. reflexivity.
    - intros x. rewrite Hc. destruct (x =? 0); lia. }
  change (@nil (N * writeset)) with (map rec_entry []).
  eapply (sets_wp n nr Hn F2 doc Hfit) with (ss := []) (kvs := []); [auto|reflexivity|exact HR|].
  intros w2 T2 HR2. cbn [evisits]. eapply wp_step; [reflexivity|].
  change (set_esec ESEraArray (mker (Some (ed_sb doc)) (map rec_entry T2) None (Some (abb_new u32_codec nr)) ESSuperblock))
    with (mker (Some (ed_sb doc)) (map rec_entry T2) None (Some (abb_new u32_codec nr)) ESEraArray).
  eapply (eras_wp n nr Hn F2 doc eq_refl Hfit) with (es := []); [auto|reflexivity|exact HR2|].
  intros w3 b3 HR3. cbn [evisits]. eapply wp_step; [reflexivity|].
  change (set_esec ESSuperblock (mker (Some (ed_sb doc)) (map rec_entry T2) None (Some b3) ESEraArray)) with (mker (Some (ed_sb doc)) (map rec_entry T2) None (Some b3) ESSuperblock).
  apply wp_bind. cbn [evisit].
  eapply wp_mono; [apply (era_finalize_wp n nr Hn F2 doc eq_refl Hfit w3 T2 b3 HR3)| |].
  - unfold n in *. lia.
  - intros w4 r4 (A & B & C & D). unfold in_esec. rewrite D. cbn [esec_eqb]. unfold wp, bindst, ret. auto.
  - intros w4 Hx. left. exact Hx.
Qed.
Print Assumptions C58_restore.

(** ** Reading it back *)
Lemma same_increasing : forall a b, increasing a -> increasing b -> (forall x, In x a <-> In x b) -> a = b.
Proof.
  induction a as [|x a IH]; intros [|y b] Ha Hb H; auto.
  - exfalso. apply (H y). left. auto.
  - exfalso. apply (H x). left. auto.
  - apply increasing_strong in Ha as [A1 A2]. apply increasing_strong in Hb as [B1 B2].
    assert (x = y).
    { destruct (proj1 (H x) (or_introl eq_refl)) as [|Hx]; auto. destruct (proj2 (H y) (or_introl eq_refl)) as [|Hy]; auto. apply B1 in Hx. apply A1 in Hy. lia. }
    subst y. f_equal. apply IH; auto. intros z. split; intros Hz.
    + destruct (proj1 (H z) (or_intror Hz)) as [->|]; auto. apply A1 in Hz. lia.
    + destruct (proj2 (H z) (or_intror Hz)) as [->|]; auto. apply B1 in Hz. lia.
Qed.
Lemma marked_below : forall rs lo nr x, marked_ranges lo nr rs -> marked rs x -> x < nr.
Proof.
  induction rs as [|[b l] rs IH]; intros lo nr x H (b' & l' & Hin & Hx); [destruct Hin|]. cbn [marked_ranges] in H. destruct H as (H1 & H2 & H3 & H4).
  destruct Hin as [E|Hin]; [injection E as <- <-; lia|]. eapply IH; [exact H4|]. exists b', l'. auto.
Qed.
Lemma eras_listed (eras : list N) f : (forall i, i < nlen eras -> nth_error eras (N.to_nat i) = Some (f i)) ->
  map (fun vb : N * N => (snd vb, fst vb)) (combine eras (range 0 (nlen eras))) = map (fun i => (i, f i)) (range 0 (nlen eras)).
Proof.
  intros H. assert (He : eras = map f (range 0 (nlen eras))).
  { apply (nth_ext _ _ 0 0); [rewrite map_length, range_length; unfold nlen; lia|]. intros k Hk. specialize (H (N.of_nat k)). rewrite Nat2N.id in H.
    rewrite (nth_error_nth _ _ 0 (H ltac:(unfold nlen; lia))). rewrite (nth_indep _ 0 (f 0)) by (rewrite map_length, range_length; unfold nlen; lia).
    rewrite map_nth. f_equal. rewrite nth_range; unfold nlen; lia. }
  rewrite He at 1. generalize (range 0 (nlen eras)). clear. induction l as [|x l IH]; [reflexivity|]. cbn [map combine fst snd]. f_equal. exact IH.
Qed.
(** The eras with a writeset in the document are [a], ..., the current one. *)
Definition eras_from (d : edoc) (a : N) : Prop := forall e, In e (map ew_era (ed_sets d)) <-> a <= e <= ei_current_era (ed_sb d).

(** Dumping restored metadata of a device with blocks: the writesets of the document in the
    order of their eras, each with ranges that cover exactly the marked blocks, in order and
    as large as possible; and the era of every block. *)
Theorem C58_dump : forall D n d a repair,
  n < 2 ^ 64 -> edoc_fits d -> ~ Exists awkward (ed_sets d) -> 0 < ei_nr_blocks (ed_sb d) -> eras_from d a -> a <= ei_current_era (ed_sb d) ->
  era_restored D n d ->
  exists s sets, era_read_superblock D 0 = Ok s /\
    era_dump (fun b => if b <? n then Some (D b) else None) n s false repair =
      Ok (sets, map (fun i => (i, doc_era d i)) (range 0 (ei_nr_blocks (ed_sb d)))) /\
    map fst sets = range a (ei_current_era (ed_sb d) + 1) /\
    Forall (fun er => exists m, In m (ed_sets d) /\ ew_era m = fst er /\ separated (map (fun r => (fst r, fst r + snd r)) (snd er)) /\
      forall x, covered (map (fun r => (fst r, fst r + snd r)) (snd er)) x <-> marked (ew_marked m) x) sets.
Proof.
  intros D n d a repair Hn (F1 & F2 & F3 & F4 & F5 & F6) Haw Hpos Hfrom Hcur (s & sets & eras & Rs & Rr & (S1 & S2 & S3) & Sv & Sc & Sw & Ssn & Ht & Hinc & Hsets & Hall & Ha & Hl & Hnth & _).
  set (eng := fun b => if b <? n then Some (D b) else None) in *.
  assert (Ekeys : map fst (map fst sets) = range a (ei_current_era (ed_sb d) + 1)).
  { apply same_increasing; [exact Hinc|apply range_increasing|]. intros e. rewrite in_range. split.
    - intros He. apply in_map_iff in He as (kv & <- & He). apply in_map_iff in He as (t & <- & He). rewrite Forall_forall in Hsets. destruct (Hsets t He) as (_ & m & Hm & Em & _).
      rewrite Em. assert (In (ew_era m) (map ew_era (ed_sets d))) as Hi by (apply in_map; auto). apply Hfrom in Hi. lia.
    - intros He. assert (Hi : In e (map ew_era (ed_sets d))) by (apply Hfrom; lia). apply in_map_iff in Hi as (m & <- & Hm). apply Hall. exact Hm. }
  assert (Eall : all_sets s (map fst sets) = map fst sets) by (unfold all_sets; rewrite Sw; cbn [ws_root N.eqb]; apply app_nil_r).
  assert (Eord : get_writesets_ordered eng n s repair = Ok (map fst sets)).
  { destruct Ht as (depth & foot & HT & HN & Hf). unfold get_writesets_ordered.
    rewrite (Props_Walker.C54_btree_to_map ws_codec repair eng D depth _ _ foot n HT HN Hinc Hn Hf). cbn [bind].
    rewrite <- Eall at 2. apply (EraDump_Proofs.order_ok s (map fst sets) a); [rewrite S3; exact F3|rewrite S3; lia|rewrite Eall, S3; exact Ekeys]. }
  assert (Hds : exists out, dump_sets eng n repair (map fst sets) = Ok out /\ map fst out = map fst (map fst sets) /\
    Forall (fun er => exists m, In m (ed_sets d) /\ ew_era m = fst er /\ separated (map (fun r => (fst r, fst r + snd r)) (snd er)) /\
      forall x, covered (map (fun r => (fst r, fst r + snd r)) (snd er)) x <-> marked (ew_marked m) x) out).
  { clear - Hsets Haw F4 Hn. induction sets as [|t sets IH]; [exists []; cbn; conj; auto|].
    apply Forall_cons_iff in Hsets as [(Hr & m & Hm & E1 & E2 & E3 & E4) Hsets]. destruct (IH Hsets) as (out & O1 & O2 & O3). destruct t as [[e ws] words]. cbn [fst snd] in *.
    assert (Hna : ~ awkward m) by (intros X; apply Haw; apply Exists_exists; eauto). specialize (E4 Hna).
    rewrite Forall_forall in F4. destruct (F4 m Hm) as (B1 & B2 & B3).
    destruct (Props_Era.C36_dump_writeset eng D n ws words repair Hn Hr) as (rs & R1 & R2 & R3).
    { destruct (bit_at 64 words (2 ^ 32 - 1)) eqn:Eb; auto. apply E4 in Eb. apply (marked_below _ _ _ _ B3) in Eb. lia. }
    exists ((e, rs) :: out). cbn [map fst dump_sets]. rewrite R1. cbn [bind]. rewrite O1. cbn [bind]. rewrite O2. conj; auto. constructor; auto.
    exists m. cbn [fst snd]. conj; auto. intros x. rewrite R3. unfold marks. split.
    - intros [_ Hx]. auto.
    - intros Hx. split; [rewrite E2; apply (marked_below _ _ _ _ B3 Hx)|auto]. }
  destruct Hds as (out & O1 & O2 & O3). exists s, out. conj; auto.
  - unfold era_dump. rewrite Eord. cbn [bind andb]. unfold dump_metadata. rewrite Eord. cbn [bind]. rewrite O1. cbn [bind].
    rewrite (EraDump_Proofs.dump_eras_ok eng D n repair _ eras physical_era Ha Hn); [|intros ->; unfold nlen in Hl; cbn in Hl; lia|rewrite Hl; exact F2]. cbn [bind]. unfold physical_era.
    rewrite <- Hl in Hnth |- *. rewrite (eras_listed eras (doc_era d) Hnth). reflexivity.
  - rewrite O2. exact Ekeys.
Qed.
Print Assumptions C58_dump.

(** era_invalidate on restored metadata: the blocks the document marks in an era from [t] on;
    and, when its writesets do not reach back to [t], those whose era is at least [t]. *)
Theorem C58_invalidate : forall D n d t,
  n < 2 ^ 64 -> edoc_fits d -> ~ Exists awkward (ed_sets d) -> ei_nr_blocks (ed_sb d) + 64 <= 2 ^ 32 ->
  Forall (fun m => ew_bits m <= ei_nr_blocks (ed_sb d)) (ed_sets d) ->
  era_restored D n d ->
  exists s rs, era_read_superblock D 0 = Ok s /\ era_invalidate (fun b => if b <? n then Some (D b) else None) n s t = Ok rs /\ separated rs /\
    forall x, covered rs x <->
      (exists m, In m (ed_sets d) /\ t <= ew_era m /\ marked (ew_marked m) x) \/
      (x < ei_nr_blocks (ed_sb d) /\ ed_sets d <> [] /\ Forall (fun m => t < ew_era m) (ed_sets d) /\ t <= doc_era d x).
Proof.
  intros D n d t Hn (F1 & F2 & F3 & F4 & F5 & F6) Haw Hb64 Hsm (s & sets & eras & Rs & Rr & (S1 & S2 & S3) & Sv & Sc & Sw & Ssn & Ht & Hinc & Hsets & Hall & Ha & Hl & Hnth & _).
  set (eng := fun b => if b <? n then Some (D b) else None) in *. pose proof Hsets as HF. rewrite Forall_forall in HF, F4, Hsm.
  destruct (Props_Era.C37_invalidate_partial eng D n s sets eras t Hn) as (rs & E & Hs & Hc); auto.
  - rewrite S2. exact Hb64.
  - apply Forall_forall. intros u Hu. destruct (HF u Hu) as (Hr & m & Hm & E1 & _). split; auto. rewrite E1. apply F4. exact Hm.
  - rewrite Hl, S2. lia.
  - exists s, rs. conj; auto. intros x. rewrite Hc, S2.
    assert (Hbit : forall u m, In u sets -> In m (ed_sets d) -> same_set m (fst (fst u)) (snd (fst u)) (snd u) -> (bit_at 64 (snd u) x = true <-> marked (ew_marked m) x)).
    { intros u m Hu Hm (E1 & E2 & E3 & E4). split; auto. apply E4. intros X. apply Haw. apply Exists_exists. eauto. }
    assert (Hsame : forall u m, In u sets -> In m (ed_sets d) -> ew_era m = fst (fst u) -> same_set m (fst (fst u)) (snd (fst u)) (snd u)).
    { intros u m Hu Hm Em. destruct (HF u Hu) as (_ & m' & Hm' & Hs'). replace m with m'; auto. pose proof Hs' as (E1 & _).
      clear - F5 Hm Hm' Em E1. rewrite E1 in Em. revert F5 Hm Hm' Em. generalize (ed_sets d). induction l as [|q l IH]; intros F5 Hm Hm' Em; [destruct Hm|]. cbn [map] in F5. inversion F5 as [|? ? X1 X2]; subst.
      destruct Hm as [->|Hm], Hm' as [->|Hm']; auto; exfalso; apply X1; [rewrite Em|rewrite <- Em]; apply in_map; auto. }
    assert (Hget : forall m, In m (ed_sets d) -> exists u, In u sets /\ fst (fst u) = ew_era m).
    { intros m Hm. specialize (Hall m Hm). apply in_map_iff in Hall as (kv & Ek & Hk). apply in_map_iff in Hk as (u & <- & Hu). eauto. }
    assert (Hfirst : forall f, hd_error (map (fun u => fst (fst u)) sets) = Some f -> t < f -> ed_sets d <> [] /\ Forall (fun m => t < ew_era m) (ed_sets d)).
    { intros f Ef Hlt. destruct sets as [|u0 sets]; [discriminate|]. cbn [map hd_error] in Ef. injection Ef as <-. split.
      - destruct (HF u0 (or_introl eq_refl)) as (_ & m & Hm & _). intros X. rewrite X in Hm. destruct Hm.
      - apply Forall_forall. intros m Hm. destruct (Hget m Hm) as (u & Hu & <-). cbn [map] in Hinc. apply increasing_strong in Hinc as [I1 _]. destruct Hu as [<-|Hu]; auto.
        assert (fst (fst u0) < fst (fst u)); [|lia]. apply I1. apply in_map_iff. exists (fst u). split; auto. apply in_map. auto. }
    split.
    + intros [Hx [(e & ws & words & Hin & He & Hbi)|(f & e & Hf & Hlt & Hn' & He)]].
      * left. destruct (HF _ Hin) as (_ & m & Hm & Hs'). exists m. cbn [fst snd] in Hs'. conj; auto; [destruct Hs' as (<- & _); auto|]. apply (Hbit _ m Hin Hm Hs'). exact Hbi.
      * right. destruct (Hfirst f Hf Hlt) as [X1 X2]. conj; auto. rewrite Hnth in Hn' by auto. injection Hn' as ->. auto.
    + intros [(m & Hm & He & Hmk)|(Hx & Hne & HF' & He)].
      * destruct (F4 m Hm) as (B1 & B2 & B3). pose proof (marked_below _ _ _ _ B3 Hmk) as Hlt. specialize (Hsm m Hm). split; [lia|]. left. destruct (Hget m Hm) as (u & Hu & Eu).
        exists (fst (fst u)), (snd (fst u)), (snd u). conj; [destruct u as [[? ?] ?]; exact Hu|lia|]. apply (Hbit u m Hu Hm (Hsame u m Hu Hm (eq_sym Eu))). exact Hmk.
      * split; auto. right. destruct (ed_sets d) as [|m0 ms] eqn:Em; [congruence|]. destruct sets as [|u0 sets]; [destruct (Hget m0 (or_introl eq_refl)) as (? & [] & _)|].
        exists (fst (fst u0)), (doc_era d x). cbn [map hd_error]. conj; auto. destruct (HF u0 (or_introl eq_refl)) as (_ & m & Hm & E1 & _). rewrite E1. rewrite Forall_forall in HF'. auto.
Qed.
Print Assumptions C58_invalidate.

(** The logical dump: for every block the latest era the document marks it in, or else what
    its era array says. *)
Theorem C58_logical_dump : forall D n d a repair,
  n < 2 ^ 64 -> edoc_fits d -> ~ Exists awkward (ed_sets d) -> 0 < ei_nr_blocks (ed_sb d) ->
  Forall (fun m => ew_bits m <= ei_nr_blocks (ed_sb d)) (ed_sets d) -> nlen (ed_sets d) < 2 ^ 32 - 1 ->
  eras_from d a -> a <= ei_current_era (ed_sb d) -> era_restored D n d ->
  exists s out, era_read_superblock D 0 = Ok s /\
    era_dump (fun b => if b <? n then Some (D b) else None) n s true repair = Ok ([], out) /\
    map fst out = range 0 (ei_nr_blocks (ed_sb d)) /\
    Forall (fun be =>
      (exists m, In m (ed_sets d) /\ marked (ew_marked m) (fst be) /\ snd be = ew_era m /\
                 forall m', In m' (ed_sets d) -> marked (ew_marked m') (fst be) -> ew_era m' <= ew_era m) \/
      ((forall m, In m (ed_sets d) -> ~ marked (ew_marked m) (fst be)) /\ snd be = doc_era d (fst be))) out.
Proof.
  intros D n d a repair Hn (F1 & F2 & F3 & F4 & F5 & F6) Haw Hpos Hsm Hcount Hfrom Hcur (s & sets & eras & Rs & Rr & (S1 & S2 & S3) & Sv & Sc & Sw & Ssn & Ht & Hinc & Hsets & Hall & Ha & Hl & Hnth & _).
  set (eng := fun b => if b <? n then Some (D b) else None) in *. pose proof Hsets as HF. rewrite Forall_forall in HF, F4, Hsm.
  assert (Ekeys : map fst (map fst sets) = range a (ei_current_era (ed_sb d) + 1)).
  { apply same_increasing; [exact Hinc|apply range_increasing|]. intros e. rewrite in_range. split.
    - intros He. apply in_map_iff in He as (kv & <- & He). apply in_map_iff in He as (t & <- & He). destruct (HF t He) as (_ & m & Hm & Em & _).
      rewrite Em. assert (In (ew_era m) (map ew_era (ed_sets d))) as Hi by (apply in_map; auto). apply Hfrom in Hi. lia.
    - intros He. assert (Hi : In e (map ew_era (ed_sets d))) by (apply Hfrom; lia). apply in_map_iff in Hi as (m & <- & Hm). apply Hall. exact Hm. }
  assert (Eall : all_sets s (map fst sets) = map fst sets) by (unfold all_sets; rewrite Sw; cbn [ws_root N.eqb]; apply app_nil_r).
  assert (Hne : sets <> []).
  { intros ->. cbn [map] in Ekeys. rewrite range_cons in Ekeys by lia. discriminate. }
  assert (Hlen : nlen sets < 2 ^ 32 - 1).
  { assert (length (map fst (map fst sets)) <= length (map ew_era (ed_sets d)))%nat as HL.
    { apply NoDup_incl_length; [apply increasing_NoDup, Hinc|]. intros e He. rewrite Ekeys in He. apply in_range in He. apply Hfrom. lia. }
    rewrite !map_length in HL. unfold nlen in *. lia. }
  assert (Hmk : forall u m x, In u sets -> In m (ed_sets d) -> same_set m (fst (fst u)) (snd (fst u)) (snd u) -> (marks (snd (fst u)) (snd u) x <-> marked (ew_marked m) x)).
  { intros u m x Hu Hm (E1 & E2 & E3 & E4). unfold marks. split.
    - intros [_ Hx]. apply E4; auto. intros X. apply Haw. apply Exists_exists. eauto.
    - intros Hx. split; auto. rewrite E2. destruct (F4 m Hm) as (_ & _ & B3). apply (marked_below _ _ _ _ B3 Hx). }
  assert (Hsame : forall m, In m (ed_sets d) -> exists u, In u sets /\ same_set m (fst (fst u)) (snd (fst u)) (snd u)).
  { intros m Hm. pose proof (Hall m Hm) as Hi. apply in_map_iff in Hi as (kv & Ek & Hk). apply in_map_iff in Hk as (u & <- & Hu). exists u. split; auto.
    destruct (HF u Hu) as (_ & m' & Hm' & Hs'). replace m with m'; auto. pose proof Hs' as (E1 & _). rewrite E1 in Ek.
    clear - F5 Hm Hm' Ek. revert F5 Hm Hm'. generalize (ed_sets d). induction l as [|q l IH]; intros F5 Hm Hm'; [destruct Hm|]. cbn [map] in F5. inversion F5 as [|? ? X1 X2]; subst.
    destruct Hm as [->|Hm], Hm' as [->|Hm']; auto; exfalso; apply X1; [rewrite <- Ek|rewrite Ek]; apply in_map; auto. }
  destruct (Props_Era.C38_logical_dump eng D n s (map fst sets) sets eras a repair Hn) as (out & E & O1 & O2); auto.
  - rewrite S3. exact F3.
  - rewrite Eall, S3. exact Ekeys.
  - apply Forall_forall. intros u Hu. destruct (HF u Hu) as (Hr & m & Hm & Hs'). pose proof Hs' as (E1 & E2 & E3 & E4). conj; auto.
    + intros x Hx. destruct (bit_at 64 (snd u) x) eqn:Eb; auto. assert (marked (ew_marked m) x) as Hq.
      { apply E4; auto. intros X. apply Haw. apply Exists_exists. eauto. }
      destruct (F4 m Hm) as (_ & _ & B3). apply (marked_below _ _ _ _ B3) in Hq. lia.
    + rewrite E2, S2. apply Hsm. exact Hm.
  - rewrite Hl. auto.
  - rewrite S2. lia.
  - assert (Eord : get_writesets_ordered eng n s repair = Ok (map fst sets)).
    { destruct Ht as (depth & foot & HT & HN & Hf). unfold get_writesets_ordered.
      rewrite (Props_Walker.C54_btree_to_map ws_codec repair eng D depth _ _ foot n HT HN Hinc Hn Hf). cbn [bind].
      rewrite <- Eall at 2. apply (EraDump_Proofs.order_ok s (map fst sets) a); [rewrite S3; exact F3|rewrite S3; lia|rewrite Eall, S3; exact Ekeys]. }
    exists s, out. rewrite S2 in O1. conj; auto.
    + unfold era_dump. rewrite Eord. cbn [bind andb]. destruct sets as [|u0 sets0]; [congruence|]. cbn [map negb]. rewrite E. reflexivity.
    + apply Forall_forall. intros [x e] Hin. rewrite Forall_forall in O2. specialize (O2 _ Hin). cbn [fst snd] in *.
      assert (Hx : x < ei_nr_blocks (ed_sb d)).
      { assert (In x (map fst out)) as Hi by (apply (in_map fst) in Hin; exact Hin). rewrite O1 in Hi. apply in_range in Hi. lia. }
      destruct O2 as [[(ws & words & Hw & Hmks) Hmax]|[Hno Hera]].
      * left. destruct (HF _ Hw) as (_ & m & Hm & Hs'). cbn [fst snd] in Hs'. exists m. pose proof Hs' as (E1 & _). conj; auto.
        -- apply (Hmk _ m x Hw Hm Hs'). exact Hmks.
        -- intros m' Hm' Hq. rewrite <- E1. apply Hmax. destruct (Hsame m' Hm') as (u & Hu & Hsu). exists (snd (fst u)), (snd u). pose proof Hsu as (<- & _).
           split; [destruct u as [[? ?] ?]; exact Hu|]. apply (Hmk u m' x Hu Hm' Hsu). exact Hq.
      * right. split; [|rewrite Hnth in Hera by auto; congruence]. intros m Hm Hq. destruct (Hsame m Hm) as (u & Hu & Hsu). apply (Hno (fst (fst u))). exists (snd (fst u)), (snd u).
        split; [destruct u as [[? ?] ?]; exact Hu|]. apply (Hmk u m x Hu Hm Hsu). exact Hq.
Qed.
Print Assumptions C58_logical_dump.

(** ** A document that meets the hypotheses, and what comes out. *)
Definition ex_edoc : edoc := mkedoc (mkeirsb [] 128 100 4) [mkeset 4 100 [(0, 1); (64, 36)]; mkeset 3 100 [(7, 2); (60, 4); (70, 1)]] [(0, 2); (8, 1); (99, 2)].
Lemma ex_fits : edoc_fits ex_edoc /\ eras_in_order ex_edoc /\ ~ Exists awkward (ed_sets ex_edoc) /\ eras_from ex_edoc 3.
Proof.
  unfold edoc_fits, eras_in_order, eras_from. cbn [ex_edoc ed_sb ed_sets ed_eras ei_block_size ei_nr_blocks ei_current_era]. conj; try reflexivity.
  - repeat constructor; cbn; try lia.
  - cbn. repeat constructor; cbn; intuition discriminate.
  - repeat constructor.
  - cbn. lia.
  - repeat constructor.
  - intros H. apply Exists_exists in H as (m & Hm & Ha). unfold awkward in Ha. destruct Hm as [<-|[<-|[]]]; cbn [ew_bits ew_marked] in Ha; destruct Ha as [Ha|Ha]; try discriminate; apply Ha; repeat constructor.
  - intros e. cbn. lia.
Qed.
Definition ex_run : wb * res erest := era_restore (fun _ => repeat 7 4096) (fun _ => true) (fun _ => repeat 0 4096) 20 4 (edoc_events ex_edoc).
Lemma ex_succeeds : (match snd ex_run with Ok _ => true | _ => false end) = true.
Proof. vm_compute. reflexivity. Qed.
Example C58_example :
  match era_read_superblock (wb_disk (fst ex_run)) 0 with
  | Ok s => let eng b := if b <? 20 then Some (wb_disk (fst ex_run) b) else None in
      match era_dump eng 20 s false false with
      | Ok (sets, eras) => sets = [(3, [(7, 2); (60, 4); (70, 1)]); (4, [(0, 1); (64, 36)])] /\ firstn 9 eras = [(0, 2); (1, 0); (2, 0); (3, 0); (4, 0); (5, 0); (6, 0); (7, 0); (8, 1)]
      | _ => False
      end /\ era_invalidate eng 20 s 4 = Ok [(0, 1); (64, 100)] /\ era_invalidate eng 20 s 2 = Ok [(0, 1); (7, 9); (60, 100)] /\
      match era_dump eng 20 s true false with Ok (_, eras) => map (fun i => nth i eras (0, 0)) [0; 7; 8; 9; 70; 99]%nat = [(0, 4); (7, 3); (8, 3); (9, 0); (70, 4); (99, 4)] | _ => False end
  | _ => False
  end.
Proof. vm_compute. repeat split. Qed.
Lemma ex_restored w r : era_restore (fun _ => repeat 7 4096) (fun _ => true) (fun _ => repeat 0 4096) 20 4 (edoc_events ex_edoc) = (w, r) ->
  (match r with Ok _ => true | _ => false end) = true -> era_restored (wb_disk w) 20 ex_edoc.
Proof.
  intros E E0. destruct ex_fits as (F & _).
  assert (Hj : forall b : N, bytes ((fun _ => repeat 0 4096) b) /\ nlen ((fun _ : N => repeat 0 4096) b) = 4096) by (intros b; split; [apply bytes_repeat0|reflexivity]).
  pose proof (C58_restore _ (fun _ => true) (fun _ => repeat 0 4096) 20 4 ex_edoc w r (fun _ _ => eq_refl) Hj F E) as H. cbn zeta in H. change (N.min 20 (255 * 16320)) with 20 in H.
  destruct r; [exact (proj1 (proj2 H))|discriminate E0|discriminate E0].
Qed.
Lemma ex_pair {A B} (p : A * B) (P : A -> B -> Prop) : (forall a b, p = (a, b) -> P a b) -> P (fst p) (snd p).
Proof. destruct p. auto. Qed.
Example C58_restored_example : era_restored (wb_disk (fst ex_run)) 20 ex_edoc.
Proof. generalize ex_succeeds. apply (ex_pair ex_run (fun w r => (match r with Ok _ => true | _ => false end) = true -> era_restored (wb_disk w) 20 ex_edoc)). exact ex_restored. Qed.

(** Two writesets of one era: the later one wins without a word, and the two blocks of the
    other stay counted in the metadata space map though nothing points to them - 11 blocks in
    use instead of the 9 the document without it takes. *)
Definition dup_edoc (sets : list eset) : edoc := mkedoc (mkeirsb [] 128 100 4) sets [].
Definition dup_run sets : wb * res erest := era_restore (fun _ => repeat 7 4096) (fun _ => true) (fun _ => repeat 0 4096) 20 4 (edoc_events (dup_edoc sets)).
Definition in_use (D : disk) : option (N * list (N * list (N * N))) :=
  match era_read_superblock D 0 with
  | Ok s => match smroot_unpack (es_metadata_sm_root s), era_dump (fun b => if b <? 20 then Some (D b) else None) 20 s false false with
            | Ok (r, _), Ok (sets, _) => Some (sr_nr_allocated r, sets)
            | _, _ => None
            end
  | _ => None
  end.
Theorem C58_duplicate_era_leaks_refuted :
  in_use (wb_disk (fst (dup_run [mkeset 4 100 [(0, 1)]; mkeset 4 100 [(7, 2)]]))) = Some (11, [(4, [(7, 2)])]) /\
  in_use (wb_disk (fst (dup_run [mkeset 4 100 [(7, 2)]]))) = Some (9, [(4, [(7, 2)])]).
Proof. split; vm_compute; reflexivity. Qed.
