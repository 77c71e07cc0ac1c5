(** cache_check: when it succeeds. *)
From Verif Require Import IoMany_Proofs Base Csum_Model Codec_Model Codec_Spec Codec_Proofs Pack_Proofs SpaceMap_Model Utils_Model Utils_Proofs Batcher_Model Builder_Model Builder_Spec BtreeBuild_Proofs Walker_Model Walker_Spec Walker_Proofs Props_Walker
  Array_Model Array_Spec Array_Proofs ArrayWalk_Proofs Props_Array Runs_Proofs SmCheck_Model SmCheck_Spec SmCheck_Proofs SmCheckTop_Proofs Props_SmCheck Repair_Model ThinCheck_Model ThinCheck_Spec ThinCheck_Proofs ThinFix_Proofs CacheCheck_Model CacheCheck_Spec CacheCheck_Proofs CacheSm_Proofs Props_CacheCheck
  CacheCmd_Model CacheCmd_Spec CacheCmd_Proofs CacheCmdFix_Proofs.

Lemma few nr (l : list N) : NoDup l -> (forall x, In x l -> x < nr) -> nlen l <= nr.
Proof. intros H1 H2. pose proof (nodup_lt_length nr l H1 H2). unfold nlen. lia. Qed.
Lemma tolerated_small count e : count = 0 \/ count = 1 -> (tolerated count e <-> e = Small count \/ e = Small 1) /\ (tolerated count e /\ ~ is_leak count e <-> e = Small count).
Proof.
  intros H. assert (T : tolerated count e <-> e = Small count \/ e = Small 1).
  { unfold tolerated, is_leak. destruct e as [x|].
    - destruct H as [-> | ->].
      + change (0 mod 256) with 0. split; [intros [[A _]|A]; [right; exact A|left; congruence]|intros [A|A]; [right; congruence|left; auto]].
      + change (1 mod 256) with 1. split; [intros [[A _]|A]; [right; exact A|left; congruence]|intros [A|A]; right; congruence].
    - split; [intros [[A _]|A]; [discriminate|exfalso; destruct H; subst; lia]|intros [A|A]; discriminate]. }
  split; [exact T|]. rewrite T. unfold is_leak. split.
  - intros [[A|A] B]; [exact A|]. destruct H as [-> | ->]; [exfalso; auto|exact A].
  - intros A. split; auto. intros [B C]. subst count. congruence.
Qed.

Section Verdict.
Context (nr : N) (o : cc_opts) (readable : N -> bool) (d : disk) (sb : cache_sb) (m : cparts) (limit : N).
Notation eng := (dev nr readable d).
Notation inf := (cc_ignore_non_fatal o).
Context (Hd : dev_ok d) (HC : cache_with nr d (dev nr readable d) sb m) (HL : origin_limit sb limit).
Definition p_arrays : list N :=
  [0] ++ p_dirty_index m ++ p_dirty m ++ p_maps_index m ++ p_maps m ++ p_hints_index m ++ p_hints m ++ p_discards_index m ++ p_discards m.
Definition p_map : list N := p_large_index m ++ [sr_bitmap_root (p_sm m)] ++ map ie_blocknr (p_entries m).
Lemma used_split : p_used m = p_arrays ++ p_map.
Proof using. unfold p_used, p_arrays, p_map. rewrite <- !app_assoc. reflexivity. Qed.
Lemma eng_bytes b data : eng b = Some data -> b < nr /\ bytes data.
Proof using Hd. unfold dev. destruct (N.ltb_spec b nr); cbn [andb]; [|discriminate]. destruct (readable b); [|discriminate]. intros E. assert (data = d b) by congruence. subst. split; auto. apply Hd. Qed.
Lemma nr_pos : 0 < nr < 2 ^ 64.
Proof using HC. clear HL limit. destruct HC as (A & _ & _ & _ & _ & _ & _ & _ & _ & _ & _ & _ & _ & B & _). split; [|lia]. apply B. left. auto. Qed.

(** The mappings *)
Lemma maps_iff : exists sm errs, CacheCheck_Model.check_mappings eng nr inf sb = Ok (sm, errs) /\
  (errs = [] <-> bitset_fine eng (cs_cache_blocks sb) (p_dirty m) /\
     exists vss, Forall2 (reads_as cm_codec eng) (p_maps m) vss /\ table_fine (cs_version sb) limit (stored_dirty eng sb (p_dirty m)) (numbered 0 vss)).
Proof using Hd HC HL.
  pose proof nr_pos as Hnr.
  destruct HC as (A1 & A2 & A3 & [dm Tm] & Hdirty & _ & _ & _ & _ & _ & _ & He & HN & Hlt & Hm1 & Hm2).
  assert (HNm : NoDup (p_maps_index m ++ p_maps m)). { rewrite used_split in HN. unfold p_arrays in HN. apply nodup_pre in HN. do 3 apply nodup_post in HN. rewrite !app_assoc in HN. do 4 apply nodup_pre in HN. exact HN. }
  assert (HNd : NoDup (p_dirty_index m ++ p_dirty m)). { rewrite used_split in HN. unfold p_arrays in HN. apply nodup_pre in HN. apply nodup_post in HN. rewrite !app_assoc in HN. do 6 apply nodup_pre in HN. exact HN. }
  assert (Hpm : forall b, In b (p_maps_index m ++ p_maps m) -> b < nr) by (intros b Hb; apply Hlt; unfold p_used; rewrite !in_app_iff in *; tauto).
  assert (Hpd : forall b, In b (p_dirty_index m ++ p_dirty m) -> b < nr) by (intros b Hb; apply Hlt; unfold p_used; rewrite !in_app_iff in *; tauto).
  assert (H0 : ~ In 0 (p_maps_index m) /\ ~ In 0 (p_dirty_index m)).
  { unfold p_used in HN. inversion HN as [|? ? Hni _]; subst. cbn [app] in Hni. split; intros X; apply Hni; rewrite !in_app_iff; tauto. }
  assert (Hl1 : nlen (p_maps m) <= nr) by (apply few; [eapply nodup_post; exact HNm|intros; apply Hpm, in_or_app; auto]).
  assert (Hl2 : nlen (p_dirty m) <= nr) by (apply few; [eapply nodup_post; exact HNd|intros; apply Hpd, in_or_app; auto]).
  destruct Hdirty as [[Ev [Hb Hf]]|(Ev & root & Er & Hr0 & [dd Td])].
  - destruct (C34_version1 eng d inf nr sb limit dm (p_maps m) (p_maps_index m) Ev HL Tm (nodup_pre _ _ HNm) (nodup_post _ _ HNm) (proj1 H0) Hnr ltac:(lia)) as (sm & errs & E & HI).
    { intros b Hb'. split; [apply Hpm, in_or_app; auto|]. apply He. rewrite !in_app_iff. tauto. }
    { intros b data _. apply eng_bytes. }
    exists sm, errs. split; [exact E|]. rewrite HI, Ev. split.
    + intros (vss & X & Y). split; [rewrite Hb; intros [|i] b; discriminate|]. exists vss. split; auto. apply (fine1_any eng sb (p_dirty m)); auto.
    + intros (_ & vss & X & Y). exists vss. split; auto. apply (fine1_any eng sb (p_dirty m)); auto.
  - destruct (C34_version2 eng d inf nr sb limit root dm (p_maps m) (p_maps_index m) dd (p_dirty m) (p_dirty_index m) Ev Er HL Tm (nodup_pre _ _ HNm) (nodup_post _ _ HNm) (proj1 H0)
      Td (nodup_pre _ _ HNd) (nodup_post _ _ HNd) (proj2 H0)) as (sm & errs & E & HI); auto; try lia.
    { intros b Hb. unfold p_used in HN. apply nodup_post in HN. rewrite app_assoc in HN. apply NoDup_app_iff_local in HN as (_ & _ & HX).
      split; intros X; apply (HX b); rewrite !in_app_iff; auto. }
    { intros b Hb. split; [apply in_app_iff in Hb as [Hb|Hb]; [apply Hpm|apply Hpd]; apply in_or_app; auto|]. apply He. rewrite !in_app_iff in *. tauto. }
    { intros b data _. apply eng_bytes. }
    { intros b data a Hb. apply Hm2, in_or_app; auto. }
    exists sm, errs. split; [exact E|]. rewrite HI, Ev. change (dirty_bit eng sb (p_dirty m)) with (stored_dirty eng sb (p_dirty m)). apply and_iff_compat_r.
    pose proof (bitset_errors eng (cs_cache_blocks sb) (p_dirty m) 0) as HB. rewrite N.add_0_l in HB. rewrite HB. unfold bitset_fine. split; intros H i b Hb; destruct (H i b Hb); split; auto; lia.
Qed.
Lemma maps_counts sm : CacheCheck_Model.check_mappings eng nr inf sb = Ok (sm, []) -> counts_are nr sm ([0] ++ p_dirty_index m ++ p_dirty m ++ p_maps_index m ++ p_maps m).
Proof using Hd HC HL.
  pose proof nr_pos as Hnr. pose proof (start_counts nr Hnr) as S0. unfold CacheCheck_Model.check_mappings. destruct (limit_ok sb limit HL) as (ob & sl & E1 & E2). rewrite E1. cbn [bind]. rewrite E2.
  destruct HC as (A1 & A2 & A3 & Tm & Hdirty & _ & _ & _ & _ & _ & _ & He & HN & Hlt & _).
  rewrite used_split in HN. unfold p_arrays in HN. apply nodup_pre in HN. rewrite !app_assoc in HN. do 4 apply nodup_pre in HN. rewrite <- !app_assoc in HN.
  assert (Hpm : forall b, In b (p_maps_index m ++ p_maps m) -> b < nr) by (intros b Hb; apply Hlt; unfold p_used; rewrite !in_app_iff in *; tauto).
  assert (Hpd : forall b, In b (p_dirty_index m ++ p_dirty m) -> b < nr) by (intros b Hb; apply Hlt; unfold p_used; rewrite !in_app_iff in *; tauto).
  assert (Hl1 : nlen (p_maps m) <= nr) by (apply few; [|intros; apply Hpm, in_or_app; auto]; rewrite !app_assoc in HN; apply nodup_post in HN; exact HN).
  assert (Hl2 : nlen (p_dirty m) <= nr) by (apply few; [|intros; apply Hpd, in_or_app; auto]; rewrite !app_assoc in HN; do 2 apply nodup_pre in HN; apply nodup_post in HN; exact HN).
  destruct Hdirty as [[Ev [Hb Hf]]|(Ev & root & Er & Hr0 & Td)]; rewrite Ev.
  - change (1 =? 1) with true. cbv iota. rewrite Hb, Hf in *. cbn [app] in HN |- *.
    destruct (stage cm_codec inf nr d eng (mc1_visit limit) (check_sm nr) [0] (cs_mapping_root sb) (p_maps m) (p_maps_index m) (mkfb sl []) S0 Tm) as (sm' & Ew & Hcnt); auto.
    { intros b Hx. apply He. rewrite !in_app_iff. tauto. } { lia. }
    rewrite Ew. cbn [bind]. intros H. apply Ok_inj in H. assert (Es : sm' = sm) by congruence. subst sm'. apply Hcnt. congruence.
  - change (2 =? 1) with false. change (2 =? 2) with true. cbv iota. rewrite Er.
    assert (HN1 : NoDup ([0] ++ p_dirty_index m ++ p_dirty m)) by (rewrite !app_assoc in *; do 2 apply nodup_pre in HN; exact HN).
    destruct (stage u64_codec inf nr d eng (bv_visit (cs_cache_blocks sb)) (check_sm nr) [0] root (p_dirty m) (p_dirty_index m) (fun _ => None) S0 Td HN1) as (sm1 & Ew & Hcnt); auto.
    { intros b Hx. apply He. rewrite !in_app_iff. tauto. } { lia. }
    rewrite Ew. cbn [bind]. clear Ew. destruct (visit_array_blocks u64_codec eng _ _ _) as [dirty e1]. cbn [fst snd] in *. intros H.
    destruct e1 as [|e e1].
    2:{ inv_bind H. destruct a as [[s2 x2] e2]. apply Ok_inj in H. discriminate. }
    specialize (Hcnt eq_refl).
    destruct (stage cm_codec inf nr d eng (mc2_visit limit dirty) sm1 ([0] ++ p_dirty_index m ++ p_dirty m) (cs_mapping_root sb) (p_maps m) (p_maps_index m) (mkfb sl []) Hcnt Tm) as (sm' & Ew & Hcnt'); auto.
    { rewrite <- !app_assoc. exact HN. }
    { intros b Hx. apply He. rewrite !in_app_iff. tauto. } { lia. }
    rewrite Ew in H. cbn [bind] in H. cbn [app] in H. apply Ok_inj in H. assert (Es : sm' = sm) by congruence. subst sm'.
    rewrite <- !app_assoc in Hcnt'. apply Hcnt'. congruence.
Qed.

(** The hints and the discard bits *)
Lemma hints_ok sm : cc_skip_hints o = false -> counts_are nr sm ([0] ++ p_dirty_index m ++ p_dirty m ++ p_maps_index m ++ p_maps m) ->
  exists sm' errs, hints_part o eng sb sm = Ok (sm', errs) /\ (errs = [] <-> forall b, In b (p_hints m) -> exists hs, reads_as hint_codec eng b hs) /\
    (errs = [] -> counts_are nr sm' ([0] ++ p_dirty_index m ++ p_dirty m ++ p_maps_index m ++ p_maps m ++ p_hints_index m ++ p_hints m)).
Proof using HC.
  clear HL limit. intros Hs Hc. pose proof nr_pos as Hnr. destruct HC as (A1 & A2 & A3 & Tm & Hdirty & Hh & _ & _ & _ & _ & _ & He & HN & Hlt & _). unfold hints_part. rewrite Hs. cbn [negb andb].
  rewrite used_split in HN. unfold p_arrays in HN. apply nodup_pre in HN. rewrite !app_assoc in HN. do 2 apply nodup_pre in HN. rewrite <- !app_assoc in HN.
  destruct Hh as [[Hz [Hb Hf]]|(H1 & H2 & Th)].
  - replace (negb (cs_hint_root sb =? 0) && negb (cs_policy_hint_size sb =? 0)) with false by (destruct Hz as [-> | ->]; [reflexivity|symmetry; apply Bool.andb_false_r]).
    exists sm, []. rewrite Hb, Hf. cbn [app]. rewrite app_nil_r. conj; auto. split; auto. intros _ b [].
  - destruct (N.eqb_spec (cs_hint_root sb) 0); [contradiction|]. rewrite H2. change (4 =? 0) with false. change (4 =? 4) with true. cbn [negb andb].
    assert (Hl : nlen (p_hints m) <= nr). { apply few; [rewrite !app_assoc in HN; apply nodup_post in HN; exact HN|]. intros b Hb; apply Hlt; unfold p_used; rewrite !in_app_iff in *; tauto. }
    destruct (stage hint_codec inf nr d eng (fun (s : unit) _ _ => (s, true)) sm _ (cs_hint_root sb) (p_hints m) (p_hints_index m) tt Hc Th) as (sm' & Ew & Hcnt); auto.
    { rewrite <- !app_assoc. exact HN. } { intros b Hb; apply Hlt; unfold p_used; rewrite !in_app_iff in *; tauto. }
    { intros b Hx. apply He. rewrite !in_app_iff. tauto. } { lia. }
    rewrite Ew. cbn [bind]. eexists _, _. split; [reflexivity|]. pose proof (hint_errors eng (p_hints m) 0) as HE. rewrite N.add_0_l in HE. split; [exact HE|].
    rewrite <- !app_assoc in Hcnt. exact Hcnt.
Qed.
Lemma discards_ok sm : cc_skip_discards o = false -> counts_are nr sm ([0] ++ p_dirty_index m ++ p_dirty m ++ p_maps_index m ++ p_maps m ++ p_hints_index m ++ p_hints m) ->
  exists sm' errs, discards_part o eng sb sm = Ok (sm', errs) /\ (errs = [] <-> bitset_fine eng (cs_discard_nr_blocks sb) (p_discards m)) /\ (errs = [] -> counts_are nr sm' p_arrays).
Proof using HC.
  clear HL limit. intros Hs Hc. pose proof nr_pos as Hnr. destruct HC as (A1 & A2 & A3 & Tm & Hdirty & _ & Hh & _ & _ & _ & _ & He & HN & Hlt & _ & Hm2). unfold discards_part. rewrite Hs. cbn [negb andb].
  rewrite used_split in HN. apply nodup_pre in HN. unfold p_arrays in *.
  destruct Hh as [[Hz [Hb Hf]]|(H1 & Th)].
  - rewrite Hz. change (0 =? 0) with true. cbn [negb]. exists sm, []. rewrite Hb, Hf. cbn [app]. rewrite app_nil_r. conj; auto. split; auto. intros _ [|i] b; discriminate.
  - destruct (N.eqb_spec (cs_discard_root sb) 0); [contradiction|]. cbn [negb].
    assert (HNi : NoDup (p_discards_index m ++ p_discards m)) by (rewrite !app_assoc in HN; rewrite <- app_assoc in HN; apply nodup_post in HN; exact HN).
    assert (Hl : nlen (p_discards m) <= nr). { apply few; [eapply nodup_post; exact HNi|]. intros b Hb; apply Hlt; unfold p_used; rewrite !in_app_iff in *; tauto. }
    destruct (stage u64_codec inf nr d eng (bv_visit (cs_discard_nr_blocks sb)) sm _ (cs_discard_root sb) (p_discards m) (p_discards_index m) (fun _ => None) Hc Th) as (sm' & Ew & Hcnt); auto.
    { rewrite <- !app_assoc. exact HN. } { intros b Hb; apply Hlt; unfold p_used; rewrite !in_app_iff in *; tauto. }
    { intros b Hx. apply He. rewrite !in_app_iff. tauto. } { lia. }
    rewrite Ew. cbn [bind]. eexists _, _. split; [reflexivity|]. rewrite <- !app_assoc in Hcnt. split; [|exact Hcnt].
    destruct Th as [dep Th].
    assert (Hfo : forall b, In b (p_discards_index m) -> b < nr /\ eng b = Some (d b)).
    { intros b Hb. split; [apply Hlt; unfold p_used; rewrite !in_app_iff in *; tauto|]. apply He. rewrite !in_app_iff. tauto. }
    pose proof (C42_read_bitset_checked eng d inf nr (cs_discard_root sb) (cs_discard_nr_blocks sb) dep (p_discards m) (p_discards_index m) Th (nodup_pre _ _ HNi) Hfo (proj2 Hnr) ltac:(lia)
      ltac:(intros b data a Hb; apply Hm2, in_or_app; auto)) as HB.
    unfold read_bitset_checked in HB. rewrite (array_walk_index u64_codec inf eng (bv_visit (cs_discard_nr_blocks sb)) nr d dep _ (p_discards m) (p_discards_index m) _ Th (nodup_pre _ _ HNi) (proj2 Hnr) ltac:(lia) Hfo) in HB.
    destruct (visit_array_blocks u64_codec eng _ _ _) as [f es]. destruct HB as [_ ->]. cbn [snd].
    pose proof (bitset_errors eng (cs_discard_nr_blocks sb) (p_discards m) 0) as HB. rewrite N.add_0_l in HB. rewrite HB. unfold bitset_fine. split; intros H i b Hb; destruct (H i b Hb); split; auto; lia.
Qed.
Lemma sections_iff : cc_skips o = false ->
  (forall sm, sections nr o eng sb = Ok (sm, []) -> arrays_fine eng limit sb m /\ counts_are nr sm p_arrays) /\
  (arrays_fine eng limit sb m -> exists sm, sections nr o eng sb = Ok (sm, [])).
Proof using Hd HC HL.
  intros Hk. unfold cc_skips in Hk. apply Bool.orb_false_iff in Hk as [Hk Hk3]. apply Bool.orb_false_iff in Hk as [Hk1 Hk2].
  unfold sections, mappings_part. rewrite Hk1. destruct maps_iff as (sm1 & e1 & E1 & I1). rewrite E1. cbn [bind].
  destruct e1 as [|x e1].
  2:{ split.
      - intros sm H. inv_bind H. destruct a as [s2 e2]. inv_bind H. destruct a as [s3 e3]. apply Ok_inj in H. discriminate.
      - intros (X1 & X2 & _). assert (x :: e1 = []) by (apply I1; auto). discriminate. }
  destruct (hints_ok sm1 Hk2 (maps_counts sm1 E1)) as (sm2 & e2 & E2 & I2 & C2). rewrite E2. cbn [bind].
  destruct e2 as [|x e2].
  2:{ split.
      - intros sm H. inv_bind H. destruct a as [s3 e3]. apply Ok_inj in H. discriminate.
      - intros (_ & _ & X & _). apply I2 in X. discriminate. }
  destruct (discards_ok sm2 Hk3 (C2 eq_refl)) as (sm3 & e3 & E3 & I3 & C3). rewrite E3. cbn [bind app].
  destruct (proj1 I1 eq_refl) as [X1 X2]. pose proof (proj1 I2 eq_refl) as X3. split.
  - intros sm H. apply Ok_inj in H. assert (sm3 = sm /\ e3 = []) as [-> ->] by (split; congruence). split; [|auto]. unfold arrays_fine. conj; auto. apply I3. auto.
  - intros (_ & _ & _ & X). apply I3 in X. subst. exists sm3. auto.
Qed.
(** The space map *)
Lemma space_map_iff sm : counts_are nr sm p_arrays ->
  exists msm out, check_metadata_space_map nr eng inf (p_sm m) (as_core sm) = (msm, out) /\ sm_nr msm = nr /\
    (forall b, b < nr -> sm_counts msm b = used_count m b) /\
    (forall n lks, out = Ok (n, lks) -> check_low_ref_counts eng msm (p_entries m) = Ok (n, lks) /\ map_fine eng nr m true /\ (lks = [] -> map_fine eng nr m false)) /\
    (map_fine eng nr m true -> exists n lks, out = Ok (n, lks) /\ (map_fine eng nr m false -> lks = [])).
Proof using Hd HC.
  clear HL limit. intros (S1 & S2 & S3 & S4 & S5). pose proof nr_pos as Hnr.
  destruct HC as (A1 & A2 & A3 & _ & _ & _ & _ & _ & HI & [dep TL] & Hinc & He & HN & Hlt & _ & _).
  pose proof (eng_ok nr readable d Hd) as Hbk.
  assert (AC : sm_nr (as_core sm) = wsm_nr sm /\ sm_max (as_core sm) = wmax sm /\ forall b, sm_counts (as_core sm) b = wcount sm b) by (destruct sm; conj; auto; discriminate).
  destruct AC as (AC1 & AC2 & AC3).
  assert (V0 : core_valid (as_core sm)). { unfold core_valid. conj; [rewrite AC1, S1; unfold W64; lia|rewrite AC2, S2; lia|]. intros b Hb. rewrite AC3, AC2, S2, S5 by congruence. unfold in_count. destruct (in_dec _ _ _); lia. }
  pose proof HN as HN0. rewrite used_split in HN0.
  assert (F0 : fresh (as_core sm) p_map).
  { split; [eapply nodup_post; exact HN0|]. intros b Hb. rewrite AC1, S1, AC3. assert (Hbn : b < nr) by (apply Hlt; rewrite used_split; apply in_or_app; auto). split; auto.
    rewrite S5 by auto. unfold in_count. destruct (in_dec N.eq_dec b p_arrays); auto. apply NoDup_app_iff_local in HN0 as (_ & _ & HX). destruct (HX b); auto. }
  unfold p_map in F0. assert (En : sm_nr (as_core sm) = nr) by congruence.
  destruct (check_metadata_iff eng inf d (p_sm m) (as_core sm) dep (p_large m) (p_large_index m) (p_entries m) Hbk V0 TL Hinc) as (msm & out & E & (W1 & W2 & W3) & HQ); auto.
  { intros b Hb. apply He. rewrite !in_app_iff in *. tauto. }
  fold p_map in W3. rewrite En in E, W1, W3. exists msm, out. split; [exact E|]. split; [exact W1|].
  assert (HCn : forall b, b < nr -> sm_counts msm b = used_count m b).
  { intros b Hb. rewrite W3 by auto. rewrite AC3, S5 by auto. rewrite counted_in_dec by (eapply nodup_post; exact HN0). unfold used_count. rewrite used_split.
    change (if in_dec N.eq_dec b (p_arrays ++ p_map) then 1 else 0) with (in_count b (p_arrays ++ p_map)). rewrite in_count_app by exact HN0. reflexivity. }
  split; [exact HCn|].
  assert (H01 : forall b, used_count m b = 0 \/ used_count m b = 1) by (intros b; unfold used_count; destruct (in_dec _ _ _); auto).
  split.
  - intros n lks Ho. apply HQ in Ho as [HM Hlow]. split; [exact Hlow|]. pose proof Hlow as Hlow'. apply (check_low_iff msm eng _ n lks Hbk) in Hlow' as (ess & B1 & B2 & B3 & B4). rewrite W1 in *.
    assert (HLg : forall b v, In (b, v) (p_large m) -> b < nr /\ v = used_count m b).
    { intros b v Hin. destruct (HM b v Hin) as [X Y]. rewrite W1 in X. split; auto. rewrite <- HCn by auto. auto. }
    split.
    + exists ess. conj; auto. intros b e Hb Hee. specialize (B2 b e Hb Hee). rewrite HCn in B2 by auto. apply (proj1 (tolerated_small _ e (H01 b))) in B2. destruct B2; auto.
    + intros ->. exists ess. conj; auto. intros b e Hb Hee. left. apply (proj2 (tolerated_small _ e (H01 b))). specialize (B2 b e Hb Hee). rewrite HCn in B2 by auto. split; auto.
      rewrite <- HCn by auto. clear - B4 Hb Hee. destruct B4 as (is & _ & Hiff & HF). intros Hl. inversion HF; subst.
      assert (In (N.to_nat (b / 16320)) []) as []. { apply Hiff. exists b, e. conj; auto. rewrite N2Nat.id. reflexivity. }
  - intros (ess & B1 & B2 & B3).
    assert (HT : forall b e, b < sm_nr msm -> entry_of ess b = Some e -> tolerated (sm_counts msm b) e).
    { rewrite W1. intros b e Hb Hee. rewrite HCn by auto. apply (proj1 (tolerated_small _ e (H01 b))). destruct (B2 b e Hb Hee) as [|[_ ?]]; auto. }
    destruct (low_total msm eng (p_entries m) ess Hbk B1 HT) as (n & lks & Hlow). exists n, lks. split.
    + apply HQ. split; [|exact Hlow]. intros b v Hin. destruct (B3 b v Hin) as [X ->]. rewrite W1. auto.
    + intros (ess' & C1 & C2 & _). apply (check_low_iff msm eng _ n lks Hbk) in Hlow as (ess2 & D1 & _ & _ & (is & _ & Hiff & HF)).
      assert (Huniq : forall es1 es2, bitmaps_on eng (p_entries m) es1 -> bitmaps_on eng (p_entries m) es2 -> es1 = es2).
      { unfold bitmaps_on. clear. generalize (p_entries m) as ies. induction ies as [|ie ies IH]; intros es1 es2 H1 H2; inversion H1 as [|? e1 ? r1 X1 Y1]; subst; inversion H2 as [|? e2 ? r2 X2 Y2]; subst; [reflexivity|]. f_equal; [|apply IH; auto].
        destruct X1 as (x1 & b1 & t1 & P1 & P2 & P3 & P4), X2 as (x2 & b2 & t2 & Q1 & Q2 & Q3 & Q4). assert (x1 = x2) by congruence. subst x2. assert (b1 = b2) by congruence. congruence. }
      assert (ess2 = ess') by (apply Huniq; auto). subst ess2. destruct is as [|i is]; [inversion HF; auto|]. exfalso.
      assert (Hl : leaky (sm_counts msm) (sm_nr msm) ess' i) by (apply Hiff; left; auto). destruct Hl as (b & e & _ & Hb & Hee & [L1 L2]). rewrite W1 in Hb. rewrite HCn in L2 by auto.
      destruct (C2 b e Hb Hee) as [X|[X _]]; [|discriminate]. rewrite L2 in X. congruence.
Qed.
End Verdict.

(** The verdict *)
Lemma csb_good nr d eng sb m : cache_with nr d eng sb m -> csb_ok sb = true.
Proof.
  intros (_ & _ & _ & _ & [[E _]|(E & r & Er & Hr & _)] & _); unfold csb_ok; rewrite E; [reflexivity|]. rewrite Er. destruct (N.eqb_spec r 0); [contradiction|reflexivity].
Qed.
Lemma csb_there nr readable d sb m : cache_with nr d (dev nr readable d) sb m -> read_csb (dev nr readable d) = Ok sb.
Proof. intros (_ & A & B & _). unfold read_csb. rewrite A. exact B. Qed.

Section Whole.
Context (nr : N) (o : cc_opts) (readable writable : N -> bool) (d : disk) (sb : cache_sb) (m : cparts) (limit : N).
Notation eng := (dev nr readable d).
Notation inf := (cc_ignore_non_fatal o).
Context (Hd : dev_ok d) (HC : cache_with nr d (dev nr readable d) sb m) (HL : origin_limit sb limit) (Hs : cc_sb_only o = false) (Hk : cc_skips o = false).
Lemma run_finish : arrays_fine eng limit sb m -> map_fine eng nr m true ->
  exists msm n lks, cache_check nr o readable writable d = finish_cache nr o readable writable msm lks d /\ sm_nr msm = nr /\ (forall b, b < nr -> sm_counts msm b = used_count m b) /\
    check_low_ref_counts eng msm (p_entries m) = Ok (n, lks) /\ (map_fine eng nr m false -> lks = []).
Proof using Hd HC HL Hs Hk.
  intros HA HM. unfold cache_check. rewrite (csb_there _ _ _ _ _ HC), (csb_good _ _ _ _ _ HC), Hs, Hk. cbn [negb].
  destruct (sections_iff nr o readable d sb m limit Hd HC HL Hk) as [J1 J2]. destruct (J2 HA) as [sm Es]. rewrite Es. destruct (J1 sm Es) as [_ Hcnt].
  assert (exists rest, smroot_unpack (cs_metadata_sm_root sb) = Ok (p_sm m, rest)) as [rest Er] by (destruct HC; tauto). rewrite Er.
  destruct (space_map_iff nr o readable d sb m Hd HC sm Hcnt) as (msm & out & E & En & Ec & Q1 & Q2). rewrite E. destruct (Q2 HM) as (n & lks & -> & Hlk). exists msm, n, lks. conj; auto. apply (Q1 n lks eq_refl).
Qed.
Lemma accepts_sound d' : cache_check nr o readable writable d = (d', Ok tt) -> arrays_fine eng limit sb m /\ map_fine eng nr m (inf || cc_repairs o).
Proof using Hd HC HL Hs Hk.
  intros H. destruct (run_cases nr o readable writable d) as [[_ E]|(sb0 & sm & root & rest & msm & n & lks & E1 & _ & _ & _ & E2 & E3 & E4 & E5)].
  { rewrite H in E. destruct (E eq_refl); congruence. }
  rewrite (csb_there _ _ _ _ _ HC) in E1. assert (sb0 = sb) by congruence. subst sb0.
  destruct (sections_iff nr o readable d sb m limit Hd HC HL Hk) as [J1 _]. destruct (J1 sm E2) as [HA Hcnt]. split; [exact HA|].
  assert (exists rest, smroot_unpack (cs_metadata_sm_root sb) = Ok (p_sm m, rest)) as [rest' Er] by (destruct HC; tauto). rewrite Er in E3. assert (root = p_sm m) by congruence. subst root.
  destruct (space_map_iff nr o readable d sb m Hd HC sm Hcnt) as (msm' & out & E & En & Ec & Q1 & Q2). rewrite E in E4. assert (msm' = msm /\ out = Ok (n, lks)) as [-> ->] by (split; congruence).
  destruct (Q1 n lks eq_refl) as (_ & X & Y). destruct (inf || cc_repairs o) eqn:Eo; [exact X|]. apply Y. apply Bool.orb_false_iff in Eo as [O1 O2]. rewrite E5 in H.
  unfold finish_cache, fix_leaks in H. change (o_auto_repair (leak_opts o) || o_clear_needs_check (leak_opts o)) with (cc_repairs o) in H. rewrite O2 in H.
  change (o_ignore_non_fatal (leak_opts o)) with inf in H. rewrite O1 in H. destruct lks; [auto|discriminate].
Qed.
Lemma accepts_plain : cc_repairs o = false -> arrays_fine eng limit sb m -> map_fine eng nr m inf -> cache_check nr o readable writable d = (d, Ok tt).
Proof using Hd HC HL Hs Hk.
  intros Ho HA HM. assert (HM' : map_fine eng nr m true) by (destruct HM as (ess & A & B & C); exists ess; conj; auto; intros b e Hb He; destruct (B b e Hb He) as [|[_ ?]]; auto).
  destruct (run_finish HA HM') as (msm & n & lks & -> & _ & _ & _ & Hl). unfold finish_cache, fix_leaks. change (o_auto_repair (leak_opts o) || o_clear_needs_check (leak_opts o)) with (cc_repairs o). rewrite Ho.
  change (o_ignore_non_fatal (leak_opts o)) with inf. destruct inf; [destruct lks; reflexivity|]. rewrite (Hl HM). reflexivity.
Qed.
Lemma accepts_repair : cc_repairs o = true -> arrays_fine eng limit sb m -> map_fine eng nr m true -> (forall b, b = 0 \/ In b (map ie_blocknr (p_entries m)) -> writable b = true) ->
  exists d', cache_check nr o readable writable d = (d', Ok tt) /\ dev_ok d' /\ (forall b, b <> 0 -> ~ In b (map ie_blocknr (p_entries m)) -> d' b = d b) /\
    map_fine (dev nr readable d') nr m false.
Proof using Hd HC HL Hs Hk.
  intros Ho HA HM Hw. destruct (run_finish HA HM) as (msm & n & lks & -> & En & Ec & Hlow & _).
  pose proof HC as (_ & _ & _ & _ & _ & _ & _ & _ & _ & _ & _ & _ & HN & _).
  assert (HNe : NoDup (map ie_blocknr (p_entries m))) by (rewrite used_split in HN; unfold p_map in HN; do 3 apply nodup_post in HN; exact HN).
  assert (H0e : ~ In 0 (map ie_blocknr (p_entries m))). { unfold p_used in HN. inversion HN as [|? ? Hni _]; subst. cbn [app] in Hni. intros X. apply Hni. rewrite !in_app_iff. cbn [In]. rewrite ?in_app_iff. tauto. }
  assert (Hcw : forall b, writable b = true -> can_write (leak_opts o) writable b = true).
  { intros b Hb. unfold can_write. change (o_auto_repair (leak_opts o) || o_clear_needs_check (leak_opts o)) with (cc_repairs o). rewrite Ho, Hb. reflexivity. }
  destruct (C19_check_repair_check (fun b => (b <? nr) && readable b) (can_write (leak_opts o) writable) msm (p_entries m) d n lks Hd HNe) as (d1 & ess & ess' & R1 & R2 & R3 & R4 & R5 & R6 & R7 & _).
  { intros ie Hin. apply Hcw, Hw. right. apply in_map. exact Hin. }
  { exact Hlow. }
  change (SmCheck_Spec.reads (fun b => (b <? nr) && readable b) d) with eng in *. change (SmCheck_Spec.reads (fun b => (b <? nr) && readable b) d1) with (dev nr readable d1) in *.
  assert (Hlb : leak_bitmaps d lks) by (eapply low_leaks; eauto).
  assert (HF : fix_leaks nr (leak_opts o) readable writable msm lks d = (d1, Ok tt) \/ (lks = [] /\ forall b, d1 b = d b)).
  { unfold fix_leaks. change (o_auto_repair (leak_opts o) || o_clear_needs_check (leak_opts o)) with (cc_repairs o). rewrite Ho. destruct lks as [|lk lks']; [|left; exact R1]. right. split; auto. }
  assert (exists d1', fix_leaks nr (leak_opts o) readable writable msm lks d = (d1', Ok tt) /\ forall b, d1' b = d1 b) as (d1' & EF & Hsame).
  { destruct HF as [HF|[-> HF]]; [exists d1; auto|]. exists d. split; [reflexivity|]. intros b. symmetry. apply HF. }
  clear HF R1. destruct (fix_loose nr (leak_opts o) readable writable msm lks d Hd Hlb) as [D1 _]. rewrite EF in D1. cbn [fst] in D1.
  pose proof (fix_keeps_csb nr o readable writable msm lks d sb (csb_there _ _ _ _ _ HC) Hlb) as K0. rewrite EF in K0. cbn [fst] in K0.
  assert (Er1 : read_csb (dev nr readable d1') = Ok sb) by (rewrite (csb_same nr readable d d1') by exact K0; apply (csb_there _ _ _ _ _ HC)).
  unfold finish_cache. rewrite EF, Ho.
  assert (Hran : cache_sb_range (unflag sb)).
  { apply read_csb_in in Er1 as [Er1 _]. unfold cache_read_superblock in Er1. destruct (metadata_block_type (d1' 0)); try discriminate. inv_bind Er1. destruct a as [sb' rest]. apply Ok_inj in Er1. subst sb'.
    apply csb_unpack_range in E; [|apply D1]. clear - E. destruct sb; exact E. }
  assert (exists d2, clear_cache_flag nr o readable writable d1' = (d2, Ok tt) /\ dev_ok d2) as (d2 & EC & D2).
  { unfold clear_cache_flag. rewrite Er1. destruct (cs_needs_check sb); [|exists d1'; auto].
    destruct (Props_Codec.C05_cache_superblock d1' 0 (unflag sb) Hran) as (d2 & W1 & W2 & W3 & _). rewrite W1, (Hcw 0) by (apply Hw; auto). exists d2. split; auto.
    intros b. destruct (N.eq_dec b 0) as [->|Hb]; [|rewrite W3 by auto; apply D1].
    exact (csb_written _ _ _ _ Hran W1). }
  rewrite EC. exists d2. pose proof (clear_cache_changes nr o readable writable d1') as HX. rewrite EC in HX. cbn [fst] in HX. conj; auto.
  - intros b Hb Hn. rewrite HX by auto. rewrite Hsame. apply R2. intros X. apply in_map_iff in X as (lk & <- & Hin). apply Hn. apply R3; auto.
  - exists ess'. split.
    + clear - R5 HX Hsame H0e. unfold bitmaps_on in *. revert H0e R5. generalize ess'. induction (p_entries m) as [|ie ies IH]; intros es H0 HF; inversion HF as [|? e1 ? r1 X1 Y1]; subst; constructor.
      * destruct X1 as (x1 & b1 & t1 & P1 & P2 & P3 & P4). exists x1, b1, t1. conj; auto. rewrite <- P1. unfold dev. rewrite HX, Hsame by (intros X; apply H0; left; auto). reflexivity.
      * apply IH; auto. intros X. apply H0. right. auto.
    + assert (HM2 := HM). destruct HM as (ess2 & _ & _ & HLg). split; [|exact HLg].
      apply (check_low_iff msm (dev nr readable d1) _ 0 [] (eng_ok nr readable d1 ltac:(intros b; rewrite <- Hsame; apply D1))) in R7 as (ess3 & B1 & B2 & _ & (is & _ & Hiff & HF)). rewrite En in *.
      assert (Eu : ess3 = ess').
      { clear - B1 R5. unfold bitmaps_on in *. revert ess' ess3 B1 R5. generalize (p_entries m) as ies. induction ies as [|ie ies IH]; intros es1 es2 H1 H2; inversion H1 as [|? e1 ? r1 X1 Y1]; subst; inversion H2 as [|? e2 ? r2 X2 Y2]; subst; [reflexivity|]. f_equal; [|apply IH; auto].
        destruct X1 as (x1 & b1 & t1 & P1 & P2 & P3 & P4), X2 as (x2 & b2 & t2 & Q1 & Q2 & Q3 & Q4). assert (x1 = x2) by congruence. subst x2. assert (b1 = b2) by congruence. congruence. }
      subst ess3. intros b e Hb Hee. left. apply (proj2 (tolerated_small (used_count m b) e ltac:(unfold used_count; destruct (in_dec _ _ _); auto))). specialize (B2 b e Hb Hee). rewrite Ec in B2 by auto. split; auto.
      rewrite <- Ec by auto. intros Hl. inversion HF; subst. assert (In (N.to_nat (b / 16320)) []) as []. { apply Hiff. exists b, e. conj; auto. rewrite N2Nat.id. reflexivity. }
Qed.
End Whole.
