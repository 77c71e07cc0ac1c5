(** C60: era_check. *)
From Verif Require Import IoMany_Proofs Base Csum_Model Codec_Model Codec_Spec Codec_Proofs Pack_Proofs SpaceMap_Model Utils_Model Utils_Proofs Batcher_Model Builder_Model Builder_Spec Walker_Model Walker_Spec Walker_Proofs Props_Walker
  Array_Model Array_Spec Array_Proofs ArrayWalk_Proofs WritebackSel_Proofs ThinCheck_Model CacheCheck_Model CacheCheck_Spec CacheSm_Proofs CacheCmd_Model CacheCmd_Spec CacheCmd_Proofs CacheVerdict_Proofs Era_Spec EraIo_Model EraIo_Spec EraCmd_Model EraCmd_Spec EraCmd_Proofs
  Props_CacheCmdRestored.

(** On metadata whose tree of writesets and indexes are intact, era_check succeeds exactly if
    the version is known, every archived writeset can be read and is not too long, and every
    block of the era array can be read and has no era later than the current one; otherwise
    it reports an error.  It does not panic. *)
Theorem C60_verdict : forall nr inf d eng sb m, era_with nr d eng sb m ->
  (era_check nr inf eng false = Ok tt <-> era_fine eng sb m) /\ era_check nr inf eng false <> Panic.
Proof.
  intros nr inf d eng sb m (A1 & A2 & A3 & [td TT] & A5 & A6 & A7 & A8 & A9 & A10 & A11 & A12 & A13).
  assert (Hnr : 0 < nr < 2 ^ 64). { split; [apply A10; left; auto|change (2 ^ 32) with 4294967296 in A1; change (2 ^ 64) with 18446744073709551616; lia]. }
  assert (Esb : read_esb eng = Ok sb) by (unfold read_esb; rewrite A2; exact A3).
  unfold era_check, era_fine. rewrite Esb. cbn [bind]. destruct (N.ltb_spec 1 (es_version sb)) as [Hv|Hv].
  { split; [|discriminate]. split; [discriminate|lia]. }
  assert (HNt : NoDup (q_tree m)) by (unfold q_used in A9; apply nodup_post in A9; apply nodup_pre in A9; exact A9).
  rewrite (C54_btree_to_map ws_codec inf eng d td _ _ _ nr TT HNt A5 (proj2 Hnr)).
  2:{ intros b Hb. split; [apply A10; unfold q_used; rewrite !in_app_iff; auto|apply A8; rewrite !in_app_iff; auto]. }
  cbn [bind].
  pose proof (start_counts nr Hnr) as (S1 & S2 & _ & S4 & S5).
  assert (S0 : counts_le nr (check_sm nr) [0]) by (unfold counts_le; conj; auto; intros x Hx; rewrite S5 by auto; lia).
  assert (HN1 : NoDup ([0] ++ flat_map (fun p => snd p ++ fst p) (q_bits m) ++ q_eras_index m ++ q_eras m)).
  { unfold q_used in A9. apply NoDup_app_iff_local in A9 as (X & Y & Z). apply NoDup_app_iff_local. conj; auto; [apply nodup_post in Y; exact Y|]. intros x Hx Hy. apply (Z x Hx). apply in_or_app. auto. }
  destruct (sets_ok inf nr d eng (q_sets m) (q_bits m) (check_sm nr) [0] A1 A6 S0) as (sm1 & errs & E1 & C1 & HI).
  { rewrite app_assoc in HN1. apply nodup_pre in HN1. exact HN1. }
  { intros b Hb. apply A10. unfold q_used. rewrite !in_app_iff. auto. }
  { intros b Hb. apply A8. rewrite !in_app_iff. auto. }
  { exact A11. }
  rewrite E1. cbn [bind].
  assert (Hl : nlen (q_eras m) < 2 ^ 64) by (change (2 ^ 32) with 4294967296 in A13; change (2 ^ 64) with 18446744073709551616; lia).
  destruct (stage_le u32_codec inf nr d eng (era_visit (es_current_era sb)) sm1 _ (es_era_array_root sb) (q_eras m) (q_eras_index m) tt C1 A7) as (sm2 & E2 & _); auto.
  { intros b Hb. apply A10. unfold q_used. rewrite !in_app_iff in *. tauto. } { intros b Hb. apply A8. rewrite !in_app_iff. auto. }
  rewrite E2. cbn [bind].
  pose proof (era_errors eng (es_current_era sb) (q_eras m) 0 ltac:(rewrite N.add_0_l; exact A13) A12) as HE. rewrite N.add_0_l in HE.
  destruct (snd (visit_array_blocks u32_codec eng (era_visit (es_current_era sb)) tt (combine (range 0 (nlen (q_eras m))) (q_eras m)))) as [|e2 es2].
  - rewrite app_nil_r. destruct errs as [|e1 es1].
    + split; [|discriminate]. split; auto. intros _. conj; auto; [apply HI; auto|apply HE; auto].
    + split; [|discriminate]. split; [discriminate|]. intros (_ & H & _). apply HI in H. discriminate.
  - split.
    + split; [destruct errs; discriminate|]. intros (_ & _ & H). apply HE in H. discriminate.
    + destruct errs; discriminate.
Qed.
(** With --super-block-only the version alone counts, whatever else is on the device. *)
Theorem C60_superblock_only : forall nr inf eng sb, read_esb eng = Ok sb ->
  (era_check nr inf eng true = Ok tt <-> es_version sb <= 1) /\ era_check nr inf eng true <> Panic.
Proof.
  intros nr inf eng sb H. unfold era_check. rewrite H. cbn [bind]. destruct (N.ltb_spec 1 (es_version sb)); split; try discriminate; split; auto; try discriminate; lia.
Qed.

(** Metadata that era_restore has written passes, if the document has no era later than the
    current one. *)
Theorem C60_restored : forall D n doc inf,
  let eng := dev n (fun _ => true) D in
  n < 2 ^ 32 -> edoc_fits doc -> ei_nr_blocks (ed_sb doc) < 2 ^ 32 - 1018 -> Forall (fun e => snd e <= ei_current_era (ed_sb doc)) (ed_eras doc) ->
  era_restored D n doc -> era_check n inf eng false = Ok tt.
Proof.
  intros D n doc inf eng Hn Hfits Hnb Heras (s & sets & eras & R1 & R2 & (T1 & T2 & T3) & R3 & R4 & R5 & R6 & R7 & R8 & R9 & R10 & R11 & R12 & R13 & sblocks & tdepth & tfoot & abl & afoot & sms & B1 & B2 & B3 & HU).
  cbv zeta in HU. destruct HU as (HN & HF & _).
  destruct (array_parts u32_codec D _ _ _ _ ltac:(cbn; lia) B3) as (da & va & TA & FA & <- & PA). change (array_per u32_codec) with 1018 in PA.
  set (m := mkep (map fst sets) tfoot sblocks abl afoot).
  assert (He : forall b, b < n -> eng b = Some (D b)) by (intros b Hb; apply eng_in; auto).
  assert (Hfm : forall b, In b (flat_map (fun p : list N * list N => snd p ++ fst p) sblocks) <-> In b (flat_map (fun bl : list N * list N => fst bl ++ snd bl) sblocks)).
  { intros b. rewrite !in_flat_map. split; intros (p & Hp & Hb); exists p; split; auto; apply in_app_iff; apply in_app_iff in Hb; tauto. }
  assert (Hin : forall b, In b (q_used m) -> In b (0 :: flat_map (fun bl : list N * list N => fst bl ++ snd bl) sblocks ++ tfoot ++ (abl ++ afoot) ++ sms)).
  { intros b Hb. unfold q_used, m in Hb. cbn [q_tree q_bits q_eras q_eras_index app In] in Hb |- *. rewrite !in_app_iff in *. rewrite Hfm in Hb. tauto. }
  assert (HNq : NoDup (q_used m)).
  { unfold q_used, m. cbn [q_tree q_bits q_eras q_eras_index].
    apply (Permutation.Permutation_NoDup (l := 0 :: flat_map (fun bl : list N * list N => fst bl ++ snd bl) sblocks ++ tfoot ++ (abl ++ afoot))).
    - cbn [app]. constructor. apply (Permutation.Permutation_count_occ N.eq_dec). intros x. rewrite !count_occ_app.
      assert (Ef : count_occ N.eq_dec (flat_map (fun p : list N * list N => snd p ++ fst p) sblocks) x = count_occ N.eq_dec (flat_map (fun bl : list N * list N => fst bl ++ snd bl) sblocks) x).
      { clear. induction sblocks as [|p l IH]; [reflexivity|]. cbn [flat_map]. rewrite !count_occ_app, IH. lia. }
      rewrite Ef. lia.
    - assert (Ea : 0 :: flat_map (fun bl : list N * list N => fst bl ++ snd bl) sblocks ++ tfoot ++ (abl ++ afoot) ++ sms =
        (0 :: flat_map (fun bl : list N * list N => fst bl ++ snd bl) sblocks ++ tfoot ++ (abl ++ afoot)) ++ sms) by (cbn [app]; rewrite <- !app_assoc; reflexivity).
      rewrite Ea in HN. apply nodup_pre in HN. exact HN. }
  assert (HFq : forall b, In b (q_used m) -> b < n) by auto.
  assert (Hset : forall b, In b (flat_map fst sblocks) -> In b (q_used m)).
  { intros b Hb. unfold q_used, m. cbn [q_bits]. rewrite !in_app_iff. right. right. left. apply in_flat_map in Hb as (p & Hp & Hb). apply in_flat_map. exists p. split; auto. apply in_or_app. auto. }
  assert (Hera : forall b, In b abl -> b < n) by (intros b Hb; apply HFq; unfold q_used, m; cbn [q_eras]; rewrite !in_app_iff; auto).
  assert (HW : era_with n D eng s m).
  { unfold era_with, m. cbn [q_sets q_tree q_bits q_eras q_eras_index]. fold m. conj; auto.
    - apply He, HFq. left. auto.
    - eauto.
    - clear - B1. induction B1 as [|t p sets sblocks HA B1 IH]; constructor; auto. destruct HA as (depth & vss & X & _). exists depth. exact X.
    - exists da. exact TA.
    - intros b Hb. apply He, HFq. unfold q_used, m. cbn [q_tree q_bits q_eras q_eras_index]. rewrite !in_app_iff in *. destruct Hb as [Hb|[Hb|Hb]]; auto.
      right. right. left. apply in_flat_map in Hb as (p & Hp & Hb). apply in_flat_map. exists p. split; auto. apply in_or_app. auto.
    - intros b data a Hb. specialize (HFq b (Hset b Hb)). subst eng. clear - B1 Hb HFq. induction B1 as [|t p sets sblocks HA B1 IH]; [destruct Hb|]. cbn [flat_map] in Hb. apply in_app_or in Hb as [Hb|Hb]; [|auto].
      destruct (array_parts u64_codec D _ _ _ _ ltac:(cbn; lia) HA) as (dd & vd & _ & FD & _). intros He Hu. clear - Hb FD He Hu HFq.
      rewrite eng_in in He by auto. injection He as <-. induction FD as [|b' vs bs vss HA FD IH]; [destruct Hb|]. destruct Hb as [->|Hb]; [|auto]. destruct HA as (_ & _ & _ & E). rewrite E in Hu. apply Ok_inj in Hu. subst a. reflexivity.
    - intros b data a Hb. intros He' Hu. specialize (Hera b Hb). unfold eng in He'. rewrite eng_in in He' by auto. injection He' as <-. clear - FA Hb Hu. induction FA as [|b' vs bs vss HA FA IH]; [destruct Hb|]. destruct Hb as [->|Hb]; [|auto].
      destruct HA as (_ & _ & _ & E). rewrite E in Hu. apply Ok_inj in Hu. subst a. reflexivity.
    - assert (HL : length abl = length va) by (clear - FA; induction FA; cbn; auto). destruct va as [|v0 va]; [destruct abl; [cbn; reflexivity|discriminate]|].
      pose proof (start_lt 1018 ltac:(lia) (v0 :: va) (length va) PA ltac:(cbn; lia)) as Hs. rewrite R12 in Hs. cbn [length] in HL. unfold nlen in *. change (2 ^ 32) with 4294967296 in *. rewrite HL. lia. }
  apply (C60_verdict n inf D eng s m HW). unfold era_fine, m. cbn [q_sets q_bits q_eras]. conj.
  - lia.
  - assert (Hb : forall b, In b (flat_map fst sblocks) -> b < n) by auto. clear - B1 R9 Hb. induction B1 as [|t p sets sblocks HA B1 IH]; cbn [map]; constructor.
    + inversion R9 as [|? ? [(_ & Hl & _) _] _]; subst. destruct (array_parts u64_codec D _ _ _ _ ltac:(cbn; lia) HA) as (dd & vd & _ & FD & Ed & PD). change (array_per u64_codec) with 509 in PD.
      assert (Hb' : forall b, In b (fst p) -> b < n) by (intros b Hx; apply Hb; cbn [flat_map]; apply in_or_app; auto).
      pose proof (blocks_read D n u64_codec (fst p) vd Hb' FD) as Hr. assert (HL : length (fst p) = length vd) by (clear - FD; induction FD; cbn; auto).
      intros i b Hib. assert (Hi : (i < length (fst p))%nat) by (apply nth_error_Some; congruence). split.
      * destruct (nth_error vd i) as [vs|] eqn:Evs; [|apply nth_error_None in Evs; lia]. exists vs. clear - Hr Hib Evs. revert i Hib Evs. induction Hr as [|b' vs' bs k HA Hr IH]; intros [|i] Hb Evs; cbn [nth_error] in *; try discriminate; [injection Hb as <-; injection Evs as <-; exact HA|eapply IH; eauto].
      * pose proof (start_lt 509 ltac:(lia) vd i PD ltac:(lia)) as Hs. rewrite Ed, Hl in Hs. lia.
    + apply IH; [inversion R9; auto|]. intros b Hx. apply Hb. cbn [flat_map]. apply in_or_app. auto.
  - assert (Hmax : forall e, In e (concat va) -> e <= es_current_era s).
    { intros e He'. apply In_nth_error in He' as (i & Hi). assert (Hlt : (i < length (concat va))%nat) by (apply nth_error_Some; congruence). unfold nlen in R12.
      specialize (R13 (N.of_nat i) ltac:(lia)). rewrite Nat2N.id in R13. rewrite Hi in R13. injection R13 as ->. rewrite T3. unfold doc_era. destruct (find _ (ed_eras doc)) as [x|] eqn:Ef; [|lia].
      apply find_some in Ef as [Ef _]. rewrite Forall_forall in Heras. apply Heras. exact Ef. }
    pose proof (blocks_read D n u32_codec abl va Hera FA) as Hr. clear - Hr Hmax. intros b Hb. induction Hr as [|b' vs bs vss HA Hr IH]; [destruct Hb|]. destruct Hb as [->|Hb].
    + exists vs. split; [exact HA|]. apply Forall_forall. intros e He. apply Hmax. cbn [concat]. apply in_or_app. auto.
    + apply IH; auto. intros e He. apply Hmax. cbn [concat]. apply in_or_app. auto.
Qed.
Print Assumptions C60_verdict.
Print Assumptions C60_superblock_only.
Print Assumptions C60_restored.
