(** C31, C32: cache_writeback. *)
From Verif Require Import IoMany_Proofs SpaceMap_Proofs Base Csum_Model Codec_Model Codec_Spec Codec_Proofs Pack_Proofs SpaceMap_Model SmWrite_Model SmMeta_Proofs Utils_Model Utils_Proofs Batcher_Model Builder_Model Builder_Spec Builder_Proofs BtreeBuild_Proofs Props_Btree Walker_Model Walker_Spec Walker_Proofs WalkTree_Proofs Props_Walker Array_Model Array_Spec Array_Proofs ArrayWalk_Proofs Props_Array Copier_Model Writeback_Model Writeback_Spec WritebackSel_Proofs WritebackCopy_Proofs WritebackUpd_Proofs.

Lemma mapi_skipn {V} (f : N -> V -> V) l : forall n i, skipn n (mapi f i l) = mapi f (i + N.of_nat n) (skipn n l).
Proof. induction l as [|x l IH]; intros [|n] i; cbn [mapi skipn]; auto; [rewrite N.add_0_r; auto|]. rewrite IH. f_equal. lia. Qed.
Lemma mapi_firstn {V} (f : N -> V -> V) l : forall n i, firstn n (mapi f i l) = mapi f i (firstn n l).
Proof. induction l as [|x l IH]; intros [|n] i; cbn [mapi firstn]; auto. f_equal. auto. Qed.
Lemma block_slice per {V} : 0 < per -> forall (k : list (list V)) j vs, packed_in per k -> nth_error k j = Some vs -> vs = firstn (N.to_nat per) (skipn (j * N.to_nat per) (concat k)).
Proof.
  intros Hp. induction k as [|x k IH]; intros [|j] vs HP H; cbn [nth_error] in H; try discriminate; destruct HP as (P1 & P2 & P3 & P4); cbn [concat].
  - injection H as <-. cbn [Nat.mul skipn]. destruct k as [|y k].
    + cbn [concat]. rewrite app_nil_r, firstn_all2; auto. unfold nlen in P2. lia.
    + specialize (P3 ltac:(discriminate)). unfold nlen in P3. rewrite firstn_app. replace (N.to_nat per - length x)%nat with 0%nat by lia. cbn [firstn]. rewrite app_nil_r, firstn_all2 by lia. auto.
  - assert (Hx : length x = N.to_nat per). { destruct k as [|y k]; [destruct j; discriminate|]. specialize (P3 ltac:(discriminate)). unfold nlen in P3. lia. }
    rewrite skipn_app, Hx. rewrite skipn_all2 by lia. cbn [app]. replace (S j * N.to_nat per - N.to_nat per)%nat with (j * N.to_nat per)%nat by lia. apply IH; auto.
Qed.
Lemma changed_torn {V} (c : codec V) f e d d' root blocks foot vss cl : (0 < csize c <= 4072)%nat -> packed_in (array_per c) vss -> length blocks = length vss ->
  torn c f e d d' blocks vss cl -> array_changed c e d d' root blocks foot (mapi (f cl) 0 (concat vss)) false.
Proof.
  intros Hc HP HL [T1 (bad & n & T2 & T3 & T4 & T5)]. split; auto. exists bad, n. conj; auto. cbv zeta. fold (array_per c). intros j b Hb Hne.
  destruct (nth_error vss j) as [vs|] eqn:Ev. 2:{ apply nth_error_None in Ev. assert (Hn : nth_error blocks j <> None) by congruence. apply nth_error_Some in Hn. lia. }
  destruct (T5 j b vs Hb Ev Hne) as [H|H]; [auto|]. right. rewrite mapi_skipn, mapi_firstn. rewrite <- (block_slice (array_per c) (array_per_pos c Hc) vss j vs HP Ev).
  unfold target in H. replace (0 + N.of_nat (j * N.to_nat (array_per c))) with (N.of_nat j * array_per c) by lia. exact H.
Qed.

(** ** C32 *)
Lemma reached_start {V} (c : codec V) f d blocks vss n cl : reached c f d blocks vss (mkmdev d n) 0 cl.
Proof. split; [reflexivity|]. intros j b vs _ _. replace (j <? 0)%nat with false by (symmetry; apply Nat.ltb_ge; lia). reflexivity. Qed.
Lemma clear_flag a : a < 2 ^ 32 -> N.land a (N.lxor (W32 - 1) 2) = N.clearbit a 1.
Proof.
  intros Ha. apply N.bits_inj. intros k. rewrite N.land_spec, N.lxor_spec. change (W32 - 1) with (N.ones 32).
  destruct (N.eq_dec k 1) as [->|Hne].
  - rewrite N.clearbit_eq. change (N.testbit 2 1) with true. rewrite N.ones_spec_low by lia. rewrite andb_false_r. auto.
  - rewrite N.clearbit_neq by auto. assert (E2 : N.testbit 2 k = false). { change 2 with (2 ^ 1). rewrite N.pow2_bits_false; auto. }
    rewrite E2, xorb_false_r. destruct (N.ltb_spec k 32) as [Hk|Hk]; [rewrite N.ones_spec_low, andb_true_r by auto; auto|].
    destruct (N.eq_dec a 0) as [->|Ha0]; [rewrite N.bits_0; auto|].
    rewrite (N.bits_above_log2 a k); auto. assert (N.log2 a < 32) by (apply N.log2_lt_pow2; lia). lia.
Qed.
Theorem C32_update_v1 : forall e d sb maps blocks foot cl n v' r,
  mappings_on e d sb maps blocks foot -> maps <> [] -> increasing cl -> (forall x, In x cl -> x < nlen maps) ->
  update_v1 e sb cl (mkmdev d n) = (v', r) ->
  r <> Panic /\ exists maps', flags_cleared cl maps maps' /\
    array_changed cm_codec e d (v_disk v') (cs_mapping_root sb) blocks foot maps' (match r with Ok _ => true | _ => false end).
Proof.
  intros e d sb maps blocks foot cl n v' r (Ha & HN & Hrd & Hnr & Hm) Hne Hinc Hcl E.
  destruct (array_parts cm_codec d _ maps foot blocks ltac:(cbn; lia) Ha) as (depth & vss & HT & HF & Ec & HP). change (array_per cm_codec) with 509 in HP.
  pose proof (Forall2_length _ _ _ HF) as HL. apply NoDup_app_iff_local in HN as (HN1 & HN2 & HN3).
  assert (HrdB : readable e blocks). { intros b Hb. apply Hrd. apply in_or_app; auto. }
  unfold update_v1 in E. cbn [v_disk] in E.
  rewrite (value_vec (e_nr e) (eng_of e d) d depth _ blocks foot true HT) in E; auto; [|intros b Hb; apply (eng_readable e d (blocks ++ foot)); auto; apply in_or_app; auto].
  destruct vss as [|vs0 vss']; [cbn in Ec; congruence|]. destruct blocks as [|b0 blocks']; [discriminate|]. cbn [nth_error] in E.
  set (blocks := b0 :: blocks') in *. set (vss := vs0 :: vss') in *.
  destruct (eng_readable e d blocks b0 HrdB ltac:(left; auto)) as [_ Hb0]. rewrite Hb0 in E.
  assert (HA0 : array_block_at cm_codec d b0 vs0) by (inversion HF; auto). destruct HA0 as (_ & _ & _ & Hu). rewrite Hu in E.
  assert (Et : target cm_codec f1 [] 0 vs0 = vs0) by (apply mapi_id; reflexivity).
  assert (HS : match r with Ok _ => reached cm_codec f1 d blocks vss v' (length blocks) cl | Err => torn cm_codec f1 e d (v_disk v') blocks vss cl | Panic => False end).
  { eapply (v1_loop_spec e d blocks vss HF HP HN1 HrdB Hnr cl Hinc) with (done := []) (index := 0) (b := b0) (vs := vs0) (needs := false) (v := mkmdev d n) (rest := cl).
    - rewrite Ec. exact Hcl.
    - reflexivity.
    - reflexivity.
    - reflexivity.
    - intros x [].
    - intros x _. apply N.le_0_l.
    - auto.
    - apply reached_start.
    - cbn [N.to_nat]. rewrite Et. exact E. }
  assert (Hrg : Forall cm_range maps).
  { rewrite <- Ec. clear - HF. induction HF as [|b vs bs k Hb HF IH]; cbn [concat]; [constructor|]. apply Forall_app. split; auto. destruct Hb as (B1 & _ & _ & B4). apply (unpack_range cm_codec cm_range _ _ cm_lossless B1 B4). }
  split; [intros ->; contradiction|]. exists (mapi (f1 cl) 0 maps). split.
  - split; [apply mapi_length|]. intros i m Hi. rewrite mapi_nth, Hi. cbn [option_map]. rewrite N.add_0_l, N2Nat.id. f_equal. unfold f1.
    destruct (in_dec N.eq_dec i cl) as [H|H].
    + rewrite (proj2 (rb_mem_in i cl) H). unfold cm_set_dirty. f_equal. apply clear_flag. assert (Hr : cm_range m) by (eapply Forall_forall; [exact Hrg|eapply nth_error_In; eauto]). destruct Hr as [_ Hr]. lia.
    + destruct (rb_mem i cl) eqn:Em; auto. apply rb_mem_in in Em. contradiction.
  - destruct r as [u| |]; [|rewrite <- Ec; apply changed_torn; auto; cbn; lia|contradiction]. split; [apply HS|].
    eapply (reached_all cm_codec cm_range 1 f1 e d blocks vss cm_lossless ltac:(cbn; lia) f1_nil f1_other f1_rg HF HP HN1); eauto.
    intros b Hb Hb'. eapply HN3; eauto.
Qed.

Lemma indexes_fine : forall bs i, indexes_ok i (combine (range i (i + nlen bs)) bs) = true /\ map snd (combine (range i (i + nlen bs)) bs) = bs.
Proof.
  induction bs as [|b bs IH]; intros i; [rewrite range_nil by (unfold nlen; cbn; lia); auto|].
  assert (Hl : nlen (b :: bs) = 1 + nlen bs) by (unfold nlen; cbn [length]; lia). rewrite Hl, (range_cons i) by lia. cbn [combine indexes_ok map snd].
  replace (i + (1 + nlen bs)) with (i + 1 + nlen bs) by lia. destruct (IH (i + 1)) as [-> ->]. rewrite N.eqb_refl. auto.
Qed.
Theorem C32_update_v2 : forall e d sb ws blocks foot cl n v' r,
  bits_on e d sb ws blocks foot -> fresh_ok e -> nlen ws < 2 ^ 64 -> increasing cl -> (forall x, In x cl -> x < 64 * nlen ws) ->
  update_v2 e sb cl (mkmdev d n) = (v', r) ->
  r <> Panic /\ exists root ws', cs_dirty_root sb = Some root /\ bits_cleared cl ws ws' /\
    array_changed u64_codec e d (v_disk v') root blocks foot ws' (match r with Ok _ => true | _ => false end).
Proof.
  intros e d sb ws blocks foot cl n v' r (root & Hroot & Ha & HN & Hrd & Hnr & Hm) Hfr Hws Hinc Hcl E.
  destruct (array_parts u64_codec d _ ws foot blocks ltac:(cbn; lia) Ha) as (depth & vss & HT & HF & Ec & HP). change (array_per u64_codec) with 509 in HP.
  pose proof (Forall2_length _ _ _ HF) as HL. apply NoDup_app_iff_local in HN as (HN1 & HN2 & HN3).
  assert (HrdB : readable e blocks). { intros b Hb. apply Hrd. apply in_or_app; auto. }
  unfold update_v2 in E. rewrite Hroot in E. cbn [v_disk] in E.
  rewrite (C54_btree_to_map u64_codec true (eng_of e d) d depth root _ foot (e_nr e) HT) in E; auto.
  2:{ rewrite map_fst_combine; [apply range_increasing|]. rewrite range_length. unfold nlen. lia. }
  2:{ intros b Hb; apply (eng_readable e d (blocks ++ foot)); auto; apply in_or_app; auto. }
  destruct (indexes_fine blocks 0) as [I1 I2]. rewrite N.add_0_l in I1, I2. rewrite I1, I2 in E.
  assert (HS : match r with Ok _ => reached u64_codec f2 d blocks vss v' (length blocks) cl | Err => torn u64_codec f2 e d (v_disk v') blocks vss cl | Panic => False end).
  { eapply (v2_loop_spec e d blocks vss HF HP HN1 HrdB Hnr Hfr cl Hinc) with (done := []) (cur := None) (v := mkmdev d n) (rest := cl).
    - rewrite Ec. exact Hcl.
    - reflexivity.
    - split; [reflexivity|apply reached_start].
    - exact E. }
  split; [intros ->; contradiction|]. exists root, (mapi (f2 cl) 0 ws). conj; auto.
  - split; [apply mapi_length|]. intros i Hi. unfold bit_at.
    assert (Hw : i / 64 < nlen ws) by (apply N.div_lt_upper_bound; lia).
    destruct (nth_error ws (N.to_nat (i / 64))) as [w|] eqn:Ew; [|apply nth_error_None in Ew; unfold nlen in Hw; lia].
    assert (Ew' : nth_error (mapi (f2 cl) 0 ws) (N.to_nat (i / 64)) = Some (f2 cl (i / 64) w)) by (rewrite mapi_nth, Ew; cbn [option_map]; rewrite N.add_0_l, N2Nat.id; auto).
    rewrite (nth_error_nth _ _ 0 Ew), (nth_error_nth _ _ 0 Ew'). rewrite f2_bits by (apply N.mod_lt; lia). rewrite <- N.div_mod by lia.
    destruct (in_dec N.eq_dec i cl) as [H|H]; [rewrite (proj2 (rb_mem_in i cl) H), andb_false_r; auto|]. destruct (rb_mem i cl) eqn:Em; [apply rb_mem_in in Em; contradiction|]. rewrite andb_true_r. auto.
  - destruct r as [u| |]; [|rewrite <- Ec; apply changed_torn; auto; cbn; lia|contradiction]. split; [apply HS|].
    eapply (reached_all u64_codec _ 64 f2 e d blocks vss u64_lossless ltac:(cbn; lia) f2_nil f2_other f2_rg HF HP HN1); eauto.
    intros b Hb Hb'. eapply HN3; eauto.
Qed.

(** ** C31 *)
Lemma format_needed e d sb maps ws wblocks wfoot : format e d sb maps ws wblocks wfoot -> bits_needed e d sb ws /\ (cs_version sb = 1 \/ cs_version sb = 2).
Proof. intros [H|(H & Hb & Hl & _)]; (split; [|auto]); intros _ H2; [congruence|]. exists wblocks, wfoot. auto. Qed.
Lemma untouched_back {P} sb maps ws (sel : selector) (m m' : mem (list P)) cl rf wf :
  (forall i mp, nth_error maps (N.to_nat i) = Some mp -> cm_valid mp = true -> (needs_writeback sel i mp = true <-> to_copy sb maps ws i mp)) ->
  (untouched maps sel m m' -> written_back sb maps ws m m' []) /\
  (pass_inv maps sel m m' cl rf wf -> written_back sb maps ws m m' cl).
Proof.
  intros Hsel.
  assert (U : untouched maps sel m m' -> (forall b, m' false b = m false b) /\ (forall b, (forall i mp, to_copy sb maps ws i mp -> cm_oblock mp <> b) -> m' true b = m true b)).
  { intros U. split; intros b; [apply U; intros [H _]; discriminate|]. intros Hb. apply U. intros [_ H]. apply in_map_iff in H as (op & E & Hop).
    apply sel_ops_in in Hop as (mp & H1 & H2 & H3 & H4). apply (Hb (c_src op) mp); [apply Hsel; auto|congruence]. }
  split.
  - intros HU. destruct (U HU) as [U1 U2]. unfold written_back. conj; auto; [exact I|intros i []].
  - intros (I1 & I2 & I3 & I4 & I5 & I6 & I7). destruct (U I1) as [U1 U2]. unfold written_back. conj; auto.
    intros i Hi. assert (Hs : In i (map c_src (sel_ops sel 0 maps))) by (apply I5; auto). apply in_map_iff in Hs as (op & <- & Hop). pose proof (I7 op Hop Hi) as Hc.
    apply sel_ops_in in Hop as (mp & H1 & H2 & H3 & H4). exists mp. split; [apply Hsel; auto|]. congruence.
Qed.
Theorem C31_copy : forall {P} e d sb maps blocks foot ws wblocks wfoot size retries (cs : nat -> copier P) m m' r,
  mappings_on e d sb maps blocks foot -> distinct_origins maps -> format e d sb maps ws wblocks wfoot -> (forall p, copier_ok m (cs p)) ->
  copy_dirty e d sb size retries cs m = (m', r) ->
  (r = None -> written_back sb maps ws m m' []) /\ r <> Some Err /\ r <> Some Panic /\
  forall nr cl rf wf, r = Some (Ok (nr, (cl, rf, wf))) ->
    written_back sb maps ws m m' cl /\
    (forall i, (exists mp, to_copy sb maps ws i mp) <-> In i cl \/ In i rf \/ In i wf) /\ (forall i, In i cl -> ~ In i rf /\ ~ In i wf) /\
    (nlen cl = nr -> rf = [] /\ wf = []) /\
    (rf = [] -> wf = [] -> nlen cl <> nr -> exists i, cs_version sb = 2 /\ i < cs_cache_blocks sb /\ bit_at ws i = true /\ forall mp, ~ to_copy sb maps ws i mp).
Proof.
  intros P e d sb maps blocks foot ws wblocks wfoot size retries cs m m' r Hm Hd Hf Hcs E. destruct (format_needed _ _ _ _ _ _ _ Hf) as [Hb Hv].
  destruct (copy_dirty_inv e d sb maps blocks foot ws size retries cs m m' r Hm Hd Hb Hv Hcs E) as (nr & sel & Es & HU & Hr).
  destruct (selector_spec e d sb maps blocks foot ws Hm Hb Hv) as (nr' & sel' & Es' & Hsel & (ids & N1 & N2 & N3 & N4) & Hn). rewrite Es in Es'. injection Es' as <- <-.
  conj.
  - intros _. apply (proj1 (untouched_back sb maps ws sel m m' [] [] [] Hsel) HU).
  - intros ->. exact Hr.
  - intros ->. exact Hr.
  - intros n cl rf wf ->. destruct Hr as [-> Hp]. pose proof Hp as (I1 & I2 & I3 & I4 & I5 & I6 & I7).
    assert (Hops : forall i, (exists mp, to_copy sb maps ws i mp) <-> In i (map c_src (sel_ops sel 0 maps))).
    { intros i. split.
      - intros (mp & Hc). pose proof Hc as (H1 & H2 & _). apply in_map_iff. exists (mkop i (cm_oblock mp)). split; auto. apply sel_ops_in. exists mp. cbn [c_src c_dst]. conj; auto. apply Hsel; auto.
      - intros H. apply in_map_iff in H as (op & <- & Hop). apply sel_ops_in in Hop as (mp & H1 & H2 & H3 & H4). exists mp. apply Hsel; auto. }
    assert (Hin : forall i, In i cl \/ In i rf \/ In i wf -> In i ids). { intros i Hi. apply I5 in Hi. apply in_map_iff in Hi as (op & <- & Hop). auto. }
    conj; auto.
    + apply (proj2 (untouched_back sb maps ws sel m m' cl rf wf Hsel) Hp).
    + intros i. rewrite Hops. apply I5.
    + intros Hlen. assert (Hall : incl ids cl). { apply NoDup_length_incl; [apply increasing_NoDup; auto|unfold nlen in *; lia|intros x Hx; apply Hin; auto]. }
      split; [destruct rf as [|x rf]; auto|destruct wf as [|x wf]; auto]; exfalso; (destruct (I6 x) as [K1 K2]; [apply Hall, Hin; cbn [In]; auto|cbn [In] in *; tauto]).
    + intros -> -> Hlen. destruct (Exists_dec (fun i => ~ In i cl) ids) as [He|He]. { intros i. destruct (in_dec N.eq_dec i cl); [right; tauto|left; auto]. }
      * apply Exists_exists in He as (i & Hi & Hnc). exists i. assert (Hno : ~ In i (map c_src (sel_ops sel 0 maps))) by (intros H; apply I5 in H as [H|[[]|[]]]; auto).
        destruct (N4 i Hi) as [H|(H1 & H2 & H3)]; [contradiction|]. conj; auto. intros mp Hc. apply Hno, Hops. eauto.
      * exfalso. apply Hlen. rewrite <- N2. unfold nlen. f_equal. apply Nat.le_antisymm; apply NoDup_incl_length; auto; [apply increasing_NoDup; auto|intros x Hx; apply Hin; auto|].
        intros x Hx. destruct (in_dec N.eq_dec x cl); auto. exfalso. apply He. apply Exists_exists. eauto.
Qed.

Theorem C31_writeback : forall {P} e d sb maps blocks foot ws wblocks wfoot update size retries (cs : nat -> copier P) m m' v' r,
  e_rd e 0 = true -> cache_read_superblock d 0 = Ok sb ->
  mappings_on e d sb maps blocks foot -> maps <> [] -> distinct_origins maps -> format e d sb maps ws wblocks wfoot -> fresh_ok e -> (forall p, copier_ok m (cs p)) ->
  writeback e update size retries cs d m = (m', v', r) ->
  exists cl, written_back sb maps ws m m' cl /\
    (update = false \/ r = None -> v_disk v' = d) /\
    r <> Some Panic /\
    (r = Some (Ok tt) -> (forall i mp, to_copy sb maps ws i mp -> In i cl) /\ (update = true -> cleared_on e sb d (v_disk v') maps blocks foot ws wblocks wfoot cl true)) /\
    (r = Some Err -> (update = true -> exists finished, cleared_on e sb d (v_disk v') maps blocks foot ws wblocks wfoot cl finished) /\
       ((exists i mp, to_copy sb maps ws i mp /\ ~ In i cl) \/ (update = true /\ exists n, e_wr e n = false) \/
        (exists i, cs_version sb = 2 /\ i < cs_cache_blocks sb /\ bit_at ws i = true /\ forall mp, ~ to_copy sb maps ws i mp))).
Proof.
  intros P e d sb maps blocks foot ws wblocks wfoot update size retries cs m m' v' r H0 Hsb Hm Hne Hd Hf Hfr Hcs E.
  unfold writeback in E. unfold eng_of in E at 1. rewrite H0, Hsb in E. destruct (format_needed _ _ _ _ _ _ _ Hf) as [_ Hv].
  destruct (N.ltb_spec 2 (cs_version sb)) as [Hgt|_]; [lia|].
  destruct (copy_dirty e d sb size retries cs m) as [m1 r1] eqn:Ec.
  destruct (C31_copy e d sb maps blocks foot ws wblocks wfoot size retries cs m m1 r1 Hm Hd Hf Hcs Ec) as (K1 & K2 & K3 & K4).
  destruct r1 as [[[nr [[cl rf] wf]]| |]|]; try congruence.
  2:{ injection E as <- <- <-. exists []. conj; auto; discriminate. }
  destruct (K4 nr cl rf wf eq_refl) as (B1 & B2 & B3 & B4 & B5). clear K4.
  assert (Hcl : forall x, In x cl -> x < nlen maps).
  { intros x Hx. destruct (proj2 (B2 x) ltac:(auto)) as (mp & Hc & _). assert (Hnn : nth_error maps (N.to_nat x) <> None) by congruence. apply nth_error_Some in Hnn. unfold nlen. lia. }
  assert (Hinc : increasing cl) by apply B1.
  destruct (if update then update_metadata e sb cl (mkmdev d 0) else (mkmdev d 0, Ok tt)) as [v1 u] eqn:Eu.
  assert (HU : u <> Panic /\ (update = false -> v_disk v1 = d /\ u = Ok tt) /\
    (update = true -> cleared_on e sb d (v_disk v1) maps blocks foot ws wblocks wfoot cl (match u with Ok _ => true | _ => false end))).
  { destruct update; [|injection Eu as <- <-; conj; auto; discriminate]. unfold update_metadata in Eu. destruct Hf as [Hv1|(Hv2 & Hb & Hl1 & Hl2)].
    - rewrite Hv1 in Eu. change (1 =? 1) with true in Eu. cbv iota in Eu. destruct (C32_update_v1 e d sb maps blocks foot cl 0%nat v1 u Hm Hne Hinc Hcl Eu) as (U1 & maps' & U2 & U3).
      conj; [exact U1|discriminate|]. intros _. left. eauto.
    - rewrite Hv2 in Eu. change (2 =? 1) with false in Eu. change (2 =? 2) with true in Eu. cbv iota in Eu.
      destruct (C32_update_v2 e d sb ws wblocks wfoot cl 0%nat v1 u Hb Hfr) as (U1 & root & ws' & U2 & U3 & U4); auto.
      { destruct Hb as (rt & _ & _ & _ & _ & _ & Hbb). unfold div_up in Hl1. assert ((cs_cache_blocks sb + 63) / 64 <= cs_cache_blocks sb + 63) by (apply N.div_le_upper_bound; lia). lia. }
      { intros x Hx. specialize (Hcl x Hx). lia. }
      conj; [exact U1|discriminate|]. intros _. right. eauto 7. }
  destruct HU as (U1 & U2 & U3).
  destruct u as [u| |]; [|injection E as <- <- <-|congruence].
  - injection E as <- <- <-. exists cl. destruct u. conj; auto.
    + intros [H|H]; [apply U2; auto|discriminate].
    + destruct (_ =? _); discriminate.
    + intros Hok. destruct (N.eqb_spec (nlen cl) nr) as [He|He]; [|discriminate]. destruct (B4 He) as [-> ->]. split; auto.
      intros i mp Hc. destruct (proj1 (B2 i) ltac:(eauto)) as [H|[[]|[]]]. auto.
    + intros Her. destruct (N.eqb_spec (nlen cl) nr) as [He|He]; [discriminate|]. split; [intros H; exists true; auto|].
      destruct rf as [|x rf].
      * destruct wf as [|x wf]; [auto|]. left. destruct (proj2 (B2 x) ltac:(cbn [In]; auto)) as (mp & Hc). exists x, mp. split; auto. intros H. apply B3 in H. cbn [In] in H. tauto.
      * left. destruct (proj2 (B2 x) ltac:(cbn [In]; auto)) as (mp & Hc). exists x, mp. split; auto. intros H. apply B3 in H. cbn [In] in H. tauto.
  - exists cl. conj; auto.
    + intros [H|H]; [|discriminate]. destruct (U2 H). discriminate.
    + discriminate.
    + discriminate.
    + intros _. destruct update; [|destruct (U2 eq_refl); discriminate]. split; [intros H; exists false; auto|]. right. left. split; auto.
      destruct (U3 eq_refl) as [(_ & maps' & _ & _ & bad & n & _ & Hn & _)|(_ & rt & ws' & _ & _ & _ & bad & n & _ & Hn & _)]; eauto.
Qed.
