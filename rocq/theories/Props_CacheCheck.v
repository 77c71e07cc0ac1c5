(** C34: cache_check's check of the mappings. *)
From Verif Require Import IoMany_Proofs Base Csum_Model Codec_Model Codec_Spec Codec_Proofs Pack_Proofs SpaceMap_Model Utils_Model Utils_Proofs Batcher_Model Builder_Model Builder_Spec BtreeBuild_Proofs Props_Btree Walker_Model Array_Model Array_Spec Array_Proofs ArrayWalk_Proofs Walker_Spec Walker_Proofs Props_Walker Props_Array WritebackUpd_Proofs CacheCheck_Model CacheCheck_Spec CacheCheck_Proofs CacheSm_Proofs.

Lemma limit_ok sb limit : origin_limit sb limit -> exists o seen, nr_origin_blocks sb = Ok o /\ mc_new o = (limit, mkfb seen []).
Proof.
  unfold origin_limit, nr_origin_blocks. intros [(H1 & H2 & H3 & H4 & H5 & ->)|[H ->]].
  - rewrite H1. rewrite (proj2 (N.ltb_lt _ _) H2), (proj2 (N.ltb_lt _ _) H3). cbn [andb]. destruct (N.eqb_spec (cs_data_block_size sb) 0); [lia|].
    rewrite N.mod_small by (unfold W64; exact H5). do 2 eexists. split; [reflexivity|]. reflexivity.
  - assert (E : cs_clean_shutdown sb && (0 <? cs_discard_block_size sb) && (0 <? cs_discard_nr_blocks sb) = false).
    { destruct H as [->|[->| ->]]; auto; rewrite ?andb_false_r; auto. }
    rewrite E. do 2 eexists. split; reflexivity.
Qed.
Lemma valid_bit m : cm_valid m = N.testbit (cm_flags m) 0.
Proof. apply testbit_land1. Qed.
Lemma reads_values eng blocks : (forall abs, Forall2 (reads eng) blocks abs -> Forall2 (reads_as cm_codec eng) blocks (map (@ab_values _) abs)) /\
  (forall vss, Forall2 (reads_as cm_codec eng) blocks vss -> exists abs, Forall2 (reads eng) blocks abs /\ map (@ab_values _) abs = vss).
Proof.
  split.
  - intros abs HF. induction HF as [|b a bs abs (data & D1 & D2 & D3) HF IH]; cbn [map]; constructor; auto. exists data, (ab_hdr a). destruct a. auto.
  - intros vss HF. induction HF as [|b vs bs vss (data & h & D1 & D2 & D3) HF (abs & I1 & I2)]; [exists []; auto|].
    exists (mkab h vs :: abs). cbn [map ab_values]. rewrite I2. split; auto. constructor; auto. exists data. auto.
Qed.
Lemma reads_range eng blocks : (forall b data, In b blocks -> eng b = Some data -> bytes data) -> forall abs, Forall2 (reads eng) blocks abs -> Forall (fun a => Forall cm_range (ab_values a)) abs.
Proof.
  intros Hb abs HF. induction HF as [|b a bs abs (data & D1 & D2 & D3) HF IH]; constructor.
  - eapply (unpack_range cm_codec); eauto; [apply cm_lossless|]. eapply Hb; eauto. left. auto.
  - apply IH. intros x d Hx. apply Hb. right. auto.
Qed.
Lemma map_snd_comb {A B} : forall (a : list A) (b : list B), length a = length b -> map snd (combine a b) = b.
Proof. induction a as [|x a IH]; intros [|y b] H; cbn [combine map snd]; try discriminate; auto. f_equal. apply IH. cbn in H. lia. Qed.
Lemma in_numbered {V} (vss : list (list V)) : forall j, map snd (numbered j vss) = concat vss.
Proof.
  induction vss as [|vs vss IH]; intros j; cbn [numbered concat]; auto. rewrite map_app, IH. f_equal. apply map_snd_comb. rewrite range_length. unfold nlen. lia.
Qed.
Lemma oblocks_snd es : valid_oblocks es = map cm_oblock (filter cm_valid (map snd es)).
Proof. unfold valid_oblocks. induction es as [|[i m] es IH]; cbn [filter map snd]; auto. destruct (cm_valid m); cbn [map snd]; congruence. Qed.
Lemma fine_oblocks es : map (fun e => cm_oblock (snd e)) (filter (fun e => N.testbit (cm_flags (snd e)) 0) es) = valid_oblocks (es : list (N * cmapping)).
Proof. unfold valid_oblocks. f_equal. apply filter_ext. intros [i m]. cbn [snd]. symmetry. apply valid_bit. Qed.

Theorem C34_version1 : forall eng d inf nr sb limit depth blocks foot,
  cs_version sb = 1 -> origin_limit sb limit ->
  tree u64_codec d true depth (cs_mapping_root sb) (combine (range 0 (nlen blocks)) blocks) foot -> NoDup foot -> NoDup blocks -> ~ In 0 foot ->
  0 < nr < 2 ^ 64 -> nlen blocks < 2 ^ 64 -> (forall b, In b foot -> b < nr /\ eng b = Some (d b)) ->
  (forall b data, In b blocks -> eng b = Some data -> b < nr /\ bytes data) ->
  exists sm errs, check_mappings eng nr inf sb = Ok (sm, errs) /\
    (errs = [] <-> exists vss, Forall2 (reads_as cm_codec eng) blocks vss /\ table_fine 1 limit (fun _ => false) (numbered 0 vss)).
Proof.
  intros eng d inf nr sb limit depth blocks foot Hv Hl HT HN HNb H0 Hnr Hnb Hf Hby0. assert (Hby : forall b data, In b blocks -> eng b = Some data -> bytes data) by (intros b data H1 H2; apply (Hby0 b data H1 H2)). destruct (limit_ok sb limit Hl) as (o & sl & E1 & E2).
  unfold check_mappings. rewrite E1, Hv. cbn [bind]. rewrite E2. change (1 =? 1) with true. cbv iota.
  destruct (check_sm_ok nr Hnr) as (S1 & S2 & S3 & S4).
  destruct (array_walk_sm_index cm_codec inf eng (mc1_visit limit) (check_sm nr) d depth _ blocks foot (mkfb sl []) HT HN HNb S3 Hnb) as (sm' & Ew & _).
  { intros b Hb. destruct (Hf b Hb) as [Hb1 Hb2]. rewrite S1, S4 by auto. destruct (N.eqb_spec b 0) as [->|]; [contradiction|]. auto. }
  { intros b Hb Hbe. destruct (eng b) as [data|] eqn:Eb; [|congruence]. destruct (Hby0 b data Hb Eb) as [Hb1 _]. rewrite S1, S2, S4 by auto. split; auto. destruct (b =? 0); lia. }
  rewrite Ew. cbn [bind]. exists sm'. eexists. split; [reflexivity|].
  destruct (visit_array_blocks cm_codec eng (mc1_visit limit) (mkfb sl []) (combine (range 0 (nlen blocks)) blocks)) as [seen' es] eqn:E. cbn [snd].
  pose proof (blocks_spec eng limit (fun _ => check_flags1) (fun _ a => map (fun m => (0, m)) (ab_values a)) blocks 0 (mkfb sl []) seen' es ltac:(intros x []) E) as H. rewrite H. clear H.
  destruct (reads_values eng blocks) as [R1 R2].
  assert (Hent : forall abs j, all_ent (fun _ a => map (fun m => (0, m)) (ab_values a)) j abs = map (fun m => (0, m)) (concat (map (@ab_values _) abs))).
  { induction abs as [|a abs IH]; intros j; cbn [all_ent map concat]; auto. rewrite IH, map_app. auto. }
  assert (Hiff : forall abs, Forall2 (reads eng) blocks abs -> good limit (fun _ => check_flags1) (all_ent (fun _ a => map (fun m => (0, m)) (ab_values a)) 0 abs) [] <-> table_fine 1 limit (fun _ => false) (numbered 0 (map (@ab_values _) abs))).
  { intros abs HF. rewrite Hent. unfold good, table_fine. rewrite fine_oblocks, !oblocks_snd, in_numbered. rewrite map_map. cbn [snd]. rewrite map_id.
    pose proof (reads_range eng blocks Hby abs HF) as Hrg.
    assert (Hflag : forall m, In m (concat (map (@ab_values _) abs)) -> cm_flags m < 2 ^ 32).
    { intros m Hm. apply in_concat in Hm as (vs & H1 & H2). apply in_map_iff in H1 as (a & <- & Ha). rewrite Forall_forall in Hrg. specialize (Hrg a Ha). rewrite Forall_forall in Hrg. destruct (Hrg m H2). lia. }
    assert (Hone : forall i m, In m (concat (map (@ab_values _) abs)) -> (check_flags1 m = true /\ (if cm_valid m then cm_oblock m < limit else cm_oblock m = 0)) <-> fine 1 limit (fun _ => false) i m).
    { intros i m Hm. rewrite (flags1_ok m (Hflag m Hm)). rewrite valid_bit. unfold fine. split.
      - intros [[Ef|[Ef|Ef]] H]; rewrite Ef in *; vm_compute (N.testbit _ 0) in H; [right; conj; auto; discriminate|left; auto|left; auto].
      - intros [[H [Ef|[_ Ef]]]|(H & Ef & _)]; rewrite Ef; vm_compute (N.testbit _ 0); auto. }
    split; intros (A & B).
    - destruct B as [B _]. split; auto. intros i m Hm. assert (Hin : In m (concat (map (@ab_values _) abs))) by (rewrite <- (in_numbered _ 0); apply (in_map snd) in Hm; exact Hm).
      apply Hone; auto. apply (A 0). apply in_map_iff. exists m. auto.
    - conj; auto. intros i m Hm. apply in_map_iff in Hm as (m' & Em & Hm). injection Em as <- <-. pose proof Hm as Hm0.
      rewrite <- (in_numbered _ 0) in Hm. apply in_map_iff in Hm as ([k x] & Ex & Hx). cbn [snd] in Ex. subst x. apply (Hone k); auto. }
  split.
  - intros (abs & HF & Hg). exists (map (@ab_values _) abs). split; auto. apply Hiff; auto.
  - intros (vss & HF & Ht). destruct (R2 vss HF) as (abs & HF' & <-). exists abs. split; auto. apply Hiff; auto.
Qed.

(** The dirty bit of cache block [i], as it is stored. *)
Definition dirty_bit (eng : N -> option (list N)) (sb : cache_sb) (wblocks : list N) (i : N) : bool :=
  (i <? cs_cache_blocks sb) && match stored_bit eng wblocks i with Some b => b | None => false end.
Theorem C34_version2 : forall eng d inf nr sb limit root depth blocks foot wdepth wblocks wfoot,
  cs_version sb = 2 -> cs_dirty_root sb = Some root -> origin_limit sb limit ->
  tree u64_codec d true depth (cs_mapping_root sb) (combine (range 0 (nlen blocks)) blocks) foot -> NoDup foot -> NoDup blocks -> ~ In 0 foot ->
  tree u64_codec d true wdepth root (combine (range 0 (nlen wblocks)) wblocks) wfoot -> NoDup wfoot -> NoDup wblocks -> ~ In 0 wfoot ->
  (forall b, In b foot -> ~ In b wfoot /\ ~ In b wblocks) ->
  0 < nr < 2 ^ 64 -> (nlen blocks + 1) * 509 < 2 ^ 32 -> nlen wblocks * 509 * 64 < 2 ^ 64 -> (forall b, In b (foot ++ wfoot) -> b < nr /\ eng b = Some (d b)) ->
  (forall b data, In b (blocks ++ wblocks) -> eng b = Some data -> b < nr /\ bytes data) ->
  (forall b data a, In b blocks -> eng b = Some data -> unpack_array_block cm_codec data = Ok a -> ah_max (ab_hdr a) = 509) ->
  (forall b data a, In b wblocks -> eng b = Some data -> unpack_array_block u64_codec data = Ok a -> ah_max (ab_hdr a) = 509) ->
  exists sm errs, check_mappings eng nr inf sb = Ok (sm, errs) /\
    (errs = [] <->
       flat_map (block_errors eng (cs_cache_blocks sb)) (combine (range 0 (nlen wblocks)) wblocks) = [] /\
       exists vss, Forall2 (reads_as cm_codec eng) blocks vss /\ table_fine 2 limit (dirty_bit eng sb wblocks) (numbered 0 vss)).
Proof.
  intros eng d inf nr sb limit root depth blocks foot wdepth wblocks wfoot Hv Hroot Hl HT HN HNb H0 HTw HNw HNwb Hw0 Hdis Hnr Hnb Hnw Hf Hby0 Hstd Hstdw.
  assert (Hby : forall b data, In b blocks -> eng b = Some data -> bytes data) by (intros b data H1 H2; apply (Hby0 b data); auto; apply in_or_app; auto). destruct (limit_ok sb limit Hl) as (o & sl & E1 & E2).
  unfold check_mappings. rewrite E1, Hv, Hroot. cbn [bind]. rewrite E2. change (2 =? 1) with false. change (2 =? 2) with true. cbv iota.
  pose proof (C42_read_bitset_checked eng d inf nr root (cs_cache_blocks sb) wdepth wblocks wfoot HTw HNw ltac:(intros b Hb; apply Hf, in_or_app; auto) (proj2 Hnr) Hnw Hstdw) as HB.
  unfold read_bitset_checked in HB. rewrite (array_walk_index u64_codec inf eng (bv_visit (cs_cache_blocks sb)) nr d wdepth _ wblocks wfoot _ HTw HNw (proj2 Hnr) ltac:(lia) ltac:(intros b Hb; apply Hf, in_or_app; auto)) in HB.
  destruct (check_sm_ok nr Hnr) as (S1 & S2 & S3 & S4).
  destruct (array_walk_sm_index u64_codec inf eng (bv_visit (cs_cache_blocks sb)) (check_sm nr) d wdepth root wblocks wfoot (fun _ => None) HTw HNw HNwb S3 ltac:(lia)) as (sm1 & Ew1 & (Q1 & Q2 & Q3) & M1 & C1).
  { intros b Hb. destruct (Hf b (in_or_app _ _ _ (or_intror Hb))) as [Hb1 Hb2]. rewrite S1, S4 by auto. destruct (N.eqb_spec b 0) as [->|]; [contradiction|]. auto. }
  { intros b Hb Hbe. destruct (eng b) as [data|] eqn:Eb; [|congruence]. destruct (Hby0 b data (in_or_app _ _ _ (or_intror Hb)) Eb) as [Hb1 _]. rewrite S1, S2, S4 by auto. split; auto. destruct (b =? 0); lia. }
  rewrite Ew1. clear Ew1. cbn [bind]. destruct (visit_array_blocks u64_codec eng (bv_visit (cs_cache_blocks sb)) (fun _ => None) (combine (range 0 (nlen wblocks)) wblocks)) as [dirty werrs].
  destruct HB as [Hd ->]. cbn [fst snd]. rewrite S1 in C1, Q1.
  destruct (array_walk_sm_index cm_codec inf eng (mc2_visit limit dirty) sm1 d depth _ blocks foot (mkfb sl []) HT HN HNb M1 ltac:(lia)) as (sm2 & Ew & _).
  { intros b Hb. destruct (Hf b (in_or_app _ _ _ (or_introl Hb))) as [Hb1 Hb2]. rewrite Q1. specialize (C1 b Hb1). rewrite S4 in C1 by auto. destruct (Hdis b Hb). unfold in_count in C1.
    destruct (in_dec N.eq_dec b wfoot); [contradiction|]. destruct (in_dec N.eq_dec b wblocks); [contradiction|]. destruct (N.eqb_spec b 0) as [->|]; [contradiction|]. conj; auto. lia. }
  { intros b Hb Hbe. destruct (eng b) as [data|] eqn:Eb; [|congruence]. destruct (Hby0 b data (in_or_app _ _ _ (or_introl Hb)) Eb) as [Hb1 _]. rewrite Q1, Q2, S2. split; auto.
    specialize (C1 b Hb1). rewrite S4 in C1 by auto. unfold in_count in C1. destruct (in_dec N.eq_dec b wfoot), (in_dec N.eq_dec b wblocks), (b =? 0); lia. }
  rewrite Ew. cbn [bind]. exists sm2. eexists. split; [reflexivity|].
  assert (Happ : forall A (a b : list A), a ++ b = [] <-> a = [] /\ b = []). { intros A a b. split; [apply app_eq_nil|intros [-> ->]; reflexivity]. }
  rewrite Happ. clear Happ. apply and_iff_compat_l.
  destruct (visit_array_blocks cm_codec eng (mc2_visit limit dirty) (mkfb sl []) (combine (range 0 (nlen blocks)) blocks)) as [seen' es] eqn:E. cbn [snd].
  set (ent := fun (index : N) (a : array_block cmapping) => let cbegin := (index * ah_max (ab_hdr a)) mod W32 in let cend := (cbegin + ah_nr (ab_hdr a)) mod W32 in combine (range cbegin cend) (ab_values a)).
  pose proof (blocks_spec eng limit (fun i m => check_flags2 m (dirty i)) ent blocks 0 (mkfb sl []) seen' es ltac:(intros x []) E) as H. rewrite H. clear H.
  destruct (reads_values eng blocks) as [R1 R2].
  assert (Hent : forall bs abs j, Forall2 (reads eng) bs abs -> incl bs blocks -> (j + nlen bs + 1) * 509 < 2 ^ 32 -> all_ent ent j abs = numbered j (map (@ab_values _) abs)).
  { intros bs abs j HF. revert j. induction HF as [|b a bs abs (data & D1 & D2 & D3) HF IH]; intros j Hi Hj; cbn [all_ent map numbered]; auto.
    assert (Hlb : nlen (b :: bs) = 1 + nlen bs) by (unfold nlen; cbn [length]; lia). rewrite Hlb in Hj.
    rewrite IH; [|intros x Hx; apply Hi; right; auto|lia]. f_equal. unfold ent. cbv zeta. destruct (unpack_array_facts cm_codec data a D3) as [F1 F2].
    rewrite (Hstd b data a) in * by (auto; apply Hi; left; auto). rewrite F1. rewrite (N.mod_small (j * 509)) by (unfold W32; lia). rewrite N.mod_small by (unfold W32; lia). auto. }
  assert (Hiff : forall abs, Forall2 (reads eng) blocks abs -> good limit (fun i m => check_flags2 m (dirty i)) (all_ent ent 0 abs) [] <-> table_fine 2 limit (dirty_bit eng sb wblocks) (numbered 0 (map (@ab_values _) abs))).
  { intros abs HF. rewrite (Hent blocks abs 0 HF (incl_refl _)) by lia. unfold good, table_fine. rewrite fine_oblocks.
    pose proof (reads_range eng blocks Hby abs HF) as Hrg.
    assert (Hone : forall i m, In (i, m) (numbered 0 (map (@ab_values _) abs)) -> (check_flags2 m (dirty i) = true /\ (if cm_valid m then cm_oblock m < limit else cm_oblock m = 0)) <-> fine 2 limit (dirty_bit eng sb wblocks) i m).
    { intros i m Hm. assert (Hin : In m (concat (map (@ab_values _) abs))) by (rewrite <- (in_numbered _ 0); apply (in_map snd) in Hm; exact Hm).
      assert (Hfl : cm_flags m < 2 ^ 32). { apply in_concat in Hin as (vs & H1 & H2). apply in_map_iff in H1 as (a & <- & Ha). rewrite Forall_forall in Hrg. specialize (Hrg a Ha). rewrite Forall_forall in Hrg. destruct (Hrg m H2). lia. }
      assert (Hdi : dirty i <> Some true <-> dirty_bit eng sb wblocks i = false).
      { rewrite Hd. unfold dirty_bit. destruct (i <? cs_cache_blocks sb); cbn [andb]; [|split; [reflexivity|intros _ Hq; discriminate Hq]]. destruct (stored_bit eng wblocks i) as [[|]|]; (split; [intros Hq; try reflexivity; exfalso; apply Hq; reflexivity|intros Hq Hq2; congruence]). }
      rewrite (flags2_ok m _ Hfl). rewrite valid_bit, Hdi. unfold fine. split.
      - intros [[Ef|[Ef H1]] H]; rewrite Ef in *; vm_compute (N.testbit _ 0) in H; [left; auto|right; auto].
      - intros [[H [Ef|[H' Ef]]]|(H & Ef & H1)]; try discriminate; rewrite Ef; vm_compute (N.testbit _ 0); auto. }
    split; intros (A & B).
    - destruct B as [B _]. split; auto. intros i m Hm. apply Hone; auto.
    - conj; auto. intros i m Hm. apply Hone; auto. }
  split.
  - intros (abs & HF & Hg). exists (map (@ab_values _) abs). split; auto. apply Hiff; auto.
  - intros (vss & HF & Ht). destruct (R2 vss HF) as (abs & HF' & <-). exists abs. split; auto. apply Hiff; auto.
Qed.
