(** C59: cache_check accepts what cache_restore writes. *)
From Coq Require Import Permutation.
From Verif Require Import IoMany_Proofs Base Csum_Model Codec_Model Codec_Spec Codec_Proofs Pack_Proofs SpaceMap_Model Utils_Model Utils_Proofs Batcher_Model Builder_Model Builder_Spec BtreeBuild_Proofs Walker_Model Walker_Spec
  Array_Model Array_Spec Array_Proofs SmWrite_Model SmWrite_Spec SmCheck_Model SmCheck_Spec Props_SmCheck Repair_Model ThinCheck_Model ThinCheck_Spec ThinCheck_Proofs CacheCheck_Model CacheCheck_Spec
  CacheCmd_Model CacheCmd_Spec CacheCmd_Proofs CacheCmdFix_Proofs CacheVerdict_Proofs Props_CacheCmd WritebackSel_Proofs Era_Spec CacheIo_Model CacheIo_Spec.

Lemma foot_root {V} (c : codec V) d r dp b kvs foot : tree c d r dp b kvs foot -> In b foot.
Proof. destruct dp; cbn [tree]; [intros (h & ks & vs & H); decompose [and] H; subst; left; auto|intros (h & ch & sb & H); decompose [and] H; subst; left; auto]. Qed.
Lemma numbered_flat {V} (vss : list (list V)) : forall j, packed_in 509 vss -> CacheCheck_Spec.numbered j vss = combine (range (j * 509) (j * 509 + nlen (concat vss))) (concat vss).
Proof.
  induction vss as [|vs r IH]; intros j HP; cbn [CacheCheck_Spec.numbered concat]; [cbn; destruct (range _ _); auto|].
  destruct HP as (P1 & P2 & P3 & P4). rewrite IH by auto.
  assert (E : nlen (vs ++ concat r) = nlen vs + nlen (concat r)) by (unfold nlen; rewrite app_length; lia). rewrite E.
  assert (Ha : forall (a b : list N) (x y : list V), length a = length x -> combine (a ++ b) (x ++ y) = combine a x ++ combine b y).
  { induction a as [|a0 a IHa]; intros b [|x0 x] y Hl; cbn in *; try discriminate; auto. f_equal. auto. }
  destruct r as [|r0 r].
  { cbn [concat]. rewrite !app_nil_r. change (nlen (@nil V)) with 0. rewrite !N.add_0_r. destruct (range ((j + 1) * 509) _); cbn [combine]; rewrite app_nil_r; reflexivity. }
  specialize (P3 ltac:(discriminate)).
  replace (range (j * 509) (j * 509 + (nlen vs + nlen (concat (r0 :: r))))) with (range (j * 509) (j * 509 + nlen vs) ++ range ((j + 1) * 509) ((j + 1) * 509 + nlen (concat (r0 :: r)))).
  - rewrite Ha; auto. rewrite range_length. unfold nlen. lia.
  - rewrite P3. replace (j * 509 + (509 + nlen (concat (r0 :: r)))) with ((j + 1) * 509 + nlen (concat (r0 :: r))) by lia. replace (j * 509 + 509) with ((j + 1) * 509) by lia.
    symmetry. apply range_app; lia.
Qed.
Lemma in_numbered_nth {V} (vs : list V) i m : In (i, m) (combine (range 0 (nlen vs)) vs) -> i < nlen vs /\ nth_error vs (N.to_nat i) = Some m.
Proof.
  enough (G : forall (vs : list V) a, In (i, m) (combine (range a (a + nlen vs)) vs) -> a <= i < a + nlen vs /\ nth_error vs (N.to_nat (i - a)) = Some m).
  { intros H. destruct (G vs 0 H) as [A B]. rewrite N.sub_0_r in B. split; [lia|exact B]. }
  clear vs. induction vs as [|v vs IH]; intros a H; [destruct (range _ _); destruct H|].
  assert (Hl : nlen (v :: vs) = 1 + nlen vs) by (unfold nlen; cbn [length]; lia). rewrite Hl in *. rewrite range_cons in H by lia. cbn [combine] in H. destruct H as [H|H].
  - injection H as -> ->. rewrite N.sub_diag. split; [lia|reflexivity].
  - replace (a + (1 + nlen vs)) with (a + 1 + nlen vs) in H by lia. destruct (IH _ H) as [A B]. split; [lia|]. replace (N.to_nat (i - a)) with (Datatypes.S (N.to_nat (i - (a + 1)))) by lia. exact B.
Qed.
Lemma nodup_map_on {A B} (f : A -> B) l : NoDup l -> (forall x y, In x l -> In y l -> f x = f y -> x = y) -> NoDup (map f l).
Proof.
  intros H. induction H as [|x l Hx HN IH]; intros Hf; cbn [map]; constructor.
  - intros Hi. apply in_map_iff in Hi as (y & E & Hy). apply Hx. rewrite (Hf x y); auto; [left|right]; auto.
  - apply IH. intros; apply Hf; auto; right; auto.
Qed.
Lemma map_on_inj {A B} (f : A -> B) l x y : NoDup (map f l) -> In x l -> In y l -> f x = f y -> x = y.
Proof.
  induction l as [|z l IH]; cbn [map In]; [tauto|]. intros HN [->|Hx] [->|Hy] E; auto; inversion HN as [|? ? H1 H2]; subst; [exfalso; apply H1; rewrite E; apply in_map; auto|exfalso; apply H1; rewrite <- E; apply in_map; auto|auto].
Qed.

Section Restored.
Variables (D : disk) (n : N).
Let eng := dev n (fun _ => true) D.

Lemma eng_in b : b < n -> eng b = Some (D b).
Proof using. intros H. unfold eng, dev. destruct (N.ltb_spec b n); [reflexivity|lia]. Qed.
Lemma block_reads {V} (c : codec V) b vs : b < n -> array_block_at c D b vs -> reads_as c eng b vs.
Proof using. intros H (A & B & C & E). exists (D b). eexists. rewrite eng_in by auto. conj; auto. exact E. Qed.
Lemma blocks_read {V} (c : codec V) blocks vss : (forall b, In b blocks -> b < n) -> Forall2 (array_block_at c D) blocks vss -> Forall2 (reads_as c eng) blocks vss.
Proof using.
  intros Hb HF. induction HF as [|b vs bs vss HA HF IH]; constructor.
  - apply block_reads; auto. apply Hb. left. auto.
  - apply IH. intros; apply Hb; right; auto.
Qed.
Lemma blocks_max {V} (c : codec V) blocks vss b data a : (4096 - 24) / N.of_nat (csize c) = 509 -> (forall b, In b blocks -> b < n) -> Forall2 (array_block_at c D) blocks vss ->
  In b blocks -> eng b = Some data -> unpack_array_block c data = Ok a -> ah_max (ab_hdr a) = 509.
Proof using.
  intros Hc Hb HF Hi He Hu. rewrite eng_in in He by auto. injection He as <-. induction HF as [|b' vs bs vss HA HF IH]; [destruct Hi|]. destruct Hi as [->|Hi]; [|apply IH; auto; intros; apply Hb; right; auto].
  destruct HA as (_ & _ & _ & E). rewrite E in Hu. apply Ok_inj in Hu. subst a. exact Hc.
Qed.

Lemma word_bit blocks vss i : (forall b, In b blocks -> b < n) -> Forall2 (array_block_at u64_codec D) blocks vss -> packed_in 509 vss ->
  stored_bit eng blocks i = option_map (fun w => N.testbit w (i mod 64)) (nth_error (concat vss) (N.to_nat (i / 64))).
Proof using.
  intros Hb HF HP. rewrite (concat_nth 509) by (auto; lia). unfold stored_bit.
  replace (i / (509 * 64)) with (i / 64 / 509) by (rewrite N.div_div by lia; f_equal; lia).
  replace (i mod (509 * 64) / 64) with (i / 64 mod 509).
  2:{ rewrite (N.mul_comm 509 64), N.mod_mul_r by lia. rewrite (N.mul_comm 64 (i / 64 mod 509)), N.div_add by lia. rewrite (N.div_small (i mod 64)) by (apply N.mod_lt; lia). reflexivity. }
  assert (G : forall bs k j, (forall b, In b bs -> b < n) -> Forall2 (array_block_at u64_codec D) bs k ->
     match nth_error bs j with Some b => match block_words eng b with Some ws => option_map (fun w => N.testbit w (i mod 64)) (nth_error ws (N.to_nat (i / 64 mod 509))) | None => None end | None => None end =
     option_map (fun w => N.testbit w (i mod 64)) match nth_error k j with Some vs => nth_error vs (N.to_nat (i / 64 mod 509)) | None => None end).
  { intros bs k j Hbs HF'. revert j. induction HF' as [|b vs bs k HA HF' IH]; intros [|j]; cbn [nth_error]; auto.
    - unfold block_words. rewrite eng_in by (apply Hbs; left; auto). destruct HA as (_ & _ & HA & HU). rewrite HA, HU. reflexivity.
    - apply IH. intros; apply Hbs; right; auto. }
  apply G; auto.
Qed.

End Restored.

Lemma restored_fine D n version clean doc : let eng := dev n (fun _ => true) D in
  n <= 255 * 16320 -> version = 1 \/ version = 2 -> cdoc_fits doc -> ci_hint_width (cd_sb doc) = 4 -> NoDup (map cm_origin (cd_maps doc)) ->
  cache_restored D n version clean doc ->
  exists s m, cache_with n D eng s m /\ origin_limit s (2 ^ 48) /\ arrays_fine eng (2 ^ 48) s m /\ map_fine eng n m false.
Proof.
  intros eng Hn Hv Hfits Hw Horig
  (s & maps & ws & hints & R1 & R2 & (T1 & T2 & T3 & T4) & R3 & R4 & R5 & (C1 & C2 & C3 & C4 & C5) & R7 & R8 & fm & bm & fd & bd & fh & bh & fx & sms & AM & AD & AH & AX & HU).
  cbv zeta in HU. set (used := 0 :: fx ++ (bm ++ fm) ++ (bd ++ fd) ++ (bh ++ fh) ++ sms) in *.
  destruct HU as (HN & HF & _ & (r & rest & ies & depth & foot & M1 & M2 & M3 & M4 & M5 & M6 & ->) & (P1 & P2 & P3 & P4)).
  destruct (array_parts cm_codec D _ _ _ _ ltac:(cbn; lia) AM) as (dm & vm & TM & FM & <- & PM).
  destruct (array_parts hint_codec D _ _ _ _ ltac:(cbn; lia) AH) as (dh & vh & TH & FH & <- & PH).
  destruct (array_parts u64_codec D _ _ _ _ ltac:(cbn; lia) AX) as (dx & vx & TX & FX & _ & _).
  change (array_per cm_codec) with 509 in PM.
  set (m := mkcp bm fm bd fd bh fh [] fx r ies [] foot).
  assert (Hperm : Permutation (p_used m) used).
  { unfold p_used, used, m. cbn [p_maps p_maps_index p_dirty p_dirty_index p_hints p_hints_index p_discards p_discards_index p_sm p_entries p_large p_large_index app].
    constructor. apply (Permutation_count_occ N.eq_dec). intros x. rewrite !count_occ_app. cbn [count_occ]. rewrite ?count_occ_app. destruct (N.eq_dec _ x); lia. }
  assert (Hin : forall b, In b (p_used m) <-> In b used) by (intros b; split; apply Permutation_in; [auto|apply Permutation_sym; auto]).
  assert (HN' : NoDup (p_used m)) by (eapply Permutation_NoDup; [apply Permutation_sym; exact Hperm|exact HN]).
  assert (HF' : forall b, In b (p_used m) -> b < n) by (intros b Hb; apply HF, Hin; auto).
  assert (H0 : forall b, In b (tl (p_used m)) -> b <> 0) by (intros b Hb ->; inversion HN' as [|? ? X _]; subst; auto).
  assert (Hmaps : forall b, In b bm -> b < n) by (intros b Hb; apply HF; unfold used; right; rewrite !in_app_iff; tauto).
  assert (Hdirty : forall b, In b bd -> b < n) by (intros b Hb; apply HF; unfold used; right; rewrite !in_app_iff; tauto).
  assert (Hhints : forall b, In b bh -> b < n) by (intros b Hb; apply HF; unfold used; right; rewrite !in_app_iff; tauto).
  assert (He : forall b, b < n -> eng b = Some (D b)) by (intros b Hb; apply eng_in; auto).
  assert (Hdr : version = 1 /\ fd = [] /\ bd = [] \/ version = 2 /\ exists root dd vd, cs_dirty_root s = Some root /\ tree u64_codec D true dd root (combine (range 0 (nlen bd)) bd) fd /\
     Forall2 (array_block_at u64_codec D) bd vd /\ concat vd = ws /\ packed_in 509 vd /\ nlen ws = div_up (cs_cache_blocks s) 64).
  { destruct R2 as (_ & _ & _ & _ & _ & _ & _ & Hr & _). rewrite R3 in Hr. destruct Hv as [-> | ->].
    - left. split; auto. destruct (cs_dirty_root s); [lia|exact AD].
    - right. split; auto. destruct (cs_dirty_root s) as [root|]; [|lia]. destruct (array_parts u64_codec D _ _ _ _ ltac:(cbn; lia) AD) as (dd & vd & TD & FD & Ed & PD). change (array_per u64_codec) with 509 in PD.
      exists root, dd, vd. conj; auto. rewrite R3 in C5. destruct C5 as [C5|(_ & root' & _ & _ & C5)]; [discriminate|exact C5]. }
  exists s, m. conj.
  - unfold cache_with, m. cbn [p_maps p_maps_index p_dirty p_dirty_index p_hints p_hints_index p_discards p_discards_index p_sm p_entries p_large p_large_index]. fold m.
    conj; auto.
    + apply He. apply HF. left. auto.
    + exists dm. exact TM.
    + rewrite R3. destruct Hdr as [(-> & -> & ->)|(-> & root & dd & vd & E & TD & _)]; [left; conj; auto; split; auto|right]. split; auto. exists root. conj; auto; [|exists dd; exact TD].
      apply H0. apply foot_root in TD. unfold p_used, m. cbn [app tl p_dirty_index]. rewrite !in_app_iff. tauto.
    + right. rewrite T4. conj; auto; [|exists dh; exact TH]. apply H0. apply foot_root in TH. unfold p_used, m. cbn [app tl p_hints_index]. rewrite !in_app_iff. tauto.
    + right. split; [|exists dx; exact TX]. apply H0. apply foot_root in TX. unfold p_used, m. cbn [app tl p_discards_index]. rewrite !in_app_iff. tauto.
    + eauto.
    + rewrite M2. exact M3.
    + eauto.
    + cbn. constructor.
    + intros b Hb. apply He, HF'. unfold p_used, m. cbn [p_maps p_maps_index p_dirty p_dirty_index p_hints p_hints_index p_discards p_discards_index p_sm p_entries p_large p_large_index].
      rewrite !in_app_iff in *. tauto.
    + intros b data a Hb. apply (blocks_max D n cm_codec bm vm b data a); auto.
    + intros b data a Hb. rewrite app_nil_r in Hb. destruct Hdr as [(_ & _ & ->)|(_ & root & dd & vd & _ & _ & FD & _)]; [destruct Hb|]. apply (blocks_max D n u64_codec bd vd b data a); auto.
  - right. auto.
  - unfold arrays_fine, m. cbn [p_maps p_dirty p_hints p_discards]. conj.
    + intros i b Hb. destruct Hdr as [(_ & _ & ->)|(_ & root & dd & vd & _ & _ & FD & Ed & PD & Hl)]; [destruct i; discriminate Hb|].
      pose proof (blocks_read D n u64_codec bd vd Hdirty FD) as Hr. assert (HL : length bd = length vd) by (clear - FD; induction FD; cbn; auto).
      assert (Hi : (i < length bd)%nat) by (apply nth_error_Some; congruence). split.
      * destruct (nth_error vd i) as [vs|] eqn:Evs; [|apply nth_error_None in Evs; lia]. exists vs. clear - Hr Hb Evs. revert i Hb Evs. induction Hr as [|b' vs' bs k HA Hr IH]; intros [|i] Hb Evs; cbn [nth_error] in *; try discriminate; [injection Hb as <-; injection Evs as <-; exact HA|eapply IH; eauto].
      * pose proof (start_lt 509 ltac:(lia) vd i PD ltac:(lia)) as Hs. rewrite Ed, Hl in Hs. unfold div_up in Hs. lia.
    + exists vm. split; [apply blocks_read; auto|]. rewrite numbered_flat by auto. rewrite N.mul_0_l, N.add_0_l.
      assert (Hst : forall i x, In (i, x) (combine (range 0 (nlen (concat vm))) (concat vm)) -> i < cs_cache_blocks s /\ nth_error (concat vm) (N.to_nat i) = Some x /\
         (x = mkcm 0 0 \/ cm_flags x = 1 \/ version = 1 /\ cm_flags x = 3) /\
         (N.testbit (cm_flags x) 0 = true -> exists e, In e (cd_maps doc) /\ cm_cblock e = i /\ cm_origin e = cm_oblock x)).
      { intros i x Hx. apply in_numbered_nth in Hx as [Hx1 Hx2]. rewrite C2 in Hx1. conj; auto.
        - rewrite Forall_forall in P1. rewrite R3 in P1. apply P1. eapply nth_error_In; eauto.
        - intros Hb. specialize (R7 i Hx1). unfold block_state in R7. rewrite Hx2, Hb in R7. unfold doc_state in R7.
          destruct (find (fun m => cm_cblock m =? i) (cd_maps doc)) as [e|] eqn:Ef; [|discriminate R7]. apply find_some in Ef as [Ef1 Ef2]. apply N.eqb_eq in Ef2.
          exists e. conj; auto. cbn [option_map] in R7. congruence. }
      split.
      * intros i x Hx. destruct (Hst i x Hx) as (S1 & S2 & S3 & S4). rewrite R3. destruct S3 as [-> |S3].
        { right. conj; auto. intros ->. unfold stored_dirty. destruct (N.ltb_spec i (cs_cache_blocks s)); [cbn [andb]|reflexivity].
          destruct Hdr as [(? & _)|(_ & root & dd & vd & _ & _ & FD & Ed & PD & Hl)]; [discriminate|]. cbn [p_dirty].
          unfold eng. rewrite (word_bit D n bd vd i Hdirty FD PD), Ed. specialize (P2 R3 i S1). specialize (R7 i S1). unfold block_state in R7. rewrite S2 in R7. cbn [cm_flags N.testbit] in R7. rewrite <- R7 in P2.
          unfold bit_at in P2. destruct (nth_error ws (N.to_nat (i / 64))) as [w|] eqn:Ew; cbn [option_map]; [|reflexivity].
          apply (nth_error_nth _ _ 0) in Ew. rewrite Ew in P2. exact P2. }
        left. split; [|exact S3]. destruct S4 as (e & S4 & _ & <-); [destruct S3 as [-> |[_ ->]]; reflexivity|].
        destruct Hfits as (_ & _ & _ & _ & _ & F6 & _). rewrite Forall_forall in F6. apply F6; auto.
      * apply nodup_map_on.
        { apply NoDup_filter. apply (NoDup_map_inv fst).
          replace (map fst (combine (range 0 (nlen (concat vm))) (concat vm))) with (range 0 (nlen (concat vm))); [apply increasing_NoDup, range_increasing|].
          assert (G : forall (a : list N) (b : list cmapping), length a = length b -> map fst (combine a b) = a). { induction a as [|x a IH]; intros [|y b] H; cbn in *; try discriminate; auto. f_equal. auto. }
          rewrite G; auto. rewrite range_length. unfold nlen. lia. }
        intros [i x] [i' x'] Hx Hx'. apply filter_In in Hx as [Hx Hxb]. apply filter_In in Hx' as [Hx' Hxb']. cbn [snd] in *. intros E.
        destruct (Hst i x Hx) as (S1 & S2 & _ & S4). destruct (Hst i' x' Hx') as (S1' & S2' & _ & S4').
        destruct (S4 Hxb) as (e & G1 & G2 & G3). destruct (S4' Hxb') as (e' & G1' & G2' & G3').
        assert (e = e') by (eapply map_on_inj; eauto; congruence). subst e'. rewrite G2 in G2'. subst i'. rewrite S2 in S2'. injection S2' as ->. reflexivity.
    + intros b Hb. pose proof (blocks_read D n hint_codec bh vh Hhints FH) as Hr. clear - Hr Hb. induction Hr as [|b' vs bs vss HA Hr IH]; [destruct Hb|]. destruct Hb as [->|Hb]; eauto.
    + intros [|i] b Hb; discriminate Hb.
  - set (counts := fun b => if in_dec N.eq_dec b used then 1 else 0).
    destruct (written_entries eng D counts n ies M4) as (ess & B1 & _ & B3).
    { intros i ie Hi. specialize (M5 i ie Hi).
      replace (map (fun x => entry_for (counts (N.of_nat i * 16320 + x))) (range 0 (bitmap_len n (N.of_nat i)))) with
        (map (fun x => Small (if in_dec N.eq_dec (N.of_nat i * 16320 + x) used then 1 else 0)) (range 0 (bitmap_len n (N.of_nat i)))); [exact M5|].
      apply map_ext. intros x. unfold counts. destruct (in_dec _ _ used); reflexivity. }
    { intros ie Hi. apply He, HF'. unfold p_used, m. cbn [p_entries]. rewrite !in_app_iff. do 11 right. apply in_map; auto. }
    exists ess. conj; [exact B1| |intros b v []].
    intros b e Hb Hbe. left. rewrite (B3 b e Hb Hbe). unfold used_count, counts. fold m. destruct (in_dec N.eq_dec b used) as [X|X], (in_dec N.eq_dec b (p_used m)) as [Y|Y]; try reflexivity; exfalso; [apply Y, Hin, X|apply X, Hin, Y].
Qed.

(** Restoring a document whose hints have 4 bytes, and which does not cache an origin block
    twice, gives metadata that cache_check accepts, in either format, and for every setting
    of --ignore-non-fatal-errors. *)
Theorem C59_restored : forall D n version clean doc o writable,
  dev_ok D -> n <= 255 * 16320 -> version = 1 \/ version = 2 -> cdoc_fits doc -> ci_hint_width (cd_sb doc) = 4 -> NoDup (map cm_origin (cd_maps doc)) ->
  cache_restored D n version clean doc ->
  cc_sb_only o = false -> cc_skip_mappings o = false -> cc_skip_hints o = false -> cc_skip_discards o = false ->
  cc_auto_repair o = false -> cc_clear_needs_check o = false ->
  cache_check n o (fun _ => true) writable D = (D, Ok tt).
Proof.
  intros D n version clean doc o writable Hdev Hn Hv Hfits Hw Horig HR O1 O2 O3 O4 O5 O6.
  destruct (restored_fine D n version clean doc Hn Hv Hfits Hw Horig HR) as (s & m & A & B & C & (ess & E1 & E2 & E3)).
  eapply (C59_fine_is_accepted n o (fun _ => true) writable D s m (2 ^ 48)); auto.
  exists ess. conj; auto. intros b e Hb He. destruct (E2 b e Hb He) as [|[? _]]; [auto|discriminate].
Qed.
Print Assumptions C59_restored.
