(** Property C33: cache_restore and cache_dump. *)
From Verif Require Import Base Csum_Model Codec_Model Codec_Spec Codec_Proofs SbCodec_Proofs SpaceMap_Model SpaceMap_Spec SpaceMap_Proofs Batcher_Model Batcher_Proofs IoMany_Proofs
  Builder_Model Builder_Spec Builder_Proofs Utils_Proofs BtreeBuild_Proofs Session_Spec ThinOut_Model Walker_Model Array_Model Array_Spec Array_Proofs SmWrite_Model
  SmWrite_Spec SmWrite_Proofs SmMetaTop_Proofs Restore_Model RestoreSafe_Proofs Props_SmWrite ContigSafe_Proofs RestoreRun_Proofs RestoreDoc_Proofs RestoreFin_Proofs Props_RestoreDoc Utils_Model Era_Spec
  CacheIo_Model CacheIo_Spec CacheRestore_Proofs CacheRestoreFin_Proofs CacheDump_Proofs.

Lemma empty_array {V} (c : codec V) d root foot blocks : array_at c d root [] foot blocks -> blocks = [].
Proof.
  intros (depth & vss & _ & B & C & D). destruct vss as [|vs vss]; [inversion B; auto|]. exfalso. destruct (D 0%nat) as [_ H]; [cbn; lia|]. cbn [nth] in H.
  cbn [concat] in C. apply app_eq_nil in C as [C _]. auto.
Qed.

(** A cache document of any number of mappings and hints, restored in either format onto a
    device whose blocks can be written, for every batch size and previous contents: restore
    either succeeds, and then the blocks of the document were in order, and the device says
    about every cache block what the document says (the superblock, mappings, dirty state, and hints, with zero
    hints where there are none), and its metadata space map counts exactly the blocks in use
    ([cache_restored]); or it reports an error, because the metadata device is full, the
    blocks are out of order or past the end of the cache, or a cache of no blocks was asked
    for in version 2.  It never panics. *)
Theorem C33_restore : forall d good junk nr batch version clean doc w r,
  let n := N.min nr (255 * 16320) in
  (forall b, b < n -> good b = true) -> (forall b, bytes (junk b) /\ nlen (junk b) = 4096) ->
  version = 1 \/ version = 2 -> cdoc_fits doc ->
  cache_restore d good junk nr batch version clean (cdoc_events doc) = (w, r) ->
  match r with
  | Ok _ => doc_in_order doc /\ cache_restored (wb_disk w) n version clean doc /\ wb_queue w = []
  | Err => exhausted n (W32 - 1) w \/ ~ doc_in_order doc \/ version = 2 /\ ci_nr_cache_blocks (cd_sb doc) = 0
  | Panic => False
  end.
Proof.
  intros d good junk nr0 batch version clean doc w r n Hg Hj Hv Hfit E. pose proof Hfit as (F1 & F2 & F3 & F4 & F5 & F6 & F7).
  assert (Hn : n < 2 ^ 64) by (unfold n; lia). set (nr := ci_nr_cache_blocks (cd_sb doc)) in *. assert (Hnr : nr < 2 ^ 32) by exact F2.
  enough (HW : wp (cvisits version clean (cdoc_events doc) crest_new) (wb_new d good (core_metadata_sm nr0 (W32 - 1)) batch junk)
    (fun w _ => doc_in_order doc /\ cache_restored (wb_disk w) n version clean doc /\ wb_queue w = [])
    (fun w => exhausted n (W32 - 1) w \/ ~ doc_in_order doc \/ version = 2 /\ nr = 0)).
  { unfold cache_restore in E. unfold wp in HW. rewrite E in HW. destruct r; [exact HW|exact HW|exact HW]. }
  clear E w r. unfold cdoc_events. cbn [app cvisits]. apply wp_bind. cbn [cvisit]. unfold cache_superblock_b. cbn [cr_sec crest_new csec_eqb negb].
  unfold core_metadata_sm. change (N.of_nat MAX_METADATA_BITMAPS * ENTRIES_PER_BITMAP) with (255 * 16320). fold n.
  change (core_sm_for n (W32 - 1)) with (sm_new n (W32 - 1)). set (w0 := wb_new _ _ _ _ _).
  assert (I0 : sm_inv n (W32 - 1) (wb_sm w0)) by (apply sm_new_inv; unfold W32; lia).
  unfold wb_alloc. apply wp_bind, wp_bind. unfold wp at 1. destruct (wb_alloc_loc w0) as [w [b| |]] eqn:Ea.
  2:{ pose proof (wb_alloc_loc_spec n (W32 - 1) w0 w Err I0 Ea) as (_ & _ & _ & _ & _ & _ & _ & [(b & X & _)|(_ & H1 & H2 & _)]); [discriminate|].
      left. left. rewrite H2. exact H1. }
  2:{ pose proof (wb_alloc_loc_spec n (W32 - 1) w0 w Panic I0 Ea) as (_ & _ & _ & _ & _ & _ & _ & [(b & X & _)|(X & _)]); discriminate. }
  destruct (first_block d good junk n batch w b Ea Hn Hg Hj) as (-> & Hn0 & He & HC & Hc).
  unfold wp at 1. cbn [b_loc N.eqb negb]. apply wp_bind.
  eapply wp_mono; [eapply wp_safe; [|apply (j_ab_complete n (W32 - 1) Hn)|split; [exact HC|intros ? []]]| |intros w' Hx; left; exact Hx].
  { apply (ab_complete_wp n (W32 - 1) Hn u64_codec word_ok 0 u64_lossless u64_size eq_refl 0 w (abb_new u64_codec 0) []); [discriminate| |exact He].
    apply (AInv_new n Hn u64_codec word_ok 0 u64_size). discriminate. }
  intros w1 dr [(l & fx & G & Hdr & _ & Ha) Hj1]. apply wp_ret. cbn [cr_dirty cr_bits crest_new abb_blocks abb_new app] in *.
  change (contents 0 0 []) with (@nil N) in Ha. pose proof (empty_array _ _ _ _ _ Ha) as ->. cbn [app] in G.
  set (ob := if 1 <? version then Some (abb_new u64_codec (div_up_u64 nr 64)) else None).
  assert (Hdu : div_up_u64 nr 64 = div_up nr 64).
  { unfold div_up_u64, div_up, W64. rewrite N.mod_small; [reflexivity|]. change (2 ^ 64) with 18446744073709551616. lia. }
  assert (HR : RC n version nr dr fx w1 (abb_new cm_codec nr) ob (abb_new hint2 nr) (0, 0) [] []).
  { constructor; auto.
    - apply G.
    - apply (AInv_new n Hn cm_codec cm_range no_mapping ltac:(cbn; lia)). change (array_per cm_codec) with 509. lia.
    - reflexivity.
    - apply (AInv_new n Hn hint2 hint_range no_hint ltac:(cbn; lia)). change (array_per hint2) with 1018. lia.
    - reflexivity.
    - unfold ob. destruct Hv as [-> | ->]; cbn [N.ltb N.compare]; [reflexivity|]. change (1 <? 2) with true. cbn iota. split; auto. exists []. rewrite Hdu. conj.
      + apply (AInv_new n Hn u64_codec word_ok 0 u64_size). change (array_per u64_codec) with 509. assert (div_up nr 64 <= nr) by (unfold div_up; dlia). lia.
      + reflexivity.
      + constructor; cbn [fst snd]; auto; [reflexivity|]. intros x. cbn [app existsb]. unfold value_at. cbn [assoc]. destruct (_ =? 0); apply N.bits_0.
    - intros x. rewrite (gr_cnt _ _ _ _ _ G), Hc. cbn [abb_new abb_blocks occ app]. assert (Eo : dblocks ob = []) by (unfold ob; destruct (1 <? version); reflexivity).
      rewrite Eo. cbn [app]. rewrite app_nil_r. rewrite (N.eqb_sym x 0). destruct (0 =? x); lia.
    - eapply grew_one; [exact Hn|exact Hnr|exact Hv|exact G|]. intros x. rewrite Hc. destruct (x =? 0); lia. }
  change (wp _ w1 ?Q ?E) with (wp (cvisits version clean (CMapsB :: map CMap (cd_maps doc) ++ CMapsE :: CHintsB :: map CHint (cd_hints doc) ++ [CHintsE; CSbE; CEof])
    (in_run (cd_sb doc) dr w1 (abb_new cm_codec nr) ob (abb_new hint2 nr) (0, 0) CSuperblock)) w1 Q E).
  cbn [cvisits]. eapply wp_step; [reflexivity|].
  change (set_csec CMappings (in_run (cd_sb doc) dr w1 (abb_new cm_codec nr) ob (abb_new hint2 nr) (0, 0) CSuperblock))
    with (in_run (cd_sb doc) dr w1 (abb_new cm_codec nr) ob (abb_new hint2 nr) (0, 0) CMappings).
  eapply (maps_wp n version nr Hn Hnr Hv (cd_sb doc) dr fx clean doc) with (ms := []); [reflexivity|exact F6|intros w' [Hx|Hx]; [left; exact Hx|right; left; exact Hx]|reflexivity|exact HR|].
  intros w2 a2 ob2 bits2 HR2. cbn [cvisits]. eapply wp_step; [reflexivity|]. eapply wp_step; [reflexivity|].
  change (set_csec CHints (set_csec CSuperblock (in_run (cd_sb doc) dr w2 a2 ob2 (abb_new hint2 nr) bits2 CMappings)))
    with (in_run (cd_sb doc) dr w2 a2 ob2 (abb_new hint2 nr) bits2 CHints).
  eapply (hints_wp n version nr Hn Hnr Hv (cd_sb doc) dr fx clean doc) with (hs := []); [reflexivity|exact F7|intros w' [Hx|Hx]; [left; exact Hx|right; left; exact Hx]|reflexivity|exact HR2|].
  intros w3 h3 HR3. cbn [cvisits]. eapply wp_step; [reflexivity|].
  change (set_csec CSuperblock (in_run (cd_sb doc) dr w3 a2 ob2 h3 bits2 CHints)) with (in_run (cd_sb doc) dr w3 a2 ob2 h3 bits2 CSuperblock).
  apply wp_bind. cbn [cvisit].
  eapply wp_mono; [apply (cache_finalize_wp n version nr Hn Hnr Hv dr fx clean doc eq_refl Hfit w3 a2 ob2 h3 bits2 HR3 Hdr)| |].
  - intros x Hx. apply (gr_free _ _ _ _ _ G x Hx).
  - unfold n in *. lia.
  - intros w4 r4 (A & B & C & D). unfold in_csec. rewrite D. cbn [csec_eqb]. unfold wp, bindst, ret. auto.
  - intros w4 [Hx|Hx]; auto.
Qed.
Print Assumptions C33_restore.

(** Dumping intact metadata of either format, repairing or not, with any number of blocks but
    none: the document says about every cache block what the metadata says; it has the hints
    of the blocks in use, in order; and restore can take it (if the superblock could be read). *)
Theorem C33_dump : forall utf8 eng D nr repair s maps ws hints,
  cache_on eng D nr s maps ws hints -> nr < 2 ^ 64 -> 0 < cs_cache_blocks s < 2 ^ 32 -> utf8 (cs_policy_name s) = true ->
  exists doc, cache_dump utf8 eng nr repair s = (cdoc_events doc, Ok tt) /\ same_superblock s (cd_sb doc) /\ ci_uuid (cd_sb doc) = [] /\ doc_in_order doc /\
    (forall i, i < cs_cache_blocks s -> doc_state doc i = block_state s maps ws i) /\
    (forall i, i < cs_cache_blocks s -> doc_hint doc i = match block_state s maps ws i with Some _ => nth_error hints (N.to_nat i) | None => None end) /\
    (cache_sb_range s -> cdoc_fits doc).
Proof.
  intros utf8 eng D nr repair s maps ws hints (Hm & Lm & Hh & Lh & Hv) Hnr Hcb Hu. set (cb := cs_cache_blocks s) in *.
  assert (HG : forall dirty : N -> cmapping -> bool,
    dump_mappings eng nr repair s = emit (map_emitter cb dirty) (numbered 0 maps) [] ->
    (forall i m, i < cb -> nth_error maps (N.to_nat i) = Some m -> dirty i m = if cs_version s =? 1 then N.testbit (cm_flags m) 1 else Era_Spec.bit_at 64 ws i) ->
    exists doc, cache_dump utf8 eng nr repair s = (cdoc_events doc, Ok tt) /\ same_superblock s (cd_sb doc) /\ ci_uuid (cd_sb doc) = [] /\ doc_in_order doc /\
    (forall i, i < cb -> doc_state doc i = block_state s maps ws i) /\
    (forall i, i < cb -> doc_hint doc i = match block_state s maps ws i with Some _ => nth_error hints (N.to_nat i) | None => None end) /\
    (cache_sb_range s -> cdoc_fits doc)).
  { intros dirty E Hd. unfold cache_dump. rewrite Hu, E. cbn [negb].
    rewrite emit_maps by (eapply Forall_impl; [|apply numbered_lt]; cbv beta; intros x Hx; lia). rewrite app_nil_r.
    set (dm := dumped_maps dirty (numbered 0 maps)). set (valid := rev (map cm_cblock dm)).
    assert (Hne : hints <> []) by (intros ->; unfold nlen in Lh; cbn in Lh; lia).
    rewrite (walk_root_ok hint_codec eng D nr repair _ hints (hint_emitter valid) tt ltac:(cbn; lia) Hh Hnr Hne ltac:(lia)), emit_hints.
    set (dh := dumped_hints _ (numbered 0 hints)).
    assert (Sm : forall i, i < cb -> find (fun m => cm_cblock m =? i) dm = match nth_error maps (N.to_nat i) with Some m => gmap dirty (i, m) | None => None end).
    { intros i Hi. unfold dm. rewrite dumped_maps_chosen, (chosen_find (gmap dirty) cm_cblock (gmap_key dirty)) by lia. rewrite N.sub_0_r. reflexivity. }
    destruct (chosen_order (gmap dirty) cm_cblock (gmap_key dirty) maps 0) as [Om Bm]. rewrite <- dumped_maps_chosen in Om, Bm. fold dm in Om, Bm.
    destruct (chosen_order (ghint (fun i => existsb (N.eqb i) valid)) ch_cblock (ghint_key _) hints 0) as [Oh Bh]. rewrite <- dumped_hints_chosen in Oh, Bh. fold dh in Oh, Bh.
    assert (Hval : forall i, i < cb -> existsb (N.eqb i) valid = match nth_error maps (N.to_nat i) with Some m => N.testbit (cm_flags m) 0 | None => false end).
    { intros i Hi. specialize (Sm i Hi). destruct (nth_error maps (N.to_nat i)) as [m|] eqn:En; [|apply nth_error_None in En; unfold nlen in Lm; lia].
      unfold gmap in Sm. cbn [fst snd] in Sm. rewrite valid_bit in Sm. destruct (N.testbit (cm_flags m) 0).
      - apply existsb_exists. exists i. rewrite N.eqb_refl. split; auto. unfold valid. apply -> in_rev. apply find_some in Sm as [S1 S2]. apply N.eqb_eq in S2. rewrite <- S2 at 1. apply in_map. auto.
      - apply not_true_is_false. intros H. apply existsb_exists in H as (x & H1 & H2). apply N.eqb_eq in H2. subst x. unfold valid in H1. apply in_rev in H1. apply in_map_iff in H1 as (y & H1 & H2).
        apply (find_none _ _ Sm) in H2. cbv beta in H2. rewrite H1, N.eqb_refl in H2. discriminate. }
    exists (mkcdoc (mkcirsb [] (cs_data_block_size s) cb (cs_policy_name s) (cs_policy_hint_size s)) dm dh).
    assert (St : forall i, i < cb -> doc_state (mkcdoc (mkcirsb [] (cs_data_block_size s) cb (cs_policy_name s) (cs_policy_hint_size s)) dm dh) i = block_state s maps ws i).
    { intros i Hi. unfold doc_state. cbn [cd_maps]. rewrite Sm by auto. unfold block_state. destruct (nth_error maps (N.to_nat i)) as [m|] eqn:En; auto.
      unfold gmap. cbn [fst snd]. rewrite valid_bit. destruct (N.testbit (cm_flags m) 0); auto. cbn [option_map cm_origin cm_isdirty]. rewrite (Hd i m) by auto. reflexivity. }
    conj; auto.
    - unfold same_superblock. cbn. auto.
    - unfold doc_in_order, blocks_in_order. cbn [cd_sb cd_maps cd_hints ci_nr_cache_blocks]. conj; auto.
      + rewrite Forall_map. eapply Forall_impl; [|exact Bm]. cbv beta. intros; lia.
      + rewrite Forall_map. eapply Forall_impl; [|exact Bh]. cbv beta. intros; lia.
    - intros i Hi. unfold doc_hint. cbn [cd_hints]. unfold dh. rewrite dumped_hints_chosen, (chosen_find _ ch_cblock (ghint_key _)) by lia. rewrite N.sub_0_r.
      assert (Hb : match block_state s maps ws i with Some _ => true | None => false end = existsb (N.eqb i) valid).
      { rewrite Hval by auto. unfold block_state. destruct (nth_error maps (N.to_nat i)) as [m|]; auto. destruct (N.testbit (cm_flags m) 0); auto. }
      destruct (nth_error hints (N.to_nat i)) as [h|]; [|destruct (block_state s maps ws i); auto]. unfold ghint. cbn [fst snd]. rewrite <- Hb. destruct (block_state s maps ws i); auto.
    - intros (_ & _ & (R1 & R2) & _ & R3 & _ & _ & _ & _ & _ & _ & _ & R4 & R5 & _). unfold cdoc_fits. cbn [cd_sb cd_maps cd_hints ci_nr_cache_blocks ci_block_size ci_hint_width ci_policy]. conj; auto.
      + destruct Hm as (fm & bm & Ha & _). pose proof (array_range cm_codec cm_range D _ maps fm bm cm_lossless Ha) as Hr. apply Forall_forall. intros m Hin. unfold dm in Hin.
        rewrite dumped_maps_chosen in Hin. apply chosen_in in Hin as ([i x] & H1 & H2). apply numbered_in in H1. cbn [snd] in H1. rewrite Forall_forall in Hr. apply Hr in H1.
        unfold gmap in H2. cbn [fst snd] in H2. destruct (cm_valid x); [|discriminate]. injection H2 as <-. cbn [cm_origin]. apply H1.
      + destruct Hh as (fm & bm & Ha & _). apply hint_array in Ha. pose proof (array_range hint2 hint_range D _ hints fm bm hint2_lossless Ha) as Hr. apply Forall_forall. intros m Hin. unfold dh in Hin.
        rewrite dumped_hints_chosen in Hin. apply chosen_in in Hin as ([i x] & H1 & H2). apply numbered_in in H1. cbn [snd] in H1. rewrite Forall_forall in Hr. apply Hr in H1.
        unfold ghint in H2. cbn [fst snd] in H2. destruct (existsb (N.eqb i) valid); [|discriminate]. injection H2 as <-. cbn [ch_data]. apply H1. }
  assert (Hnm : maps <> []) by (intros ->; unfold nlen in Lm; cbn in Lm; lia).
  destruct Hv as [Hv|(Hv & root & Hr & Hw & Lw)].
  - apply (HG (fun _ => cm_dirty)).
    + unfold dump_mappings. rewrite Hv. cbn [N.eqb Pos.eqb]. apply (walk_root_ok cm_codec eng D nr repair _ maps _ [] ltac:(cbn; lia) Hm Hnr Hnm). lia.
    + intros i m Hi Hnth. rewrite Hv. cbn [N.eqb Pos.eqb]. apply dirty_bit.
  - destruct (checked_bits eng D nr repair root cb ws Hw Hnr ltac:(lia) Lw) as (f & Ef & Hf).
    apply (HG (fun i _ => match f i with Some b => b | None => true end)).
    + unfold dump_mappings. rewrite Hv, Hr. cbn [N.eqb Pos.eqb]. fold cb. rewrite Ef. destruct repair;
        apply (walk_root_ok cm_codec eng D nr _ _ maps _ [] ltac:(cbn; lia) Hm Hnr Hnm); lia.
    + intros i m Hi Hnth. rewrite Hf by auto. rewrite Hv. reflexivity.
Qed.
Print Assumptions C33_dump.

(** Dumping intact metadata, and restoring what was dumped in either format onto another
    device: unless that device is too small, the new metadata has the fields of the superblock
    that the document carries, says the same about every cache block, has the same hints for
    those in use (and zeros for the others); and dumping it gives the same document. *)
Theorem C33_roundtrip : forall utf8 eng D nr repair s maps ws hints,
  cache_on eng D nr s maps ws hints -> nr < 2 ^ 64 -> 0 < cs_cache_blocks s -> cache_sb_range s -> utf8 (cs_policy_name s) = true ->
  exists es, cache_dump utf8 eng nr repair s = (es, Ok tt) /\
  forall d good junk nr' batch version clean repair' w r,
    let n := N.min nr' (255 * 16320) in
    (forall b, b < n -> good b = true) -> (forall b, bytes (junk b) /\ nlen (junk b) = 4096) -> version = 1 \/ version = 2 ->
    cache_restore d good junk nr' batch version clean es = (w, r) ->
    match r with
    | Ok _ =>
        let eng' b := if b <? n then Some (wb_disk w b) else None in
        exists s' maps' ws' hints', cache_read_superblock (wb_disk w) 0 = Ok s' /\ cache_sb_range s' /\ cache_on eng' (wb_disk w) n s' maps' ws' hints' /\
          cs_version s' = version /\ cs_clean_shutdown s' = clean /\
          cs_data_block_size s' = cs_data_block_size s /\ cs_cache_blocks s' = cs_cache_blocks s /\ cs_policy_name s' = cs_policy_name s /\ cs_policy_hint_size s' = cs_policy_hint_size s /\
          (forall i, i < cs_cache_blocks s -> block_state s' maps' ws' i = block_state s maps ws i) /\
          (forall i, i < cs_cache_blocks s -> nth_error hints' (N.to_nat i) = match block_state s maps ws i with Some _ => nth_error hints (N.to_nat i) | None => Some [0; 0; 0; 0] end) /\
          cache_dump utf8 eng' n repair' s' = (es, Ok tt)
    | Err => exhausted n (W32 - 1) w
    | Panic => False
    end.
Proof.
  intros utf8 eng D nr repair s maps ws hints Hon Hnr Hcb Hrg Hu. assert (Hc32 : cs_cache_blocks s < 2 ^ 32) by apply Hrg.
  destruct (C33_dump utf8 eng D nr repair s maps ws hints Hon Hnr ltac:(auto) Hu) as (doc & E & (S1 & S2 & S3 & S4) & Hid & Hord & Hst & Hhi & Hfit).
  exists (cdoc_events doc). split; auto. intros d good junk nr' batch version clean repair' w r n Hg Hj Hv Hr. specialize (Hfit Hrg).
  pose proof (C33_restore d good junk nr' batch version clean doc w r Hg Hj Hv Hfit Hr) as H. fold n in H. destruct r as [x| |]; [|destruct H as [H|[H|[_ H]]]; [auto|tauto|lia]|auto].
  destruct H as (_ & (s' & maps' & ws' & hints' & R1 & Hrg' & (T1 & T2 & T3 & T4) & R3 & R4 & R5 & R6 & R7 & R8 & _) & _).
  assert (Ecb : cs_cache_blocks s' = cs_cache_blocks s) by congruence. rewrite Ecb in R7, R8.
  exists s', maps', ws', hints'. conj; auto; try congruence.
  - intros i Hi. rewrite R7, Hst; auto.
  - intros i Hi. rewrite R8 by auto. rewrite Hhi by auto. destruct (block_state s maps ws i); auto.
    destruct Hon as (_ & _ & _ & Lh & _). destruct (nth_error hints (N.to_nat i)) eqn:En; auto. apply nth_error_None in En. unfold nlen in Lh. lia.
  - destruct (C33_dump utf8 _ (wb_disk w) n repair' s' maps' ws' hints' R6 ltac:(unfold n; lia) ltac:(lia) ltac:(congruence)) as (doc' & E' & (U1 & U2 & U3 & U4) & Hid' & Hord' & Hst' & Hhi' & _).
    rewrite E'. rewrite Ecb in Hst', Hhi'. enough (Ed : doc' = doc) by (rewrite Ed; reflexivity).
    destruct Hord as [[O1 B1] [O2 B2]]. destruct Hord' as [[O1' B1'] [O2' B2']]. rewrite <- S2 in B1, B2. rewrite <- U2, Ecb in B1', B2'.
    assert (Hnone : forall B (key : B -> N) l i, Forall (fun b => b < cs_cache_blocks s) (map key l) -> cs_cache_blocks s <= i -> find (fun b => key b =? i) l = None).
    { intros B key l i HF Hi. destruct (find _ l) as [b|] eqn:Ef; auto. apply find_some in Ef as [F1 F2]. apply N.eqb_eq in F2. rewrite Forall_forall in HF. specialize (HF (key b) (in_map key _ _ F1)). lia. }
    destruct doc as [sb dm dh], doc' as [sb' dm' dh']. cbn [cd_sb cd_maps cd_hints] in *. f_equal.
    + destruct sb, sb'. cbn in *. congruence.
    + apply (keyed_ext cm_cblock); auto. intros i. destruct (N.lt_ge_cases i (cs_cache_blocks s)) as [Hi|Hi]; [|rewrite !Hnone; auto].
      assert (Eq : doc_state (mkcdoc sb' dm' dh') i = doc_state (mkcdoc sb dm dh) i) by (rewrite Hst', R7 by auto; auto). unfold doc_state in Eq. cbn [cd_maps] in Eq.
      destruct (find _ dm') as [[a1 b1 c1]|] eqn:F1; destruct (find _ dm) as [[a2 b2 c2]|] eqn:F2; cbn in Eq; try discriminate; auto.
      apply find_some in F1 as [_ F1]. apply find_some in F2 as [_ F2]. apply N.eqb_eq in F1, F2. cbn in F1, F2. subst. congruence.
    + apply (keyed_ext ch_cblock); auto. intros i. destruct (N.lt_ge_cases i (cs_cache_blocks s)) as [Hi|Hi]; [|rewrite !Hnone; auto].
      assert (Eq : doc_hint (mkcdoc sb' dm' dh') i = doc_hint (mkcdoc sb dm dh) i).
      { rewrite Hhi' by auto. rewrite R8 by auto. rewrite R7 by auto. rewrite Hst by auto. rewrite (Hhi i Hi). destruct (block_state s maps ws i); auto.
        destruct Hon as (_ & _ & _ & Lh & _). destruct (nth_error hints (N.to_nat i)) eqn:En; auto. apply nth_error_None in En. unfold nlen in Lh. lia. }
      unfold doc_hint in Eq. cbn [cd_hints] in Eq.
      destruct (find _ dh') as [[a1 b1]|] eqn:F1; destruct (find _ dh) as [[a2 b2]|] eqn:F2; cbn in Eq; try discriminate; auto.
      apply find_some in F1 as [_ F1]. apply find_some in F2 as [_ F2]. apply N.eqb_eq in F1, F2. cbn in F1, F2. subst. congruence.
Qed.
Print Assumptions C33_roundtrip.
