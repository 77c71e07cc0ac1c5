(** The whole of write_metadata_sm. *)
From Verif Require Import Base Csum_Model Csum_Proofs Codec_Model Codec_Spec Codec_Proofs NodeCodec_Proofs SbCodec_Proofs
  SpaceMap_Model SpaceMap_Spec SpaceMap_Proofs IoMany_Proofs Utils_Proofs Batcher_Model Batcher_Proofs
  Builder_Model Builder_Spec Builder_Proofs NodeBuilder_Proofs BtreeBuild_Proofs Array_Proofs SmWrite_Model SmWrite_Spec SmWrite_Proofs SmAlloc_Proofs SmMeta_Proofs SmIndex_Proofs.
From Verif Require Pack_Proofs.
Arguments write_checksum : simpl never.

Lemma bitmap_at_pad d b f len : len <= 16320 -> (forall x, len <= x < 16320 -> f x = Small 0) ->
  bitmap_at d b (map f (range 0 16320)) -> bitmap_at d b (map f (range 0 len)).
Proof.
  intros Hl Hz (A & B & C & rest & D). unfold bitmap_at. conj; auto. exists rest. rewrite D. f_equal. f_equal. f_equal.
  rewrite (range_app 0 len 16320) by lia. rewrite map_app, <- app_assoc. f_equal.
  rewrite (map_ext_in f (fun _ => Small 0) (range len 16320)) by (intros x Hx; apply in_range in Hx; auto).
  rewrite map_const_repeat, <- repeat_app. f_equal. rewrite app_length, repeat_length, !map_length, !range_length. lia.
Qed.
Lemma used_in_pad c b len full : len <= full -> (forall x, len <= x < full -> c (b + x) = 0) -> used_in c b full = used_in c b len.
Proof.
  intros Hl Hz. unfold used_in. rewrite (range_app 0 len full) by lia. rewrite filter_app. unfold nlen. rewrite app_length.
  assert (filter (fun i => negb (c (b + i) =? 0)) (range len full) = []) as ->; [|cbn [length]; lia].
  assert (forall l : list N, (forall x, In x l -> len <= x < full) -> filter (fun i => negb (c (b + i) =? 0)) l = []) as H.
  { induction l as [|x l IH]; intros H; [auto|]. cbn [filter]. rewrite Hz by (apply H; cbn; auto). change (negb (0 =? 0)) with false. cbv iota.
    apply IH. intros; apply H; cbn; auto. }
  apply H. intros x Hx. apply in_range in Hx. auto.
Qed.

Lemma nodup_occ l : NoDup l -> forall x, occ x l <= 1.
Proof.
  induction 1 as [|a l Ha Hd IH]; intros x; cbn [occ]; [lia|]. destruct (N.eqb_spec x a) as [->|]; [rewrite (occ_not_in a l) by auto; lia|].
  specialize (IH x). lia.
Qed.

Section ST.
Variables n max : N.
Hypothesis Hn : n < 2 ^ 64.
Hypothesis Hmax32 : max < 2 ^ 32.

Lemma alloc_zeroed_wp w : env n max w ->
  wp wb_alloc_zeroed w (fun w' b => grew n max w w' [b_loc b] /\ b_data b = repeat 0 BLOCK_SIZE /\ AL n max w w' /\ forall x, wb_view w' x = wb_view w x) (full n).
Proof using Hn Hmax32.
  intros He. pose proof He as [Hinv Hgood Hjunk].
  assert (H : wp wb_alloc_zeroed w (fun w' b => grew n max w w' [b_loc b] /\ b_data b = repeat 0 BLOCK_SIZE /\ forall x, wb_view w' x = wb_view w x) (full n)).
  { unfold wp, wb_alloc_zeroed, bindst.
    destruct (wb_alloc_loc w) as [w1 r1] eqn:E1. apply (wb_alloc_loc_spec n max) in E1; [|apply Hinv].
    destruct E1 as (I1 & Eb & El & Eg & Eba & Eq & Ej & [(loc & -> & Hloc & H0 & Hc & _)|(-> & Hfull & Hsm & _)]).
    2:{ intros x Hx. unfold cnt. rewrite Hsm. apply Hfull; auto. }
    cbn [b_loc b_data ret].
    assert (Hv1 : forall x, wb_view w1 x = wb_view w x).
    { intros x. unfold wb_view, wb_disk. rewrite Eb, El, Eg, Eq. auto. }
    conj; auto. constructor; auto.
    - constructor; [constructor; [auto|]|rewrite Eg; auto|rewrite Ej; auto]. rewrite Eg, Eq. apply Hinv.
    - intros x. unfold cnt. rewrite Hc, upd_spec. cbn [occ]. destruct (N.eqb_spec x loc) as [->|]; [rewrite H0; lia|lia].
    - intros x [<-|[]]. auto.
    - repeat constructor; auto. }
  eapply wp_mono; [apply (wp_al n max _ _ _ _ (al_alloc_zeroed n max) (wi_sm _ _ _ Hinv) H)| |auto].
  intros w' b ((A & B & C) & D). conj; auto.
Qed.

(** Changing only the contents of fresh blocks keeps [grew]. *)
Lemma grew_only w0 w w' l m : grew n max w0 w l -> only n max w w' m -> incl m l -> grew n max w0 w' l.
Proof using. clear Hn Hmax32.
  intros G (O1 & O2 & O3 & O4 & O5) Hi. constructor; auto.
  - intros x. unfold cnt. rewrite O2. apply (gr_cnt _ _ _ _ _ G).
  - apply G.
  - apply G.
  - intros x Hx. rewrite O5; [apply (gr_frame _ _ _ _ _ G); auto|]. intros Hm. apply Hi in Hm. destruct (gr_free _ _ _ _ _ G x Hm). lia.
  - rewrite O3. apply G.
Qed.

Definition index_ok (w0 w : wb) (k : N) (ies : list index_entry) : Prop :=
  forall i ie, nth_error ies i = Some ie ->
    bitmap_at (wb_view w) (ie_blocknr ie) (map (fun x => entry_for (cnt w (N.of_nat i * 16320 + x))) (range 0 (bitmap_len n (N.of_nat i)))) /\
    (forall x, x < ie_none_free_before ie -> cnt w (N.of_nat i * 16320 + x) <> 0) /\ ie_none_free_before ie <= 16320 /\
    ((forall x, x < k -> cnt w0 x = 0 -> cnt w x = 0) -> describes (wb_view w) (cnt w) n (N.of_nat i) ie).

Lemma write_metadata_sm_wp w0 k : env n max w0 -> n <= 255 * 16320 -> 0 < cnt w0 0 -> k <= n -> 0 < n ->
  (forall x, In x (wb_allocs w0) <-> x < k) -> (forall x, k <= x -> cnt w0 x = 0) ->
  wp write_metadata_sm w0
     (fun w r => exists ies depth foot,
        wb_queue w = [] /\
        load_metadata_index (mkblock (sr_bitmap_root r) (wb_view w (sr_bitmap_root r))) n = Ok (mkmi (sr_bitmap_root r) ies) /\
        nlen ies = div_up n 16320 /\ index_ok w0 w k ies /\
        grew n max w0 w (map ie_blocknr ies ++ foot ++ [sr_bitmap_root r]) /\
        tree u32_codec (wb_view w) true depth (sr_ref_count_root r) (big_counts (cnt w) 0 n) foot /\
        sr_nr_blocks r = n /\ sr_nr_allocated r = sm_nalloc (wb_sm w))
     (exhausted n max).
Proof using Hn Hmax32.
  intros He Hn255 H0 Hk Hn0 Hal Hout. unfold write_metadata_sm.
  set (wc := fst (wb_clear_allocations w0)).
  assert (Hwc : env n max wc) by (destruct He as [[A B] C D]; constructor; auto; constructor; auto).
  apply wp_bind. eapply wp_mono; [apply (metadata_common_wp n max Hn Hmax32 wc Hwc w0 k eq_refl Hn0 Hk Hal)| |auto].
  intros w1 [ies rc] (p & depth & foot & L1 & P1 & A1 & G1 & T1 & R1 & D1). cbn [fst snd] in *.
  apply wp_bind. eapply wp_mono; [apply (alloc_zeroed_wp w1 (gr_env _ _ _ _ _ G1))| |intros; left; auto].
  intros w2 blk (G2 & Ed & A2 & V2). destruct blk as [R data0]. cbn [b_loc b_data] in *. subst data0.
  pose proof (grew_trans _ _ _ _ _ _ _ G1 G2) as G12. pose proof (AL_trans _ _ _ _ _ A1 A2) as A12.
  apply wp_bind. unfold wp at 1. unfold wb_clear_allocations at 1.
  change (mkwb (wb_base w2) (wb_log w2) (wb_good w2) (wb_sm w2) (wb_batch w2) (wb_queue w2) [] (wb_junk w2)) with (fst (wb_clear_allocations w2)).
  set (w3 := fst (wb_clear_allocations w2)).
  assert (G3 : grew n max wc w3 ((map ie_blocknr ies ++ foot) ++ [R])).
  { destruct G12 as [[[Ga Gb] Gc Gd] G12b G12c G12d G12e G12f]. constructor; auto. constructor; auto. constructor; auto. }
  assert (Hb : forall ie, In ie ies -> ie_blocknr ie < n /\ cnt w0 (ie_blocknr ie) = 0).
  { intros ie Hin. destruct (gr_free _ _ _ _ _ G3 (ie_blocknr ie)); auto. apply in_or_app; left. apply in_or_app; left. apply in_map; auto. }
  pose proof (gr_nodup _ _ _ _ _ G3) as HND.
  assert (HDf : forall i ie, nth_error ies i = Some ie -> ie_blocknr ie < n /\ ie_nr_free ie < 2 ^ 32 /\ DB (wb_view w3) p (N.of_nat i) ie).
  { intros i ie Hi. destruct (D1 i ie Hi) as [HB HF]. conj.
    - apply Hb. eapply nth_error_In; eauto.
    - unfold DF in HF. lia.
    - eapply DB_ext; [|auto|exact HB]. apply V2. }
  assert (Hnd : NoDup (map ie_blocknr ies)). { rewrite <- app_assoc in HND. apply NoDup_app_iff_local in HND. tauto. }
  apply wp_bind. eapply wp_mono.
  { eapply (adjust_ranges_wp n max Hn (alloc_ranges (wb_allocs w2)) _ p ies w3); auto.
    - unfold alloc_ranges. apply merge_apart. apply sorted_inc.
    - apply G3. }
  2:{ intros ? []. }
  intros w4 ies4 (O4 & E4 & D4).
  assert (G4 : grew n max wc w4 ((map ie_blocknr ies4 ++ foot) ++ [R])).
  { rewrite E4. eapply grew_only; [exact G3|exact O4|]. intros x Hx. apply in_or_app; left. apply in_or_app; auto. }
  assert (Hc4 : forall x, cnt w4 x = cnt w2 x). { intros x. unfold cnt. rewrite (proj1 (proj2 O4)). auto. }
  assert (Lies : length ies4 = length ies) by (rewrite <- (map_length ie_blocknr), E4, map_length; auto).
  (* the counts the bitmaps now record *)
  assert (Hq : forall x, marks p (alloc_ranges (wb_allocs w2)) x = cnt w4 x).
  { intros x. rewrite Hc4. destruct (marks_spec (alloc_ranges (wb_allocs w2)) p x) as [M1 M2].
    destruct A12 as (_ & Am & Aa). specialize (Aa x). change (wb_allocs wc) with (@nil N) in Aa. cbn [In] in Aa.
    pose proof (gr_cnt _ _ _ _ _ G12 x) as Hcx.
    assert (Hocc : occ x ((map ie_blocknr ies ++ foot) ++ [R]) <= 1) by (apply nodup_occ; auto).
    destruct (N.eq_dec (cnt wc x) 0) as [Ez|Ez].
    - destruct (N.eq_dec (cnt w2 x) 0) as [E2|E2].
      + rewrite M2. 2:{ rewrite alloc_ranges_in. intros Hi. apply Aa in Hi. lia. }
        destruct P1 as [P1 P2]. destruct (N.lt_ge_cases x k) as [Hx|Hx]; [|rewrite P2; lia].
        destruct (P1 x Hx) as [_ P3]. destruct (P3 Ez) as [_ P4]. destruct A2 as (_ & A2m & _). specialize (A2m x). lia.
      + rewrite M1; [lia|]. apply alloc_ranges_in. apply Aa. lia.
    - rewrite M2. 2:{ rewrite alloc_ranges_in. intros Hi. apply Aa in Hi. lia. }
      destruct P1 as [P1 P2]. destruct (N.lt_ge_cases x k) as [Hx|Hx].
      + destruct (P1 x Hx) as [P3 _]. rewrite P3 by lia. rewrite Hcx.
        destruct (in_dec N.eq_dec x ((map ie_blocknr ies ++ foot) ++ [R])) as [Hi|Hi].
        * destruct (gr_free _ _ _ _ _ G12 x Hi). lia.
        * rewrite occ_not_in by auto. lia.
      + exfalso. apply Ez. apply (Hout x Hx). }
  assert (Hbeyond : forall x, n <= x -> cnt w4 x = 0).
  { intros x Hx. rewrite (gr_cnt _ _ _ _ _ G4). change (cnt wc x) with (cnt w0 x). rewrite Hout by lia. rewrite occ_not_in; [lia|].
    intros Hi. destruct (gr_free _ _ _ _ _ G4 x Hi). lia. }
  assert (Hpair : forall i ie4, nth_error ies4 i = Some ie4 -> exists ie, nth_error ies i = Some ie /\ ie_blocknr ie4 = ie_blocknr ie).
  { intros i ie Hi. destruct (nth_error ies i) as [ie0|] eqn:E0.
    - exists ie0. split; auto. apply (map_nth_error ie_blocknr) in Hi, E0. rewrite E4 in Hi. rewrite Hi in E0. injection E0 as ->. auto.
    - exfalso. apply nth_error_None in E0. assert (i < length ies4)%nat by (apply nth_error_Some; congruence). lia. }
  (* the index block *)
  assert (Hbig : big_counts p 0 k = big_counts (cnt w4) 0 n).
  { rewrite (big_counts_app (cnt w4) 0 k n) by lia.
    assert (big_counts (cnt w4) k n = []) as ->.
    { unfold big_counts. replace (filter (fun b => 3 <=? cnt w4 b) (range k n)) with (@nil N); auto. symmetry.
      assert (forall l, (forall x, In x l -> k <= x) -> filter (fun b => 3 <=? cnt w4 b) l = []) as HH.
      { induction l as [|x l IH]; intros Hx; auto. cbn [filter]. assert (Hc : cnt w4 x <= 1).
        { rewrite (gr_cnt _ _ _ _ _ G4). change (cnt wc x) with (cnt w0 x). rewrite Hout by (apply Hx; cbn; auto).
          pose proof (nodup_occ _ (gr_nodup _ _ _ _ _ G4) x). lia. }
        destruct (N.leb_spec 3 (cnt w4 x)); [lia|]. apply IH. intros; apply Hx; cbn; auto. }
      apply HH. intros x Hx. apply in_range in Hx. lia. }
    rewrite app_nil_r. apply big_counts_ext. intros x Hx. rewrite <- Hq.
    destruct (marks_spec (alloc_ranges (wb_allocs w2)) p x) as [M1 M2].
    destruct A12 as (_ & Am & Aa). specialize (Aa x). change (wb_allocs wc) with (@nil N) in Aa. cbn [In] in Aa.
    assert ({In x (wb_allocs w2)} + {~ In x (wb_allocs w2)}) as [Hi|Hi] by apply in_dec, N.eq_dec.
    - destruct P1 as [P1 _]. destruct (P1 x ltac:(lia)) as [_ P3]. apply Aa in Hi as Hi'. destruct Hi' as [[]|[Hz _]]. destruct (P3 Hz) as [P4 _].
      rewrite M1 by (apply alloc_ranges_in; auto). destruct (N.leb_spec 3 (p x)); [lia|]. split; [reflexivity|lia].
    - rewrite M2 by (rewrite alloc_ranges_in; auto). auto. }
  assert (HR : R < n /\ cnt w0 R = 0). { destruct (gr_free _ _ _ _ _ G4 R); auto. apply in_or_app; right; cbn; auto. }
  assert (Hnz : Forall (fun e => ie_range e /\ ie_blocknr e <> 0) ies4).
  { apply Forall_forall. intros e Hin. apply In_nth_error in Hin as (i & Hi). destruct (Hpair i e Hi) as (e0 & He0 & Eb).
    destruct (D4 i e0 e He0 Hi) as (F1 & F2 & _). destruct F2 as (_ & F3 & _).
    destruct (Hb e0 (nth_error_In _ _ He0)) as [B1 B2]. unfold ie_range. rewrite Eb. conj; try lia. intros E. rewrite E in B2. lia. }
  assert (Hl255 : nlen ies4 <= 255). { unfold nlen in *. rewrite Lies, L1. unfold div_up. clear - Hn255. dlia. }
  destruct (mi_roundtrip (mkmi R ies4)) as (l & ib & M1 & M2 & M3); cbn [mi_blocknr mi_indexes]; auto; [lia|].
  apply wp_bind. eapply wp_lift; [exact M1|].
  destruct (to_block l) as [data| |] eqn:Et; cbn [bind] in M2; try discriminate.
  apply wp_bind. eapply wp_lift; [exact Et|].
  apply wp_bind. eapply wp_mono; [apply (write_only n max w4 R data INDEX ib (gr_env _ _ _ _ _ G4) ltac:(tauto) M2)| |intros ? []].
  intros w5 _ [O5 Hv5].
  assert (G5 : grew n max wc w5 ((map ie_blocknr ies4 ++ foot) ++ [R])).
  { eapply grew_only; [exact G4|exact O5|]. intros x Hx. apply in_or_app; auto. }
  pose proof (gr_env _ _ _ _ _ G5) as [Hi5 Hg5 Hj5].
  pose proof (wb_flush_view w5 (wi_good _ _ _ Hi5)) as Hv6.
  apply wp_bind. unfold wp at 1. destruct (wb_flush w5) as [w6 r6] eqn:Ef. unfold wb_flush in Ef. injection Ef as <- <-.
  set (w6 := mkwb _ _ _ _ _ _ _ _) in *. cbn [fst] in Hv6. unfold wp at 1. cbn [fst snd sr_nr_blocks sr_nr_allocated sr_bitmap_root sr_ref_count_root].
  assert (Hc6 : forall x, cnt w6 x = cnt w4 x). { intros x. change (cnt w6 x) with (cnt w5 x). unfold cnt. rewrite (proj1 (proj2 O5)). auto. }
  assert (HRn : ~ In R (map ie_blocknr ies4 ++ foot)).
  { pose proof (gr_nodup _ _ _ _ _ G4) as Hd. apply NoDup_app_iff_local in Hd. destruct Hd as (_ & _ & Hd). intros Hi. apply (Hd R Hi). cbn; auto. }
  assert (Hv64 : forall x, x <> R -> wb_view w6 x = wb_view w4 x).
  { intros x Hx. rewrite Hv6. apply O5. intros [E|[]]; congruence. }
  exists ies4, depth, foot. conj; auto.
  - rewrite Hv6, Hv5. apply M3. unfold nlen in *. cbn [mi_indexes]. rewrite Lies, L1. lia.
  - unfold nlen in *. rewrite Lies. auto.
  - intros i ie4 Hi. destruct (Hpair i ie4 Hi) as (ie & Hie & Eb). destruct (D4 i ie ie4 Hie Hi) as (F1 & (B1 & B2 & B3) & F3).
    assert (HneR : ie_blocknr ie4 <> R). { intros E. apply HRn. apply in_or_app; left. rewrite <- E. apply in_map. eapply nth_error_In; eauto. }
    assert (Hbl : bitmap_len n (N.of_nat i) <= 16320) by (unfold bitmap_len; lia).
    assert (Hbz : forall x, bitmap_len n (N.of_nat i) <= x < 16320 -> cnt w6 (N.of_nat i * 16320 + x) = 0).
    { intros x Hx. rewrite Hc6. apply Hbeyond. unfold bitmap_len in Hx. lia. }
    assert (X1 : bitmap_at (wb_view w6) (ie_blocknr ie4) (map (fun x => entry_for (cnt w6 (N.of_nat i * 16320 + x))) (range 0 (bitmap_len n (N.of_nat i))))).
    { apply bitmap_at_pad; auto.
      - intros x Hx. rewrite Hbz by auto. reflexivity.
      - eapply bitmap_at_ext; [apply Hv64; auto|].
        erewrite map_ext; [exact B1|]. intros x. cbv beta. rewrite Hc6, Hq. auto. }
    assert (X2 : forall x, x < ie_none_free_before ie4 -> cnt w6 (N.of_nat i * 16320 + x) <> 0).
    { intros x Hx. rewrite Hc6, <- Hq. auto. }
    conj; auto. intros Hre. unfold describes. cbv zeta. conj; auto.
    rewrite <- (used_in_pad (cnt w6) (N.of_nat i * 16320) (bitmap_len n (N.of_nat i)) 16320) by auto.
    rewrite (used_in_ext (marks p (alloc_ranges (wb_allocs w2)))) by (intros x _; rewrite Hc6, Hq; auto).
    apply F3; [apply (D1 i ie Hie)|]. intros x Hx. apply alloc_ranges_in in Hx. destruct A12 as (_ & _ & Aa). apply Aa in Hx.
    destruct Hx as [Hx|[Hx1 Hx2]]; [destruct Hx|]. destruct P1 as [P1 P2].
    destruct (N.lt_ge_cases x k) as [Hxk|Hxk]; [|apply P2; auto]. exfalso.
    specialize (Hre x Hxk Hx1). rewrite Hc6, Hc4 in Hre. lia.
  - destruct G5 as [[[Ga Gb] Gc Gd] Gb' Gc' Gd' Ge Gf]. rewrite app_assoc. constructor; auto.
    + constructor; auto. constructor; auto. constructor.
    + intros x Hx. rewrite Hv6. apply Ge. auto.
  - replace (big_counts (cnt w6) 0 n) with (big_counts p 0 k).
    + eapply tree_frame; [|exact T1]. intros x Hx.
      assert (Hin : In x (map ie_blocknr ies4 ++ foot)) by (apply in_or_app; auto).
      rewrite Hv64. 2:{ intros ->. contradiction. }
      transitivity (wb_view w3 x); [|apply V2]. apply O4. intros Hi.
      rewrite <- app_assoc in HND. apply NoDup_app_iff_local in HND as (_ & _ & Hd). apply (Hd x Hi). apply in_or_app; auto.
    + rewrite Hbig. apply big_counts_ext. intros x _. rewrite Hc6. auto.
  - change (sm_nr (wb_sm w5) = n). destruct Hi5 as [Hi5 _]. apply (inv_nr _ _ _ Hi5).
Qed.
End ST.
