(** C18, C19: checking space maps and releasing leaked blocks. *)
From Verif Require Import Base Csum_Model Codec_Model Codec_Spec SbCodec_Proofs SpaceMap_Model SpaceMap_Spec SpaceMap_Proofs Pack_Proofs Utils_Proofs IoMany_Proofs
  Batcher_Model Batcher_Proofs Builder_Model Builder_Spec Props_Btree Array_Proofs Walker_Model Walker_Spec Walker_Proofs
  SmWrite_Model SmWrite_Spec SmWrite_Proofs Props_SmWrite SmCheck_Model SmCheck_Spec SmCheck_Proofs SmCheckTop_Proofs SmRepair_Proofs.

Lemma assoc_in {V} (kvs : list (N * V)) k v : increasing (map fst kvs) -> In (k, v) kvs -> assoc kvs k = Some v.
Proof.
  induction kvs as [|[k' v'] kvs IH]; intros Hi Hin; [destruct Hin|]. cbn [assoc map fst] in *. apply increasing_strong in Hi as [H1 H2].
  destruct Hin as [Hin|Hin].
  - injection Hin as -> ->. rewrite N.eqb_refl. auto.
  - destruct (N.eqb_spec k k') as [->|]; [|auto]. specialize (H1 k' (in_map fst _ _ Hin)). lia.
Qed.

(** ** C18 *)
(** Comparing the bitmaps of an index with the expected counts succeeds exactly if every
    index entry points to a readable bitmap and every entry of a block in range is
    tolerated (the count, a leak, or "3 or more"); it then reports the number of leaks and
    exactly the bitmaps that contain one, in order. *)
Theorem C18_check_low_ref_counts : forall sm eng ies n lks, blocks_ok eng ->
  check_low_ref_counts eng sm ies = Ok (n, lks) <->
  exists ess, bitmaps_on eng ies ess /\
    (forall b e, b < sm_nr sm -> entry_of ess b = Some e -> tolerated (sm_counts sm b) e) /\
    n = nr_leaks (sm_counts sm) (sm_nr sm) ess /\ leaks_listed (sm_counts sm) (sm_nr sm) ies ess lks.
Proof. exact check_low_iff. Qed.

(** check_disk_space_map on a space map whose index and reference count tree are
    undamaged: it succeeds exactly if all large counts and all bitmap entries are as
    expected; its blocks are then counted in the metadata map, and the leaks are those of
    the bitmaps. *)
Theorem C18_check_disk_space_map : forall eng inf d root dsm msm depth depth' ikvs kvs foot foot',
  blocks_ok eng -> core_valid msm ->
  tree ie_codec d true depth' (sr_bitmap_root root) ikvs foot' -> increasing (map fst ikvs) ->
  tree u32_codec d true depth (sr_ref_count_root root) kvs foot -> increasing (map fst kvs) ->
  (forall b, In b (foot' ++ foot) -> eng b = Some (d b)) ->
  fresh msm (foot' ++ map ie_blocknr (map snd ikvs) ++ foot) ->
  forall n lks,
  (exists msm', check_disk_space_map (sm_nr msm) eng inf root dsm msm = (msm', Ok (n, lks)) /\
     with_blocks (foot' ++ map ie_blocknr (map snd ikvs) ++ foot) msm msm') <->
  matches dsm kvs /\
  exists ess, bitmaps_on eng (map snd ikvs) ess /\
    (forall b e, b < sm_nr dsm -> entry_of ess b = Some e -> tolerated (sm_counts dsm b) e) /\
    n = nr_leaks (sm_counts dsm) (sm_nr dsm) ess /\ leaks_listed (sm_counts dsm) (sm_nr dsm) (map snd ikvs) ess lks.
Proof.
  intros eng inf d root dsm msm depth depth' ikvs kvs foot foot' H1 H2 H3 H4 H5 H6 H7 H8 n lks.
  rewrite <- (check_low_iff dsm eng (map snd ikvs) n lks H1).
  exact (check_disk_iff eng inf d root dsm msm depth depth' ikvs kvs foot foot' H1 H2 H3 H4 H5 H6 H7 H8 n lks).
Qed.

(** If the map is complete (a bitmap entry for every block, and an entry in the reference
    count tree, above 2, for exactly those marked as overflow) and the expected counts are
    below 256, it succeeds exactly if every stored count is the expected one, or is a leak:
    any other difference is an error. *)
Lemma complete_exact : forall counts nr ess kvs dsm, sm_counts dsm = counts -> sm_nr dsm = nr ->
  complete_map nr ess kvs -> increasing (map fst kvs) -> (forall b, b < nr -> counts b < 256) ->
  (matches dsm kvs /\ (forall b e, b < nr -> entry_of ess b = Some e -> tolerated (counts b) e)) <->
  (forall b, b < nr -> stored_count ess kvs b = Some (counts b) \/ (stored_count ess kvs b = Some 1 /\ counts b = 0)).
Proof.
  intros counts nr ess kvs dsm <- <- (C1 & C2 & C3) Hi Hlt. unfold stored_count. split.
  - intros [HM HT] b Hb. specialize (C1 b Hb). destruct (entry_of ess b) as [[a|]|] eqn:E; [| |congruence].
    + destruct (HT b _ Hb E) as [[H H']|H]; [injection H as ->; right; auto|left]. rewrite N.mod_small in H by auto. congruence.
    + left. specialize (C2 b Hb E). apply in_map_iff in C2 as ([k v] & <- & Hin). cbn [fst] in *. destruct (HM k v Hin) as [_ <-].
      apply assoc_in; auto.
  - intros H. split.
    + intros k v Hin. destruct (C3 k v Hin) as (Hk & He & Hv). split; auto. specialize (H k Hk). rewrite He in H.
      rewrite (assoc_in kvs k v Hi Hin) in H. destruct H as [H|[H _]]; injection H as H; lia.
    + intros b e Hb He. specialize (H b Hb). rewrite He in H. unfold tolerated, is_leak. destruct e as [a|].
      * destruct H as [H|[H H0]]; injection H as ->; [right; rewrite N.mod_small; auto|left; auto].
      * right. specialize (C2 b Hb He). apply in_map_iff in C2 as ([k v] & <- & Hin). cbn [fst] in *.
        destruct (C3 k v Hin) as (_ & _ & Hv). rewrite (assoc_in kvs k v Hi Hin) in H. destruct H as [H|[H _]]; injection H as H; lia.
Qed.
Theorem C18_wrong_counts : forall eng inf d root dsm msm depth depth' ikvs kvs foot foot' ess,
  blocks_ok eng -> core_valid msm ->
  tree ie_codec d true depth' (sr_bitmap_root root) ikvs foot' -> increasing (map fst ikvs) ->
  tree u32_codec d true depth (sr_ref_count_root root) kvs foot -> increasing (map fst kvs) ->
  (forall b, In b (foot' ++ foot) -> eng b = Some (d b)) ->
  fresh msm (foot' ++ map ie_blocknr (map snd ikvs) ++ foot) ->
  bitmaps_on eng (map snd ikvs) ess -> complete_map (sm_nr dsm) ess kvs -> (forall b, b < sm_nr dsm -> sm_counts dsm b < 256) ->
  ((exists msm' n lks, check_disk_space_map (sm_nr msm) eng inf root dsm msm = (msm', Ok (n, lks)) /\
     with_blocks (foot' ++ map ie_blocknr (map snd ikvs) ++ foot) msm msm') <->
   (forall b, b < sm_nr dsm -> stored_count ess kvs b = Some (sm_counts dsm b) \/ (stored_count ess kvs b = Some 1 /\ sm_counts dsm b = 0))).
Proof.
  intros eng inf d root dsm msm depth depth' ikvs kvs foot foot' ess H1 H2 H3 H4 H5 H6 H7 H8 Hon HC Hlt.
  rewrite <- (complete_exact (sm_counts dsm) (sm_nr dsm) ess kvs dsm eq_refl eq_refl HC H6 Hlt).
  assert (Huniq : forall ess', bitmaps_on eng (map snd ikvs) ess' -> ess' = ess).
  { intros ess' H'. unfold bitmaps_on in *. revert ess' H'. clear - Hon. induction Hon as [|ie es ies ess (x & bm & rest & A & B & C & D) H IH]; intros ess' H'; inversion H' as [|? ? ? ? (y & bm' & rest' & A' & B' & C' & D') H'']; subst; auto.
    rewrite A in A'. injection A' as <-. rewrite C in C'. apply Ok_inj in C'. injection C' as <- _. f_equal; auto. }
  split.
  - intros (msm' & n & lks & HX). assert (HY := ex_intro (fun m => check_disk_space_map (sm_nr msm) eng inf root dsm msm = (m, Ok (n, lks)) /\ with_blocks _ msm m) msm' HX).
    apply (C18_check_disk_space_map eng inf d root dsm msm depth depth' ikvs kvs foot foot' H1 H2 H3 H4 H5 H6 H7 H8) in HY as (HM & ess' & Hon' & HT & _).
    rewrite (Huniq ess' Hon') in HT. auto.
  - intros [HM HT]. destruct (check_low_ref_counts eng dsm (map snd ikvs)) as [[n lks]| |] eqn:EL.
    + destruct (proj2 (check_disk_iff eng inf d root dsm msm depth depth' ikvs kvs foot foot' H1 H2 H3 H4 H5 H6 H7 H8 n lks)) as (m & HX); auto. exists m, n, lks. exact HX.
    + exfalso. destruct (low_total dsm eng (map snd ikvs) ess H1 Hon HT) as (n & lks & E). congruence.
    + exfalso. destruct (low_total dsm eng (map snd ikvs) ess H1 Hon HT) as (n & lks & E). congruence.
Qed.

(** check_metadata_space_map: the blocks of the map itself (reference count tree, index,
    bitmaps) are counted first, then everything is compared as for the data space map. *)
Theorem C18_check_metadata_space_map : forall eng inf d root msm depth kvs foot ies,
  blocks_ok eng -> core_valid msm ->
  tree u32_codec d true depth (sr_ref_count_root root) kvs foot -> increasing (map fst kvs) ->
  (forall b, In b (foot ++ [sr_bitmap_root root]) -> eng b = Some (d b)) ->
  load_metadata_index (mkblock (sr_bitmap_root root) (d (sr_bitmap_root root))) (sr_nr_blocks root) = Ok (mkmi (sr_bitmap_root root) ies) ->
  fresh msm (foot ++ [sr_bitmap_root root] ++ map ie_blocknr ies) ->
  exists msm' out, check_metadata_space_map (sm_nr msm) eng inf root msm = (msm', out) /\
    with_blocks (foot ++ [sr_bitmap_root root] ++ map ie_blocknr ies) msm msm' /\
    forall n lks, out = Ok (n, lks) <->
      matches msm' kvs /\
      exists ess, bitmaps_on eng ies ess /\
        (forall b e, b < sm_nr msm' -> entry_of ess b = Some e -> tolerated (sm_counts msm' b) e) /\
        n = nr_leaks (sm_counts msm') (sm_nr msm') ess /\ leaks_listed (sm_counts msm') (sm_nr msm') ies ess lks.
Proof.
  intros eng inf d root msm depth kvs foot ies H1 H2 H3 H4 H5 H6 H7.
  destruct (check_metadata_iff eng inf d root msm depth kvs foot ies H1 H2 H3 H4 H5 H6 H7) as (msm' & out & E & W & HI).
  exists msm', out. conj; auto. intros n lks. rewrite HI. rewrite (check_low_iff msm' eng ies n lks H1). reflexivity.
Qed.

(** ** What the tools write passes *)
Lemma written_entries eng d counts nr ies : nlen ies = div_up nr 16320 ->
  (forall i ie, nth_error ies i = Some ie -> bitmap_at d (ie_blocknr ie)
     (map (fun x => entry_for (counts (N.of_nat i * 16320 + x))) (range 0 (bitmap_len nr (N.of_nat i))))) ->
  (forall ie, In ie ies -> eng (ie_blocknr ie) = Some (d (ie_blocknr ie))) ->
  exists ess, bitmaps_on eng ies ess /\ Forall (fun es => nlen es = 16320) ess /\
    forall b e, b < nr -> entry_of ess b = Some e -> e = entry_for (counts b).
Proof.
  intros Hlen HB He.
  set (f := fun i : nat => let l := map (fun x => entry_for (counts (N.of_nat i * 16320 + x))) (range 0 (bitmap_len nr (N.of_nat i))) in
              l ++ repeat (Small 0) (N.to_nat 16320 - length l)).
  assert (HF : Forall (fun es => nlen es = 16320) (map f (seq 0 (length ies)))).
  { apply Forall_forall. intros es Hes. apply in_map_iff in Hes as (i & <- & _). unfold f, nlen. rewrite app_length, repeat_length, map_length, range_length.
    unfold bitmap_len. lia. }
  exists (map f (seq 0 (length ies))). conj; auto.
  - unfold bitmaps_on. assert (HG : forall l k, (forall i ie, nth_error l i = Some ie -> nth_error ies (k + i) = Some ie) ->
      Forall2 (fun ie es => bitmap_on eng (ie_blocknr ie) es) l (map f (seq k (length l)))).
    { induction l as [|ie l IH]; intros k Hk; cbn [length seq map]; constructor.
      - specialize (Hk 0%nat ie eq_refl). rewrite Nat.add_0_r in Hk. destruct (HB k ie Hk) as (_ & _ & Hbt & rest & Eu).
        exists (d (ie_blocknr ie)). eexists. exists rest. conj; [|exact Hbt|exact Eu|reflexivity].
        apply He. eapply nth_error_In; eauto.
      - apply IH. intros i ie' Hi. replace (S k + i)%nat with (k + S i)%nat by lia. apply Hk. auto. }
    apply HG. intros i ie Hi. exact Hi.
  - intros b e Hb Hent. unfold entry_of in Hent.
    pose proof (N.div_mod b 16320 ltac:(lia)) as HD. pose proof (N.mod_lt b 16320 ltac:(lia)) as HM.
    assert (Hlt : b / 16320 < nlen ies) by (rewrite Hlen; apply lt_div_up; dlia).
    set (q := b / 16320) in *. set (m := b mod 16320) in *. clearbody q m.
    assert (Hi : nth_error (map f (seq 0 (length ies))) (N.to_nat q) = Some (f (N.to_nat q))).
    { rewrite (map_nth_error f (N.to_nat q) (seq 0 (length ies)) (d := N.to_nat q)); auto.
      rewrite (nth_error_nth' _ 0%nat) by (rewrite seq_length; unfold nlen in Hlt; lia). rewrite seq_nth by (unfold nlen in Hlt; lia). auto. }
    replace b with (N.of_nat (N.to_nat q) * 16320 + m) in Hent by lia.
    rewrite (nth_concat _ _ m _ HF Hi HM) in Hent. unfold f in Hent. cbv zeta in Hent. rewrite nth_error_app1 in Hent.
    2:{ rewrite map_length, range_length. unfold bitmap_len. lia. }
    rewrite (map_nth_error _ _ (range 0 (bitmap_len nr (N.of_nat (N.to_nat q)))) (d := m)) in Hent.
    2:{ rewrite (nth_error_nth' _ 0) by (rewrite range_length; unfold bitmap_len; lia). rewrite nth_range by (unfold bitmap_len; lia). f_equal. lia. }
    injection Hent as <-. f_equal. f_equal. lia.
Qed.
Lemma entry_tolerated c : tolerated c (entry_for c).
Proof.
  unfold tolerated, entry_for. right. destruct (N.ltb_spec c 3); [|auto]. rewrite N.mod_small; lia.
Qed.
Lemma entry_no_leak c : ~ is_leak c (entry_for c).
Proof. unfold is_leak, entry_for. destruct (N.ltb_spec c 3); intros [H1 H2]; [injection H1 as H1; lia|discriminate]. Qed.
Lemma clean_low sm eng ies ess : blocks_ok eng -> bitmaps_on eng ies ess ->
  (forall b e, b < sm_nr sm -> entry_of ess b = Some e -> tolerated (sm_counts sm b) e /\ ~ is_leak (sm_counts sm b) e) ->
  check_low_ref_counts eng sm ies = Ok (0, []).
Proof.
  intros He Hon HT. apply (check_low_iff sm eng ies 0 [] He). exists ess. conj; auto.
  - intros b e Hb Hx. apply HT; auto.
  - unfold nr_leaks. rewrite (filter_ext_in _ (fun _ => false)).
    + induction (range 0 (sm_nr sm)); auto.
    + intros b Hb. apply in_range in Hb. destruct (entry_of ess b) as [e|] eqn:E; auto. destruct (HT b e ltac:(lia) E) as [_ H].
      rewrite <- leakp_iff in H. unfold leakp in H. cbn [fst snd] in H. destruct e as [a|]; auto. destruct a as [|[p|p|]]; auto. destruct (sm_counts sm b =? 0); auto. congruence.
  - exists []. conj; [constructor| |constructor]. intros i. split; [intros []|]. intros (b & e & _ & Hb & Hx & Hl). destruct (HT b e Hb Hx) as [_ H]. contradiction.
Qed.
Lemma matches_big sm counts : (forall b, b < sm_nr sm -> sm_counts sm b = counts b) -> matches sm (big_counts counts 0 (sm_nr sm)).
Proof.
  intros H k v Hin. unfold big_counts in Hin. apply in_map_iff in Hin as (b & E & Hb). injection E as <- <-. apply filter_In in Hb as [Hb _].
  apply in_range in Hb. split; [lia|]. apply H. lia.
Qed.

(** A data space map that has just been written passes the check against the counts it was
    written from, without leaks, whatever the counts of the metadata map (as long as they
    do not say that its blocks are in use already). *)
Theorem C18_written_disk_map_is_clean : forall n max w sm w' r eng inf msm,
  usable n max w -> sm_nr sm < 2 ^ 64 -> (forall b, b < sm_nr sm -> sm_counts sm b < 2 ^ 32) ->
  write_disk_sm sm w = (w', Ok r) ->
  blocks_ok eng -> (forall b, sm_counts (wb_sm w) b < sm_counts (wb_sm w') b -> eng b = Some (wb_disk w' b)) ->
  core_valid msm -> sm_nr msm = n -> (forall b, b < n -> sm_counts (wb_sm w) b < sm_counts (wb_sm w') b -> sm_counts msm b = 0) ->
  exists msm', check_disk_space_map n eng inf r sm msm = (msm', Ok (0, [])) /\
    forall b, b < n -> sm_counts msm' b = sm_counts msm b + (sm_counts (wb_sm w') b - sm_counts (wb_sm w) b).
Proof.
  intros n max w sm w' r eng inf msm Hu Hnr Hc E Hb He HV Hn Hz.
  pose proof (C16_write_disk_sm _ _ _ _ _ _ Hu Hnr Hc E) as (_ & _ & _ & ies & depth & depth' & foot & foot' & Hl & Hd & T' & T & (HN & HF & HC & _) & _).
  assert (Hnew : forall b, In b (map ie_blocknr ies ++ foot ++ foot') -> sm_counts (wb_sm w) b < sm_counts (wb_sm w') b).
  { intros b H. rewrite HC. destruct (in_dec N.eq_dec b _) as [|X]; [lia|contradiction]. }
  assert (Hinc : increasing (map fst (combine (range 0 (nlen ies)) ies))).
  { rewrite map_fst_combine by (rewrite range_length; unfold nlen; lia). apply range_increasing. }
  assert (Hsnd : map snd (combine (range 0 (nlen ies)) ies) = ies).
  { assert (HX : length (range 0 (nlen ies)) = length ies) by (rewrite range_length; unfold nlen; lia). clear - HX. revert HX. generalize (range 0 (nlen ies)).
    induction ies as [|x ies IH]; intros [|y l] H; try discriminate; auto. cbn [combine map snd]. f_equal. apply IH. cbn in H. lia. }
  assert (HP : forall b, In b (foot' ++ map ie_blocknr ies ++ foot) -> In b (map ie_blocknr ies ++ foot ++ foot')) by (intros b; rewrite !in_app_iff; tauto).
  subst n.
  destruct (written_entries eng (wb_disk w') (sm_counts sm) (sm_nr sm) ies Hl) as (ess & Hon & _ & Hent).
  { intros i ie Hi. apply (Hd i ie Hi). }
  { intros ie Hi. apply He, Hnew. apply in_or_app. left. apply in_map; auto. }
  destruct (proj2 (check_disk_iff eng inf (wb_disk w') r sm msm depth depth' (combine (range 0 (nlen ies)) ies) (big_counts (sm_counts sm) 0 (sm_nr sm)) foot foot'
     Hb HV T' Hinc T (big_increasing _ _ _)
     ltac:(intros b H; apply He, Hnew; apply in_app_or in H as [H|H]; rewrite !in_app_iff; auto)
     ltac:(rewrite Hsnd; split; [|intros b H; apply HP in H; split; [apply HF; auto|apply Hz; [apply HF; auto|apply Hnew; auto]]];
           apply (Permutation.Permutation_NoDup (l := map ie_blocknr ies ++ foot ++ foot')); [|auto]; rewrite app_assoc; apply Permutation.Permutation_app_comm) 0 []))
    as (m & E1 & W1).
  - split; [apply matches_big; auto|]. rewrite Hsnd. apply (clean_low sm eng ies ess Hb Hon). intros b e Hx Hy. rewrite (Hent b e Hx Hy).
    split; [apply entry_tolerated|apply entry_no_leak].
  - exists m. split; auto. intros b Hx. destruct W1 as (_ & _ & W1). rewrite W1 by auto. f_equal. rewrite HC, Hsnd.
    assert (HN' : NoDup (foot' ++ map ie_blocknr ies ++ foot)).
    { apply (Permutation.Permutation_NoDup (l := map ie_blocknr ies ++ foot ++ foot')); [|auto]; rewrite app_assoc; apply Permutation.Permutation_app_comm. }
    rewrite counted_in_dec by auto. destruct (in_dec N.eq_dec b (foot' ++ map ie_blocknr ies ++ foot)) as [H|H].
    + destruct (in_dec N.eq_dec b _) as [|X]; [lia|]. exfalso. apply X, HP; auto.
    + destruct (in_dec N.eq_dec b _) as [X|]; [|lia]. exfalso. apply H. rewrite !in_app_iff in *. tauto.
Qed.

(** The same for the metadata space map: it passes the check against the counts in core
    before it was written, to which the check adds the blocks of the map itself. *)
Theorem C18_written_metadata_map_is_clean : forall n max w k w' r eng inf msm,
  usable n max w -> 0 < n <= 255 * 16320 -> max < 2 ^ 32 -> contiguous n k w -> 0 < sm_counts (wb_sm w) 0 ->
  write_metadata_sm w = (w', Ok r) ->
  blocks_ok eng -> (forall b, sm_counts (wb_sm w) b < sm_counts (wb_sm w') b -> eng b = Some (wb_disk w' b)) ->
  core_valid msm -> sm_nr msm = n -> (forall b, b < n -> sm_counts msm b = sm_counts (wb_sm w) b) ->
  exists msm', check_metadata_space_map n eng inf r msm = (msm', Ok (0, [])) /\
    forall b, b < n -> sm_counts msm' b = sm_counts (wb_sm w') b.
Proof.
  intros n max w k w' r eng inf msm Hu Hn0 Hm Hk H0 E Hb He HV Hn Hc.
  pose proof (C17_write_metadata_sm _ _ _ _ _ _ Hu Hn0 Hm Hk H0 E) as (_ & R1 & _ & ies & depth & foot & X & L & I & T & (HN & HF & HC & _)).
  assert (Hnew : forall b, In b (map ie_blocknr ies ++ foot ++ [sr_bitmap_root r]) -> sm_counts (wb_sm w) b < sm_counts (wb_sm w') b).
  { intros b H. rewrite HC. destruct (in_dec N.eq_dec b _) as [|Y]; [lia|contradiction]. }
  assert (HP : forall b, In b (foot ++ [sr_bitmap_root r] ++ map ie_blocknr ies) -> In b (map ie_blocknr ies ++ foot ++ [sr_bitmap_root r])) by (intros b; rewrite !in_app_iff; tauto).
  assert (HN' : NoDup (foot ++ [sr_bitmap_root r] ++ map ie_blocknr ies)).
  { apply (Permutation.Permutation_NoDup (l := map ie_blocknr ies ++ foot ++ [sr_bitmap_root r])); [|auto]. rewrite (app_assoc foot). apply Permutation.Permutation_app_comm. }
  subst n.
  destruct (check_metadata_iff eng inf (wb_disk w') r msm depth (big_counts (sm_counts (wb_sm w')) 0 (sm_nr msm)) foot ies Hb HV T (big_increasing _ _ _))
    as (m & out & E1 & (N1 & M1 & W1) & HI).
  { intros b H. apply He, Hnew. rewrite !in_app_iff in *. tauto. }
  { rewrite R1. exact X. }
  { split; auto. intros b H. apply HP in H. destruct (HF b H) as [A B]. split; auto. rewrite Hc; auto. }
  assert (Hcm : forall b, b < sm_nr msm -> sm_counts m b = sm_counts (wb_sm w') b).
  { intros b Hx. rewrite W1, HC, Hc by auto. f_equal. rewrite counted_in_dec by auto.
    destruct (in_dec N.eq_dec b (foot ++ [sr_bitmap_root r] ++ map ie_blocknr ies)) as [H|H].
    + destruct (in_dec N.eq_dec b _) as [|Y]; [auto|]. exfalso. apply Y, HP; auto.
    + destruct (in_dec N.eq_dec b _) as [Y|]; [|auto]. exfalso. apply H. rewrite !in_app_iff in *. tauto. }
  exists m. split; auto. rewrite E1. f_equal. apply HI. split.
  - rewrite <- N1. apply matches_big. intros b Hx. apply Hcm. congruence.
  - destruct (written_entries eng (wb_disk w') (sm_counts (wb_sm w')) (sm_nr msm) ies L) as (ess & Hon & _ & Hent).
    { intros i ie Hi. exact (proj1 (I i ie Hi)). }
    { intros ie Hi. apply He, Hnew. apply in_or_app. left. apply in_map; auto. }
    apply (clean_low m eng ies ess Hb Hon). intros b e Hx Hy. rewrite N1 in Hx. rewrite (Hent b e Hx Hy), Hcm by auto.
    split; [apply entry_tolerated|apply entry_no_leak].
Qed.

(** ** C19 *)
(** Repair touches the listed bitmaps only, whatever happens. *)
Theorem C19_only_listed_bitmaps : forall readable good sm lks d d' r,
  repair_space_map readable good sm lks d = (d', r) -> forall b, ~ In b (map lk_loc lks) -> d' b = d b.
Proof. intros. eapply repair_only; eauto. Qed.

(** If the bitmaps can be read and written, every listed block becomes a valid bitmap with
    the same block number in it and the same entries, except that the entries of leaked
    blocks (stored 1, expected 0, in range) become 0. *)
Theorem C19_repair_space_map : forall readable good sm lks d,
  dev_ok d -> NoDup (map lk_loc lks) -> (forall lk, In lk lks -> readable (lk_loc lk) = true /\ good (lk_loc lk) = true) ->
  exists d', repair_space_map readable good sm lks d = (d', Ok tt) /\ dev_ok d' /\
    (forall b, ~ In b (map lk_loc lks) -> d' b = d b) /\
    forall lk, In lk lks -> exists bm bm' rest rest',
      bitmap_unpack (d (lk_loc lk)) = Ok (bm, rest) /\ bitmap_unpack (d' (lk_loc lk)) = Ok (bm', rest') /\
      metadata_block_type (d' (lk_loc lk)) = BITMAP /\ bm_blocknr bm' = bm_blocknr bm /\ length (bm_entries bm') = length (bm_entries bm) /\
      forall i e, nth_error (bm_entries bm) i = Some e ->
        exists e', nth_error (bm_entries bm') i = Some e' /\ released (sm_counts sm) (sm_nr sm) (lk_first lk + N.of_nat i) e e'.
Proof.
  intros readable good sm lks d Hd HN Hg. destruct (repair_spec sm readable good d lks Hd HN Hg) as (d' & E & Hd' & Ho & Hr).
  exists d'. conj; auto. intros lk Hin. destruct (Hr lk Hin) as (bm & rest & Eu & Hl & Eu' & Ht & _).
  exists bm, (mkbitmap (bm_blocknr bm) (fixed sm (lk_first lk) (bm_entries bm))), [], rest. conj; auto.
  - cbn [bm_entries]. apply fixed_length.
  - intros i e Hi. cbn [bm_entries]. rewrite fixed_nth, Hi. cbn [option_map]. eexists. split; [reflexivity|]. apply fix_entry_released.
Qed.

(** Check, repair, check again: given a check that succeeded with the leaks [lks], repairing
    them changes the stored entry of a block only if it was leaked, which becomes 0; a second
    check finds no leaks; and repairing again changes nothing. *)
Definition all_fixed (sm : core_sm) (ess : list (list bitmap_entry)) : list (list bitmap_entry) :=
  map (fun p => fixed sm (N.of_nat (fst p) * 16320) (snd p)) (combine (seq 0 (length ess)) ess).
Lemma all_fixed_nth sm ess i : nth_error (all_fixed sm ess) i = option_map (fixed sm (N.of_nat i * 16320)) (nth_error ess i).
Proof.
  unfold all_fixed. assert (H : forall l k, nth_error (map (fun p => fixed sm (N.of_nat (fst p) * 16320) (snd p)) (combine (seq k (length l)) l)) i =
    option_map (fixed sm (N.of_nat (k + i) * 16320)) (nth_error l i)); [|apply (H ess 0%nat)].
  clear. revert i. induction i as [|i IH]; intros [|x l] k; cbn [length seq combine map nth_error option_map fst snd]; auto.
  - rewrite Nat.add_0_r. auto.
  - rewrite IH. destruct (nth_error l i); auto. cbn. do 4 f_equal. lia.
Qed.
Lemma all_fixed_full sm ess : Forall (fun es => nlen es = 16320) ess -> Forall (fun es => nlen es = 16320) (all_fixed sm ess).
Proof.
  intros HF. apply Forall_forall. intros es Hes. apply In_nth_error in Hes as (i & Hi). rewrite all_fixed_nth in Hi.
  destruct (nth_error ess i) as [x|] eqn:E; [|discriminate]. injection Hi as <-. unfold nlen. rewrite fixed_length.
  rewrite Forall_forall in HF. apply (HF x). eapply nth_error_In; eauto.
Qed.
Lemma all_fixed_entry sm ess b : Forall (fun es => nlen es = 16320) ess ->
  entry_of (all_fixed sm ess) b = option_map (fix_entry sm b) (entry_of ess b).
Proof.
  intros HF. unfold entry_of. pose proof (N.div_mod b 16320 ltac:(lia)) as HD. pose proof (N.mod_lt b 16320 ltac:(lia)) as HM.
  set (q := b / 16320) in *. set (m := b mod 16320) in *. clearbody q m.
  replace b with (N.of_nat (N.to_nat q) * 16320 + m) by lia.
  destruct (nth_error ess (N.to_nat q)) as [es|] eqn:E.
  - rewrite (nth_concat ess (N.to_nat q) m es HF E HM).
    rewrite (nth_concat (all_fixed sm ess) (N.to_nat q) m (fixed sm (N.of_nat (N.to_nat q) * 16320) es) (all_fixed_full sm ess HF)); auto.
    + rewrite fixed_nth. rewrite N2Nat.id at 1. rewrite (N2Nat.id m). rewrite N2Nat.id. auto.
    + rewrite all_fixed_nth, E. auto.
  - rewrite (nth_concat_out ess _ m HF E). rewrite (nth_concat_out (all_fixed sm ess) _ m (all_fixed_full sm ess HF)); auto. rewrite all_fixed_nth, E. auto.
Qed.
Theorem C19_check_repair_check : forall readable good sm ies d n lks,
  dev_ok d -> NoDup (map ie_blocknr ies) -> (forall ie, In ie ies -> good (ie_blocknr ie) = true) ->
  check_low_ref_counts (reads readable d) sm ies = Ok (n, lks) ->
  exists d' ess ess',
    repair_space_map readable good sm lks d = (d', Ok tt) /\
    (forall b, ~ In b (map lk_loc lks) -> d' b = d b) /\ (forall lk, In lk lks -> In (lk_loc lk) (map ie_blocknr ies)) /\
    bitmaps_on (reads readable d) ies ess /\ bitmaps_on (reads readable d') ies ess' /\
    (forall b e, entry_of ess b = Some e -> exists e', entry_of ess' b = Some e' /\ released (sm_counts sm) (sm_nr sm) b e e') /\
    check_low_ref_counts (reads readable d') sm ies = Ok (0, []) /\
    (exists d'', repair_space_map readable good sm lks d' = (d'', Ok tt) /\ forall b, d'' b = d' b).
Proof.
  intros readable good sm ies d n lks Hd HN Hg EC.
  assert (Hok : forall d, dev_ok d -> blocks_ok (reads readable d)).
  { intros d0 H0 b data H. unfold reads in H. destruct (readable b); [|discriminate]. injection H as <-. apply H0. }
  pose proof EC as EC0. apply (check_low_iff sm _ ies n lks (Hok d Hd)) in EC as (ess & Hon & HT & -> & (is & Hinc & Hin & HF2)).
  assert (HF : Forall (fun es => nlen es = 16320) ess).
  { pose proof (Hok d Hd) as He. clear - He Hon. unfold bitmaps_on in Hon. induction Hon as [|ie es ies ess (x & bm & rest & A & B & C & D) H IH]; constructor; auto.
    destruct (He _ _ A) as [Hb Hl]. destruct (bitmap_unpack_block x Hb Hl) as (bm' & Eu & Hlen & _). rewrite C in Eu. apply Ok_inj in Eu.
    injection Eu as <- _. congruence. }
  (* the listed leaks are index entries *)
  assert (Hlk : forall lk, In lk lks -> exists i ie, nth_error ies i = Some ie /\ lk_loc lk = ie_blocknr ie /\ lk_first lk = N.of_nat i * 16320 /\ In i is).
  { clear - HF2. induction HF2 as [|i lk is lks [A (ie & B & C)] H IH]; intros lk' Hx; [destruct Hx|]. destruct Hx as [<-|Hx].
    - exists i, ie. conj; auto. left; auto.
    - destruct (IH lk' Hx) as (i' & ie' & ? & ? & ? & ?). exists i', ie'. conj; auto. right; auto. }
  assert (Hlk' : forall i, In i is -> exists lk ie, In lk lks /\ nth_error ies i = Some ie /\ lk_loc lk = ie_blocknr ie).
  { clear - HF2. induction HF2 as [|i lk is lks [A (ie & B & C)] H IH]; intros i' Hx; [destruct Hx|]. destruct Hx as [<-|Hx].
    - exists lk, ie. conj; auto. left; auto.
    - destruct (IH i' Hx) as (lk' & ie' & ? & ? & ?). exists lk', ie'. conj; auto. right; auto. }
  assert (HNl : NoDup (map lk_loc lks)).
  { apply increasing_NoDup in Hinc. clear - HF2 HN Hinc. induction HF2 as [|i lk is lks [A (ie & B & C)] H IH]; [constructor|]. cbn [map] in *.
    inversion Hinc as [|? ? Hni Hinc']; subst. constructor; auto. intros Hx. apply in_map_iff in Hx as (lk' & E & Hx).
    assert (Hj : exists j ie', In j is /\ nth_error ies j = Some ie' /\ lk_loc lk' = ie_blocknr ie').
    { clear - H Hx. induction H as [|j lk0 is lks [_ (ie' & B' & C')] H IH]; [destruct Hx|]. destruct Hx as [->|Hx]; [exists j, ie'; conj; auto; left; auto|].
      destruct (IH Hx) as (j' & ie0 & ? & ? & ?). exists j', ie0. conj; auto. right; auto. }
    destruct Hj as (j & ie' & Hj & Hn & Hl'). apply Hni. apply in_map_iff. exists j. split; auto. f_equal.
    assert (H1 : nth_error (map ie_blocknr ies) j = nth_error (map ie_blocknr ies) i).
    { rewrite (map_nth_error _ _ _ Hn), (map_nth_error _ _ _ B). congruence. }
    rewrite NoDup_nth_error in HN. apply HN; auto. apply nth_error_Some. rewrite (map_nth_error _ _ _ Hn). discriminate. }
  assert (Hrd : forall ie, In ie ies -> readable (ie_blocknr ie) = true).
  { clear - Hon. unfold bitmaps_on in Hon. induction Hon as [|ie es ies ess (x & bm & rest & A & _) H IH]; intros ie' Hx; [destruct Hx|].
    destruct Hx as [<-|Hx]; auto. unfold reads in A. destruct (readable (ie_blocknr ie)); auto. discriminate. }
  assert (Hrg : forall lk, In lk lks -> readable (lk_loc lk) = true /\ good (lk_loc lk) = true).
  { intros lk Hx. destruct (Hlk lk Hx) as (i & ie & Hi & -> & _). apply nth_error_In in Hi. auto. }
  destruct (repair_spec sm readable good d lks Hd HNl Hrg) as (d' & E & Hd' & Ho & Hr).
  assert (Hon' : bitmaps_on (reads readable d') ies (all_fixed sm ess)).
  { unfold bitmaps_on. assert (HL : length ies = length (all_fixed sm ess)).
    { unfold all_fixed. rewrite map_length, combine_length, seq_length. rewrite Nat.min_id. clear - Hon. unfold bitmaps_on in Hon. induction Hon; cbn; auto. }
    assert (HP : forall i ie es, nth_error ies i = Some ie -> nth_error (all_fixed sm ess) i = Some es -> bitmap_on (reads readable d') (ie_blocknr ie) es).
    { intros i ie es Hi He. rewrite all_fixed_nth in He. destruct (nth_error ess i) as [es0|] eqn:Es; [|discriminate]. injection He as <-.
      assert (Hbo : bitmap_on (reads readable d) (ie_blocknr ie) es0).
      { clear - Hon Hi Es. revert i Hi Es. unfold bitmaps_on in Hon. induction Hon as [|ie0 es1 ies ess H Hon IH]; intros [|i] Hi Es; try discriminate.
        - injection Hi as <-. injection Es as <-. auto.
        - eapply IH; eauto. }
      pose proof (Hrd ie (nth_error_In _ _ Hi)) as Hrdb.
      destruct Hbo as (x & bm & rest & A & B & C & D). unfold reads in A. rewrite Hrdb in A. injection A as <-.
      destruct (in_dec N.eq_dec (ie_blocknr ie) (map lk_loc lks)) as [Hx|Hx].
      - apply in_map_iff in Hx as (lk & El & Hx). destruct (Hr lk Hx) as (bm' & rest' & Eu & _ & Eu' & Ht & _).
        rewrite El in *. rewrite C in Eu. apply Ok_inj in Eu. injection Eu as <- _.
        destruct (Hlk lk Hx) as (j & ie' & Hj & Hl' & Hf & _).
        assert (j = i).
        { assert (H1 : nth_error (map ie_blocknr ies) j = nth_error (map ie_blocknr ies) i).
          { rewrite (map_nth_error _ _ _ Hj), (map_nth_error _ _ _ Hi). congruence. }
          rewrite NoDup_nth_error in HN. apply HN; auto. apply nth_error_Some. rewrite (map_nth_error _ _ _ Hj). discriminate. }
        subst j. rewrite Hf in Eu'. exists (d' (ie_blocknr ie)), (mkbitmap (bm_blocknr bm) (fixed sm (N.of_nat i * 16320) (bm_entries bm))), rest'.
        unfold reads. rewrite Hrdb. conj; auto. cbn [bm_entries]. rewrite D. auto.
      - exists (d (ie_blocknr ie)), bm, rest. unfold reads. rewrite Hrdb, Ho by auto. conj; auto. rewrite D. symmetry. apply fixed_none.
        destruct (existsb _ _) eqn:Ex; auto. exfalso. apply Hx.
        assert (Hiin : In i is). { apply Hin. apply (leaky_iff _ _ ess i HF). eauto. }
        destruct (Hlk' i Hiin) as (lk & ie' & Hk & Hi' & El). rewrite Hi in Hi'. injection Hi' as <-. rewrite <- El. apply in_map; auto. }
    clear - HL HP. revert HL HP. generalize (all_fixed sm ess). induction ies as [|ie ies IH]; intros [|es l] HL HP; try discriminate; constructor.
    - apply (HP 0%nat); auto.
    - apply IH; [cbn in HL; lia|]. intros i ie' es' H1 H2. apply (HP (S i)); auto. }
  assert (Hent : forall b, entry_of (all_fixed sm ess) b = option_map (fix_entry sm b) (entry_of ess b)) by (intros; apply all_fixed_entry; auto).
  exists d', ess, (all_fixed sm ess). conj; auto.
  - intros lk Hx. destruct (Hlk lk Hx) as (i & ie & Hi & -> & _). apply in_map. eapply nth_error_In; eauto.
  - intros b e He. rewrite Hent, He. cbn [option_map]. eexists. split; [reflexivity|]. apply fix_entry_released.
  - apply (clean_low sm _ ies (all_fixed sm ess) (Hok d' Hd') Hon'). intros b e Hb He. rewrite Hent in He.
    destruct (entry_of ess b) as [e0|] eqn:E0; [|discriminate]. injection He as <-. specialize (HT b e0 Hb E0).
    destruct (fix_entry_released sm b e0) as [(_ & [_ Hz] & ->)|[Hn ->]].
    + rewrite Hz. split; [right; reflexivity|intros [Hx _]; discriminate].
    + split; auto.
  - destruct (repair_spec sm readable good d' lks Hd' HNl Hrg) as (d'' & E' & Hd'' & Ho' & Hr').
    exists d''. split; auto. intros b. destruct (in_dec N.eq_dec b (map lk_loc lks)) as [Hx|Hx]; [|auto].
    apply in_map_iff in Hx as (lk & <- & Hx). destruct (Hr lk Hx) as (bm & rest & Eu & _ & Eu' & _ & _ & _ & l & P1 & P2).
    destruct (Hr' lk Hx) as (bm1 & rest1 & Eu1 & _ & _ & _ & _ & _ & l1 & P3 & P4). rewrite Eu' in Eu1. apply Ok_inj in Eu1. injection Eu1 as <- _.
    cbn [bm_blocknr bm_entries] in P3. rewrite fixed_idem in P3. rewrite P1 in P3. apply Ok_inj in P3. subst l1. congruence.
Qed.

(** ** What the checker does not notice *)
(** A device with two space maps for 10 blocks: one with the counts of [ex_c], one with all
    blocks free. *)
Definition ex_c : core_sm := mksm 10 255 4 0 (fun b => if b =? 1 then 1 else if b =? 2 then 2 else if b =? 3 then 200 else if b =? 9 then 3 else 0).
Definition ex_eng (w : wb) (b : N) : option (list N) := if b <? 16 then Some (wb_disk w b) else None.
Definition check_result (f : sm_root -> sm_root -> sm_root) (dsm : core_sm) : option (res (N * list leak)) :=
  match write_disk_sm ex_c ex_w with
  | (w1, Ok r1) =>
      match write_disk_sm (sm_new 10 255) w1 with
      | (w2, Ok r2) => Some (snd (check_disk_space_map 16 (ex_eng w2) false (f r1 r2) dsm (sm_new 16 255)))
      | _ => None
      end
  | _ => None
  end.
Definition with_count (sm : core_sm) (b v : N) : core_sm := mksm (sm_nr sm) 65535 (sm_nalloc sm) (sm_begin sm) (upd (sm_counts sm) b v).
(** The expected count is truncated to a byte: 256 expected and 0 stored is not an error. *)
Theorem C18_truncation_refuted : check_result (fun _ r => r) (with_count (sm_new 10 255) 5 256) = Some (Ok (0, [])).
Proof. vm_compute. reflexivity. Qed.
(** A block marked as overflow without an entry in the reference count tree passes with any
    expected count above 2. *)
Theorem C18_missing_count_refuted :
  check_result (fun r s => mksmroot (sr_nr_blocks r) (sr_nr_allocated r) (sr_bitmap_root r) (sr_ref_count_root s)) (with_count ex_c 3 7) = Some (Ok (0, [])).
Proof. vm_compute. reflexivity. Qed.
(** Blocks beyond the last bitmap are not compared at all. *)
Theorem C18_short_index_refuted :
  check_result (fun r _ => r) (mksm 20000 255 5 0 (upd (sm_counts ex_c) 16320 1)) = Some (Ok (0, [])).
Proof. vm_compute. reflexivity. Qed.
(** A reference count tree with a block beyond the device makes the checker panic. *)
Theorem C18_out_of_range_refuted : check_result (fun r _ => r) (mksm 5 255 3 0 (sm_counts ex_c)) = Some Panic.
Proof. vm_compute. reflexivity. Qed.

(** ** The hypotheses can be met *)
Example C18_example :
  check_result (fun r _ => r) ex_c = Some (Ok (0, [])) /\
  match check_result (fun r _ => r) (with_count ex_c 1 0) with Some (Ok (1, [lk])) => lk_first lk = 0 | _ => False end /\
  check_result (fun r _ => r) (with_count ex_c 2 1) = Some Err /\
  check_result (fun r _ => r) (with_count ex_c 0 1) = Some Err /\
  check_result (fun r _ => r) (with_count ex_c 3 201) = Some Err.
Proof. split; [|split; [|split; [|split]]]; vm_compute; reflexivity. Qed.
Lemma C18_example_hyps : core_valid (sm_new 16 255) /\ usable 16 255 ex_w /\ sm_nr ex_c < 2 ^ 64 /\
  (forall b, b < sm_nr ex_c -> sm_counts ex_c b < 2 ^ 32).
Proof.
  split; [|split; [exact ex_w_usable|split; [reflexivity|]]].
  - unfold core_valid. cbn. conj; [reflexivity|lia|intros; lia].
  - intros b _. unfold ex_c. cbn [sm_counts]. destruct (b =? 1), (b =? 2), (b =? 3), (b =? 9); lia.
Qed.
(** Check with two leaks, repair, check, and the number of bytes that differ after a second
    repair. *)
Definition repair_result (dsm : core_sm) : option (res (N * list leak) * res (N * list leak) * bool) :=
  match write_disk_sm ex_c ex_w with
  | (w1, Ok r1) =>
      match btree_to_map ie_codec 16 (ex_eng w1) false (sr_bitmap_root r1) with
      | Ok ikvs =>
          let ies := map snd ikvs in
          match check_low_ref_counts (ex_eng w1) dsm ies with
          | Ok (n, lks) =>
              let rd := fun b => b <? 16 in
              let '(d', _) := repair_space_map rd rd dsm lks (wb_disk w1) in
              let '(d'', _) := repair_space_map rd rd dsm lks d' in
              Some (Ok (n, map (fun lk => mkleak (lk_first lk) 0) lks), check_low_ref_counts (reads rd d') dsm ies,
                    forallb (fun b => forallb (fun p => fst p =? snd p) (combine (d' b) (d'' b))) (range 0 16))
          | _ => None
          end
      | _ => None
      end
  | _ => None
  end.
Example C19_example : repair_result (with_count ex_c 1 0) = Some (Ok (1, [mkleak 0 0]), Ok (0, []), true).
Proof. vm_compute. reflexivity. Qed.

Print Assumptions C18_check_low_ref_counts.
Print Assumptions C18_check_disk_space_map.
Print Assumptions C18_wrong_counts.
Print Assumptions C18_check_metadata_space_map.
Print Assumptions C18_written_disk_map_is_clean.
Print Assumptions C18_written_metadata_map_is_clean.
Print Assumptions C18_truncation_refuted.
Print Assumptions C18_missing_count_refuted.
Print Assumptions C18_short_index_refuted.
Print Assumptions C18_out_of_range_refuted.
Print Assumptions C19_only_listed_bitmaps.
Print Assumptions C19_repair_space_map.
Print Assumptions C19_check_repair_check.
