(** cache_restore: finalizing. *)
From Verif Require Import Base Csum_Model Codec_Model Codec_Spec Codec_Proofs SbCodec_Proofs SpaceMap_Model SpaceMap_Spec SpaceMap_Proofs Batcher_Model Batcher_Proofs IoMany_Proofs
  Builder_Model Builder_Spec Builder_Proofs Utils_Proofs BtreeBuild_Proofs Session_Spec ThinOut_Model Walker_Model Array_Model Array_Spec Array_Proofs SmWrite_Model
  SmWrite_Spec SmWrite_Proofs SmMetaTop_Proofs Restore_Model RestoreSafe_Proofs Props_SmWrite ContigSafe_Proofs RestoreRun_Proofs RestoreDoc_Proofs RestoreFin_Proofs Utils_Model Era_Spec CacheIo_Model CacheIo_Spec
  CacheRestore_Proofs.
From Verif Require Pack_Proofs.

(** ** The metadata space map *)
Lemma nr_used_list n c (used : list N) : NoDup used -> (forall x, In x used -> x < n) -> (forall x, x < n -> (c x <> 0 <-> In x used)) -> nr_used n c = nlen used.
Proof.
  intros HN Hl Hc. unfold nr_used, nlen. f_equal. apply Nat.le_antisymm; apply NoDup_incl_length.
  - apply NoDup_filter. apply increasing_NoDup, range_increasing.
  - intros x Hx. apply filter_In in Hx as [H1 H2]. apply in_range in H1. apply Hc; [lia|]. destruct (N.eqb_spec (c x) 0); [discriminate|auto].
  - exact HN.
  - intros x Hx. apply filter_In. split; [apply in_range; specialize (Hl x Hx); lia|]. specialize (Hl x Hx). apply Hc in Hx; auto. destruct (N.eqb_spec (c x) 0); [congruence|auto].
Qed.
Section Sm.
Variable n : N.
Let max := W32 - 1.
Hypothesis Hn : n < 2 ^ 64.

Lemma metadata_sm_done w : env n max w -> J n max [] w -> 0 < cnt w 0 -> 0 < n <= 255 * 16320 ->
  wp (sm <~ write_metadata_sm ;; lift (pack_root sm SPACE_MAP_ROOT_SIZE)) w
     (fun w' packed => wb_queue w' = [] /\ bytes packed /\ nlen packed = 128 /\ exists sms, grew n max w w' sms /\
        forall D used, (forall x, x <> 0 -> D x = wb_view w' x) -> NoDup used -> (forall x, In x used -> x < n) -> (forall x, cnt w' x = occ x used) -> counts_on D n packed used /\ map_parts_on D n packed used sms)
     (exhausted n max).
Proof using Hn.
  intros He [(Ism & k & (Hk & Hal & Hout) & _) _] H0 [Hn0 Hn255]. apply wp_bind.
  eapply wp_mono; [apply (write_metadata_sm_wp n max Hn ltac:(unfold max, W32; lia) w k He Hn255 H0 Hk Hn0 Hal Hout)| |auto].
  intros w4 mr (ies4 & dp4 & f4 & Q4 & X4 & L4 & I4 & G4 & T4 & R4a & R4b).
  set (l4 := map ie_blocknr ies4 ++ f4 ++ [sr_bitmap_root mr]) in *.
  assert (Hlt4 : forall x, In x l4 -> x < n /\ cnt w x = 0) by (intros x Hx; apply (gr_free _ _ _ _ _ G4) in Hx; tauto).
  assert (Hmr_range : smroot_range mr).
  { unfold smroot_range. rewrite R4a, R4b. conj; auto; try lia.
    - rewrite (inv_nalloc n max) by apply (wi_sm _ _ _ (e_inv _ _ _ (gr_env _ _ _ _ _ G4))). pose proof (nr_used_le n 0 Hn eq_refl n (sm_counts (wb_sm w4))). lia.
    - assert (sr_bitmap_root mr < n); [|lia]. apply Hlt4. unfold l4. rewrite !in_app_iff. right; right; left; auto.
    - assert (sr_ref_count_root mr < n); [|lia]. apply Hlt4. unfold l4. rewrite !in_app_iff. right; left. eapply (root_in_foot n 0 Hn eq_refl); exact T4. }
  destruct (pack_root_reads n 0 Hn eq_refl mr Hmr_range) as (mp & Emp & Bmp & Lmp & rmp & Ump).
  rewrite Emp. unfold wp, lift. conj; auto. exists l4. split; auto. intros D used HD HN Hun Hc.
  assert (Hl4 : forall x, In x l4 -> x <> 0).
  { intros x Hx ->. apply Hlt4 in Hx. lia. }
  assert (Hone : forall b, cnt w4 b = if in_dec N.eq_dec b used then 1 else 0).
  { intros b. rewrite Hc. destruct (in_dec N.eq_dec b used) as [Hi|Hi]; [|apply occ_not_in; auto]. pose proof (nodup_occ _ HN b). apply occ_in in Hi. lia. }
  split.
  2:{ exists mr, rmp, ies4, dp4, f4. conj; auto.
      - rewrite HD by (apply Hl4; unfold l4; rewrite !in_app_iff; right; right; left; auto). exact X4.
      - intros i ie Ei. destruct (I4 i ie Ei) as (A & _). eapply bitmap_at_ext; [apply HD, Hl4; unfold l4; apply in_or_app; left; apply in_map; eapply nth_error_In; eauto|].
        erewrite map_ext; [exact A|]. intros x. cbn beta. rewrite Hone. destruct (in_dec _ _ _); reflexivity.
      - assert (Eb : big_counts (cnt w4) 0 n = []).
        { unfold big_counts. replace (filter (fun b => 3 <=? cnt w4 b) (range 0 n)) with (@nil N); [reflexivity|]. symmetry. induction (range 0 n) as [|b l IH]; cbn [filter]; auto.
          rewrite Hone. destruct (in_dec _ _ _); exact IH. }
        rewrite <- Eb. eapply tree_frame; [|exact T4]. intros x Hx. apply HD. apply Hl4. unfold l4. rewrite !in_app_iff. auto. }
  exists mr, rmp, (mkmi (sr_bitmap_root mr) ies4), (Datatypes.S dp4). conj.
  - exact Ump.
  - exact R4a.
  - rewrite R4b, (inv_nalloc n max) by apply (wi_sm _ _ _ (e_inv _ _ _ (gr_env _ _ _ _ _ G4))). apply nr_used_list; auto.
    + intros x _. change (sm_counts (wb_sm w4) x) with (cnt w4 x). rewrite Hc, <- occ_in. lia.
  - rewrite HD by (apply Hl4; unfold l4; rewrite !in_app_iff; right; right; left; auto). exact X4.
  - intros fuel b Hf Hb. cbn [mi_indexes].
    assert (Hlt : b / 16320 < nlen ies4) by (rewrite L4; apply lt_div_up; dlia).
    destruct (nth_error ies4 (N.to_nat (b / 16320))) as [ie|] eqn:Ei. 2:{ apply nth_error_None in Ei. unfold nlen in Hlt. lia. }
    exists ie. destruct (I4 _ ie Ei) as (A & _). rewrite N2Nat.id in A.
    assert (A' : bitmap_at D (ie_blocknr ie) (map (fun x => entry_for (cnt w4 (b / 16320 * 16320 + x))) (range 0 (bitmap_len n (b / 16320))))).
    { eapply bitmap_at_ext; [|exact A]. apply HD. apply Hl4. unfold l4. apply in_or_app. left. apply in_map. eapply nth_error_In; eauto. }
    assert (T4' : tree u32_codec D true dp4 (sr_ref_count_root mr) (big_counts (cnt w4) 0 n) f4).
    { eapply tree_frame; [|exact T4]. intros x Hx. apply HD. apply Hl4. unfold l4. rewrite !in_app_iff. auto. }
    conj; auto; [apply A'|].
    rewrite (entry_read fuel D (cnt w4) n ie b dp4 (sr_ref_count_root mr) f4 Hb ltac:(lia) A' T4'). f_equal. f_equal.
    rewrite Hc. destruct (in_dec N.eq_dec b used) as [Hi|Hi]; [|apply occ_not_in; auto].
    pose proof (nodup_occ _ HN b). apply occ_in in Hi. lia.
Qed.
End Sm.

(** ** The superblock *)
Lemma write_csb_spec sb w : cache_sb_range sb -> wb_good w 0 = true -> exists w', wb_write_cache_sb sb w = (w', Ok tt) /\
  cache_read_superblock (wb_disk w') 0 = Ok sb /\ (forall x, x <> 0 -> wb_disk w' x = wb_disk w x) /\ wb_queue w' = wb_queue w.
Proof.
  intros Hr Hg. destruct (cache_roundtrip (wb_disk w) 0 sb Hr) as (d' & E & R & O & _).
  unfold cache_write_superblock in E. destruct (cache_sb_pack sb) as [l| |] eqn:El; [|discriminate E|discriminate E]. cbn [bind] in E.
  destruct (to_block l) as [b| |] eqn:Eb; [|discriminate E|discriminate E].
  cbn [bind] in E. destruct (write_checksum b CACHE_SUPERBLOCK) as [data| |] eqn:Ed; [|discriminate E|discriminate E].
  cbn [bind] in E. apply Pack_Proofs.Ok_inj in E.
  unfold wb_write_cache_sb, bindst, lift. rewrite El, Eb, Ed, Hg.
  eexists. split; [reflexivity|].
  unfold wb_disk. cbn [wb_base wb_good wb_log wb_queue]. rewrite put_log_app. unfold put_log at 1 3. cbn [fold_left b_loc]. rewrite Hg.
  change (put_block (put_log (wb_base w) (wb_good w) (wb_log w)) (mkblock 0 data)) with (upd (wb_disk w) 0 data). rewrite E.
  split; [exact R|split; [|reflexivity]]. intros x Hx. apply O. exact Hx.
Qed.

(** ** What the arrays hold *)
Lemma contents_nth {V} (dflt : V) nr kvs i : i < nr -> nth_error (contents dflt nr kvs) (N.to_nat i) = Some (value_at dflt kvs i).
Proof.
  intros Hi. unfold contents. erewrite map_nth_error; [reflexivity|]. rewrite nth_error_nth' with (d := 0) by (rewrite range_length; lia).
  rewrite nth_range by lia. f_equal. lia.
Qed.
Lemma contents_len {V} (dflt : V) nr kvs : nlen (contents dflt nr kvs) = nr.
Proof. unfold contents, nlen. rewrite map_length, range_length. lia. Qed.
Lemma assoc_find {A V} (key : A -> N) (val : A -> V) l i : assoc (map (fun x => (key x, val x)) l) i = option_map val (find (fun x => key x =? i) l).
Proof. induction l as [|x l IH]; cbn [map assoc find option_map]; auto. rewrite N.eqb_sym. destruct (key x =? i); auto. Qed.
Lemma dirty_find ms i : NoDup (map cm_cblock ms) -> existsb (fun m => cm_isdirty m && (cm_cblock m =? i)) ms =
  match find (fun m => cm_cblock m =? i) ms with Some m => cm_isdirty m | None => false end.
Proof.
  induction ms as [|m ms IH]; intros HN; cbn [existsb find map] in *; auto. inversion HN as [|? ? H1 H2]; subst. destruct (N.eqb_spec (cm_cblock m) i) as [E|E].
  - rewrite andb_true_r. assert (Hf : existsb (fun m => cm_isdirty m && (cm_cblock m =? i)) ms = false).
    { destruct (existsb _ ms) eqn:Ex; auto. apply existsb_exists in Ex as (m' & Hm' & Ex). apply andb_prop in Ex as [_ Ex]. exfalso. apply H1. rewrite E.
      apply in_map_iff. exists m'. split; auto. apply N.eqb_eq. auto. }
    rewrite Hf, orb_false_r. auto.
  - rewrite andb_false_r. cbn [orb]. auto.
Qed.

Lemma bind_assoc {S A B C} (m : st S A) (f : A -> st S B) (g : B -> st S C) s : bindst (bindst m f) g s = bindst m (fun a => bindst (f a) g) s.
Proof. unfold bindst. destruct (m s) as [s' [a| |]]; auto. Qed.

Section Fin.
Variables n version nr : N.
Let max := W32 - 1.
Hypothesis Hn : n < 2 ^ 64.
Hypothesis Hnr : nr < 2 ^ 32.
Hypothesis Hv : version = 1 \/ version = 2.
Variables (dr : N) (fx : list N) (clean : bool) (d : cdoc).
Hypothesis Hnd : ci_nr_cache_blocks (cd_sb d) = nr.
Hypothesis Hfit : cdoc_fits d.
Notation RC := (RC n version nr dr fx).

Lemma in_order_run w a ob h bits : RC w a ob h bits (cd_maps d) (cd_hints d) -> doc_in_order d.
Proof using Hnd Hv Hn Hnr.
  intros H. pose proof (ai_keys _ _ _ _ _ _ _ _ (rc_map _ _ _ _ _ _ _ _ _ _ _ _ H)) as [A1 A2]. pose proof (ai_keys _ _ _ _ _ _ _ _ (rc_hint _ _ _ _ _ _ _ _ _ _ _ _ H)) as [B1 B2].
  rewrite map_map in A1, B1. split; (split; [assumption|]); rewrite Hnd.
  - apply Forall_map. rewrite Forall_map in A2. eapply Forall_impl; [|exact A2]. cbn. tauto.
  - apply Forall_map. rewrite Forall_map in B2. eapply Forall_impl; [|exact B2]. cbn. tauto.
Qed.

(** The dirty bits. *)
Lemma dirty_wp w1 ob bits : env n max w1 -> J n max [] w1 -> Forall (fun m => cm_cblock m < nr) (cd_maps d) ->
  match ob with
  | None => version = 1
  | Some db => version = 2 /\ exists dkvs, AInv n u64_codec word_ok 0 (div_up nr 64) w1 db dkvs /\ at_end u64_codec db dkvs /\ bits_ok dkvs bits (cd_maps d)
  end ->
  wp (match ob with
      | None => ret None
      | Some b => b <~ abb_push u64_codec 0 (fst bits) (snd bits) b ;; x <~ ab_complete u64_codec 0 b ;; ret (Some x)
      end) w1
     (fun w2 o => J n max [] w2 /\ exists l bd fd ws, grew n max w1 w2 l /\ (forall x, occ x (dblocks ob) + occ x l = occ x (bd ++ fd)) /\
        match o with
        | None => version = 1 /\ fd = [] /\ bd = []
        | Some root => version = 2 /\ root < n /\ array_at u64_codec (wb_view w2) root ws fd bd /\ nlen ws = div_up nr 64 /\
            forall i, i < nr -> bit_at 64 ws i = existsb (fun m => cm_isdirty m && (cm_cblock m =? i)) (cd_maps d)
        end)
     (fun w2 => exhausted n max w2 \/ version = 2 /\ nr = 0).
Proof using Hn Hnr Hv Hnd.
  intros He Hj Hlt H. destruct ob as [db|].
  2:{ apply wp_ret. split; auto. exists [], [], [], []. conj; auto. apply grew_refl; auto. }
  destruct H as [E2 (dkvs & A & B & C)]. apply wp_bind.
  assert (Hpos : pos u64_codec db <= fst bits).
  { rewrite B. pose proof (bo_above _ _ _ C) as HF. destruct dkvs as [|x l] using rev_ind; cbn [rev]; [lia|]. rewrite rev_app_distr. cbn [rev app]. destruct x as [k' v].
    apply Forall_app in HF as [_ HF]. inversion HF; subst. cbn [fst] in *. lia. }
  eapply wp_mono; [eapply wp_safe; [|apply j_push; exact Hn|exact Hj]| |].
  - apply (push_wp n max Hn u64_codec word_ok 0 u64_lossless u64_size eq_refl (div_up nr 64) w1 db dkvs); [exact A|exact He|apply (bo_word _ _ _ C)|exact B].
  - intros w' db' [(l & G & A' & B' & P') Hj']. apply wp_bind.
    eapply wp_mono; [eapply wp_safe; [|apply j_ab_complete; exact Hn|exact Hj']| |].
    + apply (ab_complete_wp n max Hn u64_codec word_ok 0 u64_lossless u64_size eq_refl (div_up nr 64) w' db'); [|exact A'|apply G].
      assert (div_up nr 64 <= nr) by (unfold div_up; dlia). change (array_per u64_codec) with 509. lia.
    + intros w2 root [(l2 & foot & G2 & Hr & HN & Ha) Hj2]. apply wp_ret. split; auto.
      exists (l ++ l2 ++ foot), (abb_blocks db' ++ l2), foot, (contents 0 (div_up nr 64) (dkvs ++ [(fst bits, snd bits)])). conj; auto.
      * eapply grew_trans; eauto.
      * intros x. cbn [dblocks]. rewrite B', !occ_app. lia.
      * apply contents_len.
      * intros i Hi. rewrite <- (bo_bits _ _ _ C i). unfold bit_at. f_equal.
        assert (Hb : i / 64 < div_up nr 64) by (apply lt_div_up; [lia|dlia]).
        erewrite nth_error_nth; [reflexivity|]. rewrite contents_nth by auto. destruct bits; reflexivity.
    + intros w2 Hx. left. exact Hx.
  - intros w2 [Hf|[Hk|Hk]]; [left; left; exact Hf| |lia]. destruct (bo_from _ _ _ C) as [E0|(m' & Hm' & E0)].
    + right. split; auto. assert (~ 0 < div_up nr 64) as Hz by lia. rewrite lt_div_up in Hz by lia. lia.
    + exfalso. rewrite Forall_forall in Hlt. specialize (Hlt m' Hm'). assert (~ fst bits < div_up nr 64) as Hz by lia. rewrite lt_div_up in Hz by lia. rewrite <- E0 in Hz. dlia.
Qed.

Lemma readable_from {V} (c : codec V) (D : disk) m root vs foot blocks : array_at c D root vs foot blocks -> NoDup (blocks ++ foot) -> (forall b, In b (blocks ++ foot) -> b < m) ->
  readable_array c (fun b => if b <? m then Some (D b) else None) D m root vs.
Proof using Hn Hnr Hv Hnd.
  intros H HN Hl. exists foot, blocks. conj; auto; [apply NoDup_app_iff_local in HN; tauto|].
  intros b Hb. specialize (Hl b Hb). split; auto. destruct (N.ltb_spec b m); [auto|lia].
Qed.
Lemma cache_finalize_wp w a ob h bits : RC w a ob h bits (cd_maps d) (cd_hints d) -> dr < n -> (forall x, In x fx -> x < n) -> 0 < n <= 255 * 16320 ->
  wp (cache_finalize version clean (in_run (cd_sb d) dr w a ob h bits CSuperblock)) w
     (fun w' r' => doc_in_order d /\ cache_restored (wb_disk w') n version clean d /\ wb_queue w' = [] /\ cr_sec r' = CFinalized)
     (fun w' => exhausted n max w' \/ version = 2 /\ nr = 0).
Proof using Hn Hnr Hv Hnd Hfit.
  intros HR Hdr Hfx Hn255. pose proof (in_order_run _ _ _ _ _ HR) as Hord.
  destruct Hfit as (F1 & F2 & F3 & F4 & F5 & F6 & F7).
  unfold cache_finalize. cbn [cr_sb in_run]. apply wp_bind.
  (* mappings *)
  unfold complete_opt at 1. cbn [cr_map in_run]. apply wp_bind.
  eapply wp_mono; [eapply wp_safe; [|apply j_ab_complete; exact Hn|apply HR]| |intros w' Hx; left; exact Hx].
  { apply (ab_complete_wp n max Hn cm_codec cm_range no_mapping cm_lossless ltac:(cbn; lia) ltac:(split; reflexivity) nr w a (map (map_entry version) (cd_maps d))); [|apply HR|apply HR].
    change (array_per cm_codec) with 509. lia. }
  intros w1 mroot [(l1 & f1 & G1 & Hr1 & N1 & A1) Hj1]. apply wp_ret. apply wp_bind. cbn [cr_dirty cr_bits in_run].
  (* dirty bits *)
  eapply wp_mono; [apply (dirty_wp w1 ob bits); [apply G1|exact Hj1| |]| |auto].
  { destruct Hord as [[_ Ho] _]. rewrite Forall_map in Ho. rewrite <- Hnd. exact Ho. }
  { pose proof (rc_dirty _ _ _ _ _ _ _ _ _ _ _ _ HR) as Hd. destruct ob as [db|]; auto. destruct Hd as [E2 (dkvs & A & B & C)]. split; auto. exists dkvs. conj; auto. eapply AInv_stable; [exact A|exact G1]. }
  intros w2 droot [Hj2 (l2 & bd & fd & ws & G2 & O2 & Hd)]. apply wp_bind.
  (* hints *)
  unfold complete_opt. cbn [cr_hint in_run]. apply wp_bind. change (ab_complete hint_codec) with (ab_complete hint2).
  assert (G12 : grew n max w w2 ((l1 ++ f1) ++ l2)) by (eapply grew_trans; eauto).
  eapply wp_mono; [eapply wp_safe; [|apply j_ab_complete; exact Hn|exact Hj2]| |intros w' Hx; left; exact Hx].
  { apply (ab_complete_wp n max Hn hint2 hint_range no_hint hint2_lossless ltac:(cbn; lia) (no_hint_range n version nr Hn Hnr Hv) nr w2 h (map hint_entry (cd_hints d))); [|eapply AInv_stable; [apply HR|exact G12]|apply G2].
    change (array_per hint2) with 1018. lia. }
  intros w3 hroot [(l3 & f3 & G3 & Hr3 & N3 & A3) Hj3]. apply wp_ret.
  assert (G13 : grew n max w w3 (((l1 ++ f1) ++ l2) ++ (l3 ++ f3))) by (eapply grew_trans; eauto).
  set (bm := abb_blocks a ++ l1) in *. set (bh := abb_blocks h ++ l3) in *.
  assert (C3 : forall x, cnt w3 x = occ x (0 :: fx ++ (bm ++ f1) ++ (bd ++ fd) ++ (bh ++ f3))).
  { intros x. rewrite (gr_cnt _ _ _ _ _ G13), (rc_cnt _ _ _ _ _ _ _ _ _ _ _ _ HR). specialize (O2 x). unfold bm, bh. cbn [occ]. rewrite !occ_app in *. lia. }
  assert (H30 : 0 < cnt w3 0) by (rewrite C3; cbn [occ N.eqb]; lia).
  assert (One3 : forall x, cnt w3 x <= 1) by (eapply grew_one; [exact Hn|exact Hnr|exact Hv|exact G13|apply HR]).
  (* space map *)
  eapply wp_eq; [symmetry; apply (bind_assoc write_metadata_sm (fun sm => lift (pack_root sm SPACE_MAP_ROOT_SIZE)))|].
  apply wp_bind. eapply wp_mono; [apply (metadata_sm_done n Hn w3 (gr_env _ _ _ _ _ G3) Hj3 H30 Hn255)| |intros w' Hx; left; exact Hx].
  intros w4 packed (Q4 & Bp & Lp & sms & G4 & Hcounts). cbn beta.
  cbn [unwrap]. eapply wp_step; [reflexivity|]. eapply wp_step; [reflexivity|]. cbn [cr_discard in_run unwrap]. eapply wp_step; [reflexivity|].
  set (sb := mkcsb _ _ _ _ _ _ _ _ _ _ _ _ _ _ _ _ _ _ _ _ _ _ _).
  assert (Hsb : cache_sb_range sb).
  { unfold cache_sb_range, sb. cbn [cs_block cs_version cs_policy_name cs_policy_version cs_policy_hint_size cs_metadata_sm_root cs_mapping_root cs_dirty_root cs_hint_root
      cs_discard_root cs_discard_block_size cs_discard_nr_blocks cs_data_block_size cs_cache_blocks cs_compat_flags cs_compat_ro_flags cs_incompat_flags cs_read_hits cs_read_misses cs_write_hits cs_write_misses].
    conj; auto; try lia; try reflexivity.
    - repeat constructor.
    - destruct droot as [x|]; [destruct Hd as (E2 & Hx & _)|destruct Hd as (E1 & _)]; lia. }
  destruct (write_csb_spec sb w4 Hsb) as (w5 & E5 & Rsb & O5 & Q5); [apply (e_good _ _ _ (gr_env _ _ _ _ _ G4)); lia|].
  eapply wp_step; [exact E5|]. apply wp_ret.
  split; [exact Hord|]. split; [|split; [rewrite Q5; exact Q4|reflexivity]].
  set (D := wb_disk w5) in *.
  assert (D4 : forall x, x <> 0 -> D x = wb_view w4 x) by (intros x Hx; rewrite (O5 x Hx); apply (empty_disk n max); [apply G4|auto]).
  set (used := 0 :: fx ++ (bm ++ f1) ++ (bd ++ fd) ++ (bh ++ f3) ++ sms).
  assert (C4 : forall x, cnt w4 x = occ x used).
  { intros x. rewrite (gr_cnt _ _ _ _ _ G4), C3. unfold used. cbn [occ]. rewrite !occ_app. lia. }
  assert (One4 : forall x, cnt w4 x <= 1) by (eapply grew_one; [exact Hn|exact Hnr|exact Hv|exact G4|exact One3]).
  assert (HN : NoDup used) by (apply occ_NoDup; intros x; rewrite <- C4; apply One4).
  assert (Hz : forall x, In x (fx ++ (bm ++ f1) ++ (bd ++ fd) ++ (bh ++ f3) ++ sms) -> x <> 0) by (inversion HN; subst; intros x Hx ->; auto).
  (* each array is still there *)
  assert (U1 : forall b, In b (bm ++ f1) -> 0 < cnt w1 b).
  { intros b Hb. rewrite (gr_cnt _ _ _ _ _ G1), (rc_cnt _ _ _ _ _ _ _ _ _ _ _ _ HR). apply occ_in in Hb. unfold bm in Hb. cbn [occ]. rewrite !occ_app in *. lia. }
  assert (U2 : forall b, In b (bd ++ fd) -> 0 < cnt w2 b).
  { intros b Hb. rewrite (gr_cnt _ _ _ _ _ G12), (rc_cnt _ _ _ _ _ _ _ _ _ _ _ _ HR). apply occ_in in Hb. rewrite <- O2 in Hb. cbn [occ]. rewrite !occ_app in *. lia. }
  assert (U3 : forall b, In b (bh ++ f3) -> 0 < cnt w3 b).
  { intros b Hb. rewrite C3. apply occ_in in Hb. cbn [occ]. rewrite !occ_app in *. lia. }
  assert (GD : forall w0 l b, grew n max w0 w4 l -> 0 < cnt w0 b -> b <> 0 -> D b = wb_view w0 b).
  { intros w0 l b G Hp Hb. rewrite D4 by auto. apply (gr_frame _ _ _ _ _ G). auto. }
  assert (G34 : grew n max w2 w4 ((l3 ++ f3) ++ sms)) by (eapply grew_trans; eauto).
  assert (G24 : grew n max w1 w4 (l2 ++ (l3 ++ f3) ++ sms)) by (eapply grew_trans; eauto).
  assert (G04 : grew n max w w4 ((l1 ++ f1) ++ l2 ++ (l3 ++ f3) ++ sms)) by (eapply grew_trans; eauto).
  assert (move : forall V (c : codec V) w0 l root vs foot blocks, array_at c (wb_view w0) root vs foot blocks -> grew n max w0 w4 l ->
     (forall b, In b (blocks ++ foot) -> 0 < cnt w0 b) -> (forall b, In b (blocks ++ foot) -> b <> 0) -> array_at c D root vs foot blocks).
  { clear - GD. intros V c w0 l root vs foot blocks (depth & vss & A & B & C & E) G H Hb. exists depth, vss. conj; auto.
    - eapply tree_frame; [|exact A]. intros x Hx. eapply GD; [exact G|apply H|apply Hb]; apply in_or_app; auto.
    - eapply Forall2_impl_in; [|exact B]. intros b v Hi Hab. eapply array_block_ext; [|exact Hab]. eapply GD; [exact G|apply H|apply Hb]; apply in_or_app; auto. }
  assert (DM : array_at cm_codec D mroot (contents no_mapping nr (map (map_entry version) (cd_maps d))) f1 bm).
  { eapply move; [exact A1|exact G24|exact U1|]. intros b Hb. apply Hz. rewrite !in_app_iff in *. tauto. }
  assert (DH : array_at hint_codec D hroot (contents no_hint nr (map hint_entry (cd_hints d))) f3 bh).
  { apply hint_array. eapply move; [exact A3|exact G4|exact U3|]. intros b Hb. apply Hz. rewrite !in_app_iff in *. tauto. }
  assert (DX : array_at u64_codec D dr [] fx []).
  { eapply move; [apply HR|exact G04|eapply fx_used; [exact Hn|exact Hnr|exact Hv|exact HR]|]. intros b Hb. apply Hz. rewrite !in_app_iff in *. cbn [app In] in Hb. tauto. }
  assert (Hused : forall x, In x used -> x < n).
  { intros x Hx. unfold used in Hx. cbn [In] in Hx. rewrite !in_app_iff in Hx.
    pose proof (fun b => gr_free _ _ _ _ _ G1 b) as Y1. pose proof (fun b => gr_free _ _ _ _ _ G2 b) as Y2. pose proof (fun b => gr_free _ _ _ _ _ G3 b) as Y3. pose proof (fun b => gr_free _ _ _ _ _ G4 b) as Y4.
    pose proof (ai_used _ _ _ _ _ _ _ _ (rc_map _ _ _ _ _ _ _ _ _ _ _ _ HR) x) as Z1. pose proof (ai_used _ _ _ _ _ _ _ _ (rc_hint _ _ _ _ _ _ _ _ _ _ _ _ HR) x) as Z3.
    assert (Z2 : In x (dblocks ob) -> x < n).
    { pose proof (rc_dirty _ _ _ _ _ _ _ _ _ _ _ _ HR) as Hd0. destruct ob as [db|]; [|intros []]. destruct Hd0 as [_ (dkvs & A & _)]. intros Hi. apply (ai_used _ _ _ _ _ _ _ _ A). exact Hi. }
    assert (Z2' : In x bd \/ In x fd -> x < n).
    { intros Hi. rewrite <- in_app_iff in Hi. apply occ_in in Hi. rewrite <- O2 in Hi. destruct (N.eq_dec (occ x (dblocks ob)) 0) as [E|E].
      - apply Y2. apply occ_in. lia.
      - apply Z2. apply occ_in. lia. }
    unfold bm, bh in Hx. rewrite !in_app_iff in Hx. specialize (Y1 x). specialize (Y3 x). specialize (Y4 x). rewrite in_app_iff in Y1, Y3.
    destruct Hx as [Hx|[Hx|[[[Hx|Hx]|Hx]|[Hx|[[[Hx|Hx]|Hx]|Hx]]]]]; [lia|auto|apply Z1; auto|apply Y1; auto|apply Y1; auto|apply Z2'; tauto|apply Z3; auto|apply Y3; auto|apply Y3; auto|apply Y4; auto]. }
  assert (HNs : forall a1 a2 a3 : list N, NoDup (a1 ++ a2 ++ a3) -> NoDup a2).
  { intros a1 a2 a3 H. apply NoDup_app_iff_local in H as (_ & H & _). apply NoDup_app_iff_local in H. tauto. }
  assert (ND1 : NoDup (bm ++ f1)) by (apply (HNs (0 :: fx) (bm ++ f1) ((bd ++ fd) ++ (bh ++ f3) ++ sms)); exact HN).
  assert (ND2 : NoDup (bd ++ fd)) by (apply (HNs ((0 :: fx) ++ (bm ++ f1)) (bd ++ fd) ((bh ++ f3) ++ sms)); rewrite <- app_assoc; exact HN).
  assert (ND3 : NoDup (bh ++ f3)) by (apply (HNs ((0 :: fx) ++ (bm ++ f1) ++ (bd ++ fd)) (bh ++ f3) sms); unfold used in HN; cbn [app] in *; rewrite <- ?app_assoc in *; exact HN).
  exists sb, (contents no_mapping nr (map (map_entry version) (cd_maps d))), ws, (contents no_hint nr (map hint_entry (cd_hints d))).
  assert (Ecb : cs_cache_blocks sb = nr) by exact Hnd.
  conj.
  - exact Rsb.
  - exact Hsb.
  - repeat split.
  - reflexivity.
  - reflexivity.
  - reflexivity.
  - unfold cache_on. rewrite !contents_len, Ecb. conj; auto.
    + eapply readable_from; [exact DM|exact ND1|]. intros b Hb. apply Hused. unfold used. right. rewrite !in_app_iff in *. tauto.
    + eapply readable_from; [exact DH|exact ND3|]. intros b Hb. apply Hused. unfold used. right. rewrite !in_app_iff in *. tauto.
    + change (cs_version sb) with version. change (cs_dirty_root sb) with droot. destruct droot as [x|]; [right|left; tauto].
      destruct Hd as (E2 & Hx & Ha & Hl & _). split; auto. exists x. conj; auto.
      eapply readable_from; [|exact ND2|].
      * eapply move; [exact Ha|exact G34|exact U2|]. intros b Hb. apply Hz. rewrite !in_app_iff in *. tauto.
      * intros b Hb. apply Hused. unfold used. right. rewrite !in_app_iff in *. tauto.
  - rewrite Ecb. intros i Hi. unfold block_state. rewrite contents_nth by auto. unfold value_at, map_entry.
    rewrite (assoc_find cm_cblock (fun m => mkcm (cm_origin m) (if cm_isdirty m && (version =? 1) then N.lor 1 2 else 1))). unfold doc_state. change (cs_version sb) with version.
    destruct (find (fun m => cm_cblock m =? i) (cd_maps d)) as [m|] eqn:Ef; cbn [option_map].
    + cbn [cm_flags cm_oblock]. destruct (N.eqb_spec version 1) as [E1|E1].
      * rewrite andb_true_r. destruct (cm_isdirty m); reflexivity.
      * rewrite andb_false_r. change (N.testbit 1 0) with true. cbn iota. f_equal. f_equal.
        destruct droot as [x|]; [|lia]. destruct Hd as (_ & _ & _ & _ & Hb). rewrite Hb by auto. rewrite dirty_find, Ef by (apply increasing_NoDup, Hord). reflexivity.
    + reflexivity.
  - rewrite Ecb. intros i Hi. rewrite contents_nth by auto. unfold value_at, hint_entry. rewrite (assoc_find ch_cblock ch_data). unfold doc_hint.
    destruct (find _ (cd_hints d)); reflexivity.
  - exists f1, bm, fd, bd, f3, bh, fx, sms. change (cs_mapping_root sb) with mroot. change (cs_dirty_root sb) with droot. change (cs_hint_root sb) with hroot. change (cs_discard_root sb) with dr. conj; auto.
    + destruct droot as [x|]; [|tauto]. destruct Hd as (E2 & Hx & Ha & Hl & _). eapply move; [exact Ha|exact G34|exact U2|]. intros b Hb. apply Hz. rewrite !in_app_iff in *. tauto.
    + destruct (Hcounts D used D4 HN Hused C4) as [HC1 HC2]. conj; auto. unfold plain_contents. rewrite Ecb. change (cs_version sb) with version. conj; auto.
      * apply Forall_forall. intros m Hm. apply in_map_iff in Hm as (i & <- & _). unfold value_at, map_entry.
        rewrite (assoc_find cm_cblock (fun m => mkcm (cm_origin m) (if cm_isdirty m && (version =? 1) then N.lor 1 2 else 1))).
        destruct (find _ _) as [m|]; cbn [option_map]; [right; cbn [cm_flags]|left; reflexivity].
        destruct (N.eqb_spec version 1); [|rewrite andb_false_r; left; reflexivity]. destruct (cm_isdirty m); [right; auto|left; auto].
      * intros E2 i Hi. destruct droot as [x|]; [|lia]. destruct Hd as (_ & _ & _ & _ & Hb). rewrite Hb by auto. rewrite dirty_find by (apply increasing_NoDup, Hord).
        unfold doc_state. destruct (find _ _); reflexivity.
Qed.
End Fin.
