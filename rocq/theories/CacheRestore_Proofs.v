(** cache_restore: the arrays under construction. *)
From Verif Require Import Base Csum_Model Codec_Model Codec_Spec Codec_Proofs SbCodec_Proofs SpaceMap_Model SpaceMap_Spec SpaceMap_Proofs Batcher_Model Batcher_Proofs IoMany_Proofs
  Builder_Model Builder_Spec Builder_Proofs Utils_Proofs BtreeBuild_Proofs Session_Spec ThinOut_Model Walker_Model Array_Model Array_Spec Array_Proofs SmWrite_Model
  SmWrite_Spec SmMetaTop_Proofs Restore_Model RestoreSafe_Proofs Props_SmWrite ContigSafe_Proofs RestoreRun_Proofs RestoreDoc_Proofs Utils_Model Era_Spec CacheIo_Model CacheIo_Spec.
From Verif Require Pack_Proofs.

(** ** Hints: the reader panics on short input; what it returns is what a careful reader returns *)
Definition hint2 : codec (list N) := mkcodec 4 (fun h => h) (fun i => if Nat.ltb (length i) 4 then Err else Ok (firstn 4 i, skipn 4 i)).
Definition hint_range (h : list N) : Prop := length h = 4%nat /\ bytes h.
Lemma hint2_lossless : lossless hint2 hint_range.
Proof.
  constructor; cbn [hint2 csize cpack cunpack].
  - intros v [H1 H2]. auto.
  - intros v rest [H1 H2]. destruct (Nat.ltb_spec (length (v ++ rest)) 4) as [H|H]; [rewrite app_length in H; lia|].
    rewrite firstn_app, skipn_app, H1, Nat.sub_diag. rewrite (firstn_all2 v), (skipn_all2 v) by lia. cbn [firstn skipn app]. rewrite app_nil_r. reflexivity.
  - intros a Hb Hl. exists a. split; [split|]; auto.
  - intros a Hl. destruct (Nat.ltb_spec (length a) 4); [auto|lia].
Qed.
Lemma hint_count n : forall i x, p_count hint_unpack n i = Ok x <-> p_count (cunpack hint2) n i = Ok x.
Proof.
  induction n as [|n IH]; intros i x; cbn [p_count]; [tauto|]. cbn [hint2 cunpack]. unfold hint_unpack at 1.
  destruct (Nat.ltb (length i) 4); [split; discriminate|]. cbn [bind].
  specialize (IH (skipn 4 i)). cbn [hint2 cunpack] in IH.
  destruct (p_count hint_unpack n (skipn 4 i)) as [a| |]; destruct (p_count (fun i0 => if Nat.ltb (length i0) 4 then Err else Ok (firstn 4 i0, skipn 4 i0)) n (skipn 4 i)) as [b| |];
    cbn [bind]; try tauto; try (split; discriminate).
  - assert (E : a = b) by (specialize (IH a); destruct IH as [H _]; specialize (H eq_refl); injection H as ->; auto). subst. tauto.
  - specialize (IH a). destruct IH as [H _]. specialize (H eq_refl). discriminate.
  - specialize (IH a). destruct IH as [H _]. specialize (H eq_refl). discriminate.
  - specialize (IH b). destruct IH as [_ H]. specialize (H eq_refl). discriminate.
  - specialize (IH b). destruct IH as [_ H]. specialize (H eq_refl). discriminate.
Qed.
Lemma hint_block data a : unpack_array_block hint_codec data = Ok a <-> unpack_array_block hint2 data = Ok a.
Proof.
  unfold unpack_array_block. destruct (ah_unpack data) as [[h i]| |]; cbn [bind]; [|split; discriminate|split; discriminate].
  change (csize hint2) with (csize hint_codec). destruct (negb _); [tauto|]. destruct (4096 <? _); [tauto|]. destruct (ah_max h <? ah_nr h); [tauto|].
  change (cunpack hint_codec) with hint_unpack. pose proof (hint_count (N.to_nat (ah_nr h)) i) as H.
  destruct (p_count hint_unpack (N.to_nat (ah_nr h)) i) as [x| |]; destruct (p_count (cunpack hint2) (N.to_nat (ah_nr h)) i) as [y| |]; cbn [bind];
    try (split; discriminate); try tauto.
  - specialize (H x). destruct H as [H _]. specialize (H eq_refl). injection H as ->. tauto.
  - specialize (H x). destruct H as [H _]. specialize (H eq_refl). discriminate.
  - specialize (H x). destruct H as [H _]. specialize (H eq_refl). discriminate.
  - specialize (H y). destruct H as [_ H]. specialize (H eq_refl). discriminate.
  - specialize (H y). destruct H as [_ H]. specialize (H eq_refl). discriminate.
Qed.
Lemma hint_array d root vs foot blocks : array_at hint_codec d root vs foot blocks <-> array_at hint2 d root vs foot blocks.
Proof.
  assert (H : forall b v, array_block_at hint_codec d b v <-> array_block_at hint2 d b v).
  { intros b v. unfold array_block_at. rewrite hint_block. reflexivity. }
  split; intros (depth & vss & A & B & C & E); exists depth, vss; conj; auto; (eapply Forall2_impl_in; [|exact B]); intros b v _; apply H.
Qed.

(** ** The batcher keeps taking blocks in order *)
Section Safe.
Variables n max : N.
Hypothesis Hn : n < 2 ^ 64.
Context {V : Type} (c : codec V) (dflt : V).
Notation J := (J n max []).
Lemma j_write_array_block vs : safe J (write_array_block c vs) any.
Proof using Hn.
  unfold write_array_block. eapply safe_bind with (Q := any); [apply j_alloc; auto|intros b _].
  eapply safe_bind with (Q := any); [apply j_lift|intros data _]. eapply safe_bind with (Q := any); [apply j_write|intros _ _]. apply j_ret.
Qed.
Lemma j_emit_blocks k : forall a, safe J (emit_blocks c dflt k a) any.
Proof using Hn.
  induction k as [|k IH]; intros a; cbn [emit_blocks]; [apply j_ret|]. eapply safe_bind with (Q := any); [|intros; apply IH].
  unfold emit_block. eapply safe_bind with (Q := any); [apply j_write_array_block|intros; apply j_ret].
Qed.
Lemma j_push i v a : safe J (abb_push c dflt i v a) any.
Proof using Hn.
  unfold abb_push. apply safe_if; [apply j_fail|]. eapply safe_bind with (Q := any); [apply j_emit_blocks|intros a' _]. apply safe_if; [apply j_fail|apply j_ret].
Qed.
Lemma j_ab_complete a : safe J (ab_complete c dflt a) any.
Proof using Hn.
  unfold ab_complete, abb_complete. eapply safe_bind with (Q := any).
  - eapply safe_bind with (Q := any); [apply j_emit_blocks|intros; apply j_ret].
  - intros bs _. eapply safe_bind with (Q := any); [apply j_btree_build; auto; apply values_in; eauto|intros; apply j_ret].
Qed.
End Safe.

(** ** The restorer between two calls *)
Definition map_entry (version : N) (m : cir_map) : N * cmapping :=
  (cm_cblock m, mkcm (cm_origin m) (if cm_isdirty m && (version =? 1) then N.lor 1 2 else 1)).
Definition hint_entry (h : cir_hint) : N * list N := (ch_cblock h, ch_data h).
Definition dblocks (o : option (abuilder N)) : list N := match o with Some b => abb_blocks b | None => [] end.
Definition word_ok (w : N) : Prop := w < 2 ^ 64.

Record bits_ok (dkvs : list (N * N)) (bits : N * N) (ms : list cir_map) : Prop := {
  bo_word : word_ok (snd bits);
  bo_above : Forall (fun kv => fst kv < fst bits) dkvs;
  bo_from : fst bits = 0 \/ exists m, In m ms /\ cm_cblock m / 64 = fst bits;
  bo_bits : forall x, N.testbit (value_at 0 (dkvs ++ [bits]) (x / 64)) (x mod 64) = existsb (fun m => cm_isdirty m && (cm_cblock m =? x)) ms }.

Lemma bits_same dkvs bits ms m : bits_ok dkvs bits ms -> cm_isdirty m = false -> bits_ok dkvs bits (ms ++ [m]).
Proof.
  intros [A B C D] Hd. constructor; auto.
  - destruct C as [C|(m' & Hm & C)]; [left; auto|right; exists m'; split; auto; apply in_or_app; auto].
  - intros x. rewrite D, existsb_app. cbn [existsb]. rewrite Hd. cbn [andb]. rewrite orb_false_r. reflexivity.
Qed.
Lemma u64_size : (0 < csize u64_codec <= 4072)%nat. Proof. cbn. lia. Qed.
Lemma value_new dkvs bi bv i : Forall (fun kv => fst kv < bi) dkvs -> value_at 0 (dkvs ++ [(bi, bv)]) i = if i =? bi then bv else value_at 0 dkvs i.
Proof.
  intros H. destruct (N.eqb_spec i bi) as [E|E].
  - subst i. apply (value_at_snoc_eq 0 eq_refl u64_codec 0 u64_size dkvs bi bv bi H). lia.
  - apply (value_at_snoc_lt 0 eq_refl u64_codec 0 u64_size). auto.
Qed.
Lemma mask_range c : word_ok (N.shiftl 1 (N.land c 63)).
Proof. unfold word_ok. change 63 with (N.ones 6). rewrite N.land_ones, N.shiftl_1_l. apply N.pow_lt_mono_r; [lia|]. apply N.mod_lt. discriminate. Qed.
Lemma mask_bit c j : N.testbit (N.shiftl 1 (N.land c 63)) j = (c mod 64 =? j).
Proof. change 63 with (N.ones 6). rewrite N.land_ones, N.shiftl_1_l, N.pow2_bits_eqb. reflexivity. Qed.
Lemma lor_range a b : word_ok a -> word_ok b -> word_ok (N.lor a b).
Proof.
  unfold word_ok. intros Ha Hb. destruct (N.eq_dec (N.lor a b) 0) as [->|Hz]; [reflexivity|].
  apply N.log2_lt_pow2; [lia|]. rewrite N.log2_lor.
  destruct (N.eq_dec a 0) as [->|Na]; destruct (N.eq_dec b 0) as [->|Nb]; cbn [N.log2]; try reflexivity; try (apply N.max_lub_lt; auto; try reflexivity; apply N.log2_lt_pow2; lia).
Qed.
Lemma split64 c x : (c =? x) = ((x / 64 =? c / 64) && (c mod 64 =? x mod 64)).
Proof.
  destruct (N.eqb_spec c x) as [E|E]; [subst; rewrite !N.eqb_refl; auto|].
  destruct (N.eqb_spec (x / 64) (c / 64)) as [E1|E1]; cbn [andb]; auto. destruct (N.eqb_spec (c mod 64) (x mod 64)); auto. exfalso. apply E. dlia.
Qed.
(** A dirty block in the buffered word. *)
Lemma bits_in dkvs bits ms m : bits_ok dkvs bits ms -> cm_isdirty m = true -> cm_cblock m / 64 = fst bits ->
  bits_ok dkvs (fst bits, N.lor (snd bits) (N.shiftl 1 (N.land (cm_cblock m) 63))) (ms ++ [m]).
Proof.
  destruct bits as [bi bv]. cbn [fst snd]. intros [A B C D] Hd Hi. cbn [fst snd] in *. constructor; cbn [fst snd]; auto.
  - apply lor_range; auto. apply mask_range.
  - right. exists m. split; auto. apply in_or_app. right. left. auto.
  - intros x. rewrite existsb_app, <- D. cbn [existsb]. rewrite Hd, orb_false_r. cbn [andb]. rewrite !value_new by auto.
    rewrite (split64 (cm_cblock m) x), Hi. destruct (x / 64 =? bi); cbn [andb]; [|rewrite orb_false_r; auto]. rewrite N.lor_spec, mask_bit. reflexivity.
Qed.
(** A dirty block in a later word. *)
Lemma bits_next dkvs bits ms m : bits_ok dkvs bits ms -> cm_isdirty m = true -> fst bits < cm_cblock m / 64 ->
  bits_ok (dkvs ++ [bits]) (cm_cblock m / 64, N.shiftl 1 (N.land (cm_cblock m) 63)) (ms ++ [m]).
Proof.
  destruct bits as [bi bv]. cbn [fst snd]. intros [A B C D] Hd Hi. cbn [fst snd] in *.
  assert (HF : Forall (fun kv : N * N => fst kv < cm_cblock m / 64) (dkvs ++ [(bi, bv)])).
  { apply Forall_app. split; [|repeat constructor; cbn; auto]. eapply Forall_impl; [|exact B]. cbn. intros. lia. }
  constructor; cbn [fst snd]; auto.
  - apply mask_range.
  - right. exists m. split; auto. apply in_or_app. right. left. auto.
  - intros x. rewrite existsb_app, <- D. cbn [existsb]. rewrite Hd, orb_false_r. cbn [andb]. rewrite (value_new (dkvs ++ _)) by auto.
    rewrite (split64 (cm_cblock m) x). destruct (N.eqb_spec (x / 64) (cm_cblock m / 64)) as [E|E]; cbn [andb]; [|rewrite orb_false_r; auto].
    rewrite mask_bit. rewrite (value_at_beyond 0 eq_refl u64_codec 0 u64_size (dkvs ++ [(bi, bv)]) (x / 64) (cm_cblock m / 64)) by (auto; lia). reflexivity.
Qed.

Lemma at_end_le {V} (c : codec V) a (kvs : list (N * V)) k rest : at_end c a kvs -> increasing (map fst kvs ++ k :: rest) -> pos c a <= k.
Proof.
  intros H Hi. rewrite H. destruct kvs as [|x l] using rev_ind; cbn [rev]; [lia|]. rewrite rev_app_distr. cbn [rev app]. destruct x as [k' v].
  apply increasing_app in Hi. destruct Hi as [_ [_ Hi]]. assert (k' < k); [|lia]. apply Hi; [|left; auto]. rewrite map_app. apply in_or_app. right. left. auto.
Qed.

Section Run.
Variables n version nr : N.
Let max := W32 - 1.
Hypothesis Hn : n < 2 ^ 64.
Hypothesis Hnr : nr < 2 ^ 32.
Hypothesis Hv : version = 1 \/ version = 2.
Variables (sb : cir_sb) (dr : N) (fx : list N) (clean : bool).

Notation MInv := (AInv n cm_codec cm_range no_mapping nr).
Notation HInv := (AInv n hint2 hint_range no_hint nr).
Notation DInv := (AInv n u64_codec word_ok 0 (div_up nr 64)).

Record RC (w : wb) (a : abuilder cmapping) (ob : option (abuilder N)) (h : abuilder (list N)) (bits : N * N) (ms : list cir_map) (hs : list cir_hint) : Prop := {
  rc_env : env n max w;
  rc_j : J n max [] w;
  rc_map : MInv w a (map (map_entry version) ms);
  rc_mend : at_end cm_codec a (map (map_entry version) ms);
  rc_hint : HInv w h (map hint_entry hs);
  rc_hend : at_end hint2 h (map hint_entry hs);
  rc_dirty : match ob with
             | None => version = 1
             | Some db => version = 2 /\ exists dkvs, DInv w db dkvs /\ at_end u64_codec db dkvs /\ bits_ok dkvs bits ms
             end;
  rc_disc : array_at u64_codec (wb_view w) dr [] fx [];
  rc_cnt : forall x, cnt w x = occ x (0 :: fx ++ abb_blocks a ++ dblocks ob ++ abb_blocks h);
  rc_one : forall x, cnt w x <= 1 }.

Lemma grew_one w w' l : grew n max w w' l -> (forall x, cnt w x <= 1) -> forall x, cnt w' x <= 1.
Proof using Hn Hnr Hv.
  intros G H x. rewrite (gr_cnt _ _ _ _ _ G). pose proof (nodup_occ _ (gr_nodup _ _ _ _ _ G) x).
  destruct (N.eq_dec (occ x l) 0) as [->|Hx]; [rewrite N.add_0_r; auto|]. assert (Hi : In x l) by (apply occ_in; lia). destruct (gr_free _ _ _ _ _ G x Hi). lia.
Qed.
Lemma array_grew {V} (c : codec V) w w' l root vs foot blocks : array_at c (wb_view w) root vs foot blocks -> grew n max w w' l ->
  (forall b, In b (blocks ++ foot) -> 0 < cnt w b) -> array_at c (wb_view w') root vs foot blocks.
Proof using Hn Hnr Hv.
  intros (depth & vss & A & B & C & D) G H. exists depth, vss. conj; auto.
  - eapply tree_frame; [|exact A]. intros x Hx. apply (gr_frame _ _ _ _ _ G). apply H. apply in_or_app. auto.
  - eapply Forall2_impl_in; [|exact B]. intros b v Hb Hab. eapply array_block_ext; [|exact Hab]. apply (gr_frame _ _ _ _ _ G). apply H. apply in_or_app. auto.
Qed.
Lemma occ_mid x (a b c : list N) : occ x (a ++ b ++ c) = occ x a + occ x b + occ x c. Proof using Hn Hnr Hv. rewrite !occ_app. lia. Qed.

Definition in_run (w : wb) a ob h bits sec : crest := mkcr (Some sb) (Some a) ob (Some h) (Some dr) bits sec.

Lemma fx_used w a ob h bits ms hs : RC w a ob h bits ms hs -> forall b, In b ([] ++ fx) -> 0 < cnt w b.
Proof using Hn Hnr Hv. intros H b Hb. rewrite (rc_cnt _ _ _ _ _ _ _ H). cbn [occ]. rewrite occ_app. apply occ_in in Hb. cbn [app] in Hb. lia. Qed.

Lemma cm_size : (0 < csize cm_codec <= 4072)%nat. Proof using Hn Hnr Hv. cbn. lia. Qed.
Lemma hint_size : (0 < csize hint2 <= 4072)%nat. Proof using Hn Hnr Hv. cbn. lia. Qed.
Lemma no_mapping_range : cm_range no_mapping. Proof using Hn Hnr Hv. split; reflexivity. Qed.
Lemma no_hint_range : hint_range no_hint. Proof using Hn Hnr Hv. split; [reflexivity|]. repeat constructor. Qed.

(** One mapping. *)
Lemma mapping_wp m w a ob h bits ms hs sec : RC w a ob h bits ms hs -> cm_origin m < 2 ^ 48 ->
  wp (cache_mapping version m (in_run w a ob h bits sec)) w
     (fun w' r' => exists a' ob' bits', r' = in_run w' a' ob' h bits' sec /\ RC w' a' ob' h bits' (ms ++ [m]) hs)
     (fun w' => exhausted n max w' \/ nr <= cm_cblock m \/ ~ increasing (map cm_cblock (ms ++ [m]))).
Proof using Hn Hv Hnr.
  intros HR Hm. unfold cache_mapping. apply wp_bind.
  (* the dirty bit *)
  eapply wp_mono with (Q := fun w' r' => exists ob' bits' l, r' = in_run w' a ob' h bits' sec /\ J n max [] w' /\ grew n max w w' l /\ dblocks ob' = dblocks ob ++ l /\
      match ob' with None => version = 1 | Some db => version = 2 /\ exists dkvs, DInv w' db dkvs /\ at_end u64_codec db dkvs /\
        ((forall m', In m' ms -> cm_cblock m' < cm_cblock m) -> bits_ok dkvs bits' (ms ++ [m])) end)
    (E := fun w' => exhausted n max w' \/ nr <= cm_cblock m \/ ~ increasing (map cm_cblock (ms ++ [m]))); [| |auto].
  { pose proof (rc_env _ _ _ _ _ _ _ HR) as He. pose proof (rc_j _ _ _ _ _ _ _ HR) as Hj. pose proof (rc_dirty _ _ _ _ _ _ _ HR) as Hd.
    destruct (cm_isdirty m && negb (version =? 1)) eqn:Ed.
    2:{ apply wp_ret. exists ob, bits, []. conj; auto; [apply grew_refl; auto|rewrite app_nil_r; auto|].
        destruct ob as [db|]; auto. destruct Hd as [E2 (dkvs & A & B & C)]. split; auto. exists dkvs. conj; auto. intros _. apply bits_same; auto.
        rewrite E2 in Ed. cbn in Ed. rewrite andb_true_r in Ed. auto. }
    apply andb_prop in Ed as [Ed Ev]. assert (E2 : version = 2) by (destruct Hv as [E|]; [rewrite E in Ev; discriminate|auto]).
    destruct ob as [db|]; [|lia]. destruct Hd as [_ (dkvs & A & B & C)]. unfold set_dirty. cbn [cr_bits in_run].
    rewrite N.shiftr_div_pow2. change (2 ^ 6) with 64. destruct (N.eqb_spec (cm_cblock m / 64) (fst bits)) as [E|E].
    - apply wp_ret. eexists (Some db), _, []. split; [reflexivity|]. conj; auto; [apply grew_refl; auto|rewrite app_nil_r; auto|].
      exists dkvs. conj; auto. intros _. apply bits_in; auto.
    - cbn [cr_dirty in_run unwrap]. eapply wp_step; [reflexivity|]. apply wp_bind.
      assert (Hpos : pos u64_codec db <= fst bits).
      { rewrite B. pose proof (bo_above _ _ _ C) as HF. destruct dkvs as [|x l] using rev_ind; cbn [rev]; [lia|]. rewrite rev_app_distr. cbn [rev app]. destruct x as [k' v].
        apply Forall_app in HF as [_ HF]. inversion HF; subst. cbn [fst] in *. lia. }
      eapply wp_mono; [eapply wp_safe; [|apply j_push; exact Hn|exact Hj]| |].
      + apply (push_wp n max Hn u64_codec word_ok 0 u64_lossless u64_size eq_refl (div_up nr 64) w db dkvs); [exact A|exact He|apply (bo_word _ _ _ C)|exact B].
      + intros w' db' [(l & G & A' & B' & P') Hj']. apply wp_ret. eexists (Some db'), _, l. split; [reflexivity|]. conj; auto.
        exists (dkvs ++ [bits]). destruct bits as [bi bv]. cbn [fst snd] in *. conj.
        * exact A'.
        * unfold at_end. rewrite rev_app_distr. cbn [rev app]. exact P'.
        * intros Hlt. apply bits_next; auto. cbn [fst]. destruct (bo_from _ _ _ C) as [E0|(m' & Hm' & E0)]; cbn [fst] in *; [lia|].
          specialize (Hlt m' Hm'). assert (cm_cblock m' / 64 <= cm_cblock m / 64) by (apply N.div_le_mono; lia). lia.
      + intros w' [Hf|[Hk|Hk]]; [left; left; exact Hf| |lia]. right; left.
        destruct (bo_from _ _ _ C) as [E0|(m' & Hm' & E0)].
        * assert (~ 0 < div_up nr 64) as Hz by lia. rewrite lt_div_up in Hz by lia. lia.
        * exfalso. assert (Hi : In (map_entry version m') (map (map_entry version) ms)) by (apply in_map; auto).
          pose proof (proj2 (ai_keys _ _ _ _ _ _ _ _ (rc_map _ _ _ _ _ _ _ HR))) as HF. rewrite Forall_forall in HF. destruct (HF _ Hi) as (_ & Hlt & _). cbn [fst map_entry] in Hlt.
          assert (~ fst bits < div_up nr 64) as Hz by lia. rewrite lt_div_up in Hz by lia. rewrite <- E0 in Hz. dlia. }
  (* the mapping *)
  intros w1 r1 (ob' & bits' & l & -> & Hj1 & G1 & Ebl & Hd1). cbn [cr_map in_run unwrap]. eapply wp_step; [reflexivity|]. apply wp_bind.
  assert (A1 : MInv w1 a (map (map_entry version) ms)) by (eapply AInv_stable; [apply HR|exact G1]).
  eapply wp_mono; [eapply wp_safe; [|apply j_push; exact Hn|exact Hj1]| |].
  - apply (push_wp n max Hn cm_codec cm_range no_mapping cm_lossless cm_size no_mapping_range nr w1 a (map (map_entry version) ms)); [exact A1|apply G1| |apply HR].
    split; [exact Hm|]. cbn [cm_flags]. destruct (_ && _); reflexivity.
  - intros w2 a' [(l2 & G2 & A2 & B2 & P2) Hj2]. apply wp_ret. exists a', ob', bits'. split; [reflexivity|].
    assert (G12 : grew n max w w2 (l ++ l2)) by (eapply grew_trans; eauto).
    change [(cm_cblock m, mkcm (cm_origin m) (if cm_isdirty m && (version =? 1) then N.lor 1 2 else 1))] with (map (map_entry version) [m]) in A2. rewrite <- map_app in A2.
    constructor.
    + apply G2.
    + exact Hj2.
    + exact A2.
    + unfold at_end. rewrite map_app, rev_app_distr. cbn [map rev app map_entry]. exact P2.
    + eapply AInv_stable; [apply HR|exact G12].
    + apply HR.
    + destruct ob' as [db|]; auto. destruct Hd1 as [E2 (dkvs & A & B & C)]. split; auto. exists dkvs. conj; auto; [eapply AInv_stable; [exact A|exact G2]|].
      apply C. intros m' Hm'. pose proof (proj1 (ai_keys _ _ _ _ _ _ _ _ A2)) as Hi. rewrite map_app, map_app in Hi. apply increasing_app in Hi as (_ & _ & Hi).
      apply Hi; [|left; reflexivity]. rewrite map_map. apply in_map_iff. exists m'. auto.
    + eapply array_grew; [apply HR|exact G12|]. apply (fx_used _ _ _ _ _ _ _ HR).
    + intros x. rewrite (gr_cnt _ _ _ _ _ G12), (rc_cnt _ _ _ _ _ _ _ HR), Ebl, B2. cbn [occ]. rewrite !occ_app. lia.
    + eapply grew_one; [exact G12|apply HR].
  - intros w2 [Hf|[Hk|Hk]]; [left; left; exact Hf|right; left; exact Hk|]. right; right. intros Hi.
    rewrite map_app in Hi. assert (HL : pos cm_codec a <= cm_cblock m); [|lia].
    eapply (at_end_le cm_codec a (map (map_entry version) ms) (cm_cblock m) []); [apply HR|]. rewrite map_map. exact Hi.
Qed.

(** One hint. *)
Lemma hint_wp h0 w a ob h bits ms hs sec : RC w a ob h bits ms hs -> hint_range (ch_data h0) ->
  wp (cache_hint h0 (in_run w a ob h bits sec)) w
     (fun w' r' => exists h', r' = in_run w' a ob h' bits sec /\ RC w' a ob h' bits ms (hs ++ [h0]))
     (fun w' => exhausted n max w' \/ nr <= ch_cblock h0 \/ ~ increasing (map ch_cblock (hs ++ [h0]))).
Proof using Hn Hv Hnr.
  intros HR Hh. unfold cache_hint. rewrite (proj1 Hh). cbn [Nat.eqb unwrap]. eapply wp_step; [reflexivity|]. cbn [cr_hint in_run]. eapply wp_step; [reflexivity|]. apply wp_bind.
  change (abb_push hint_codec) with (abb_push hint2).
  eapply wp_mono; [eapply wp_safe; [|apply j_push; exact Hn|apply HR]| |].
  - apply (push_wp n max Hn hint2 hint_range no_hint hint2_lossless hint_size no_hint_range nr w h (map hint_entry hs)); [apply HR|apply HR|exact Hh|apply HR].
  - intros w2 h' [(l2 & G2 & A2 & B2 & P2) Hj2]. apply wp_ret. exists h'. split; [reflexivity|].
    change [(ch_cblock h0, ch_data h0)] with (map hint_entry [h0]) in A2. rewrite <- map_app in A2.
    constructor.
    + apply G2.
    + exact Hj2.
    + eapply AInv_stable; [apply HR|exact G2].
    + apply HR.
    + exact A2.
    + unfold at_end. rewrite map_app, rev_app_distr. cbn [map rev app hint_entry]. exact P2.
    + pose proof (rc_dirty _ _ _ _ _ _ _ HR) as Hd. destruct ob as [db|]; auto. destruct Hd as [E2 (dkvs & A & B & C)]. split; auto. exists dkvs. conj; auto. eapply AInv_stable; [exact A|exact G2].
    + eapply array_grew; [apply HR|exact G2|]. apply (fx_used _ _ _ _ _ _ _ HR).
    + intros x. rewrite (gr_cnt _ _ _ _ _ G2), (rc_cnt _ _ _ _ _ _ _ HR), B2. cbn [occ]. rewrite !occ_app. lia.
    + eapply grew_one; [exact G2|apply HR].
  - intros w2 [Hf|[Hk|Hk]]; [left; left; exact Hf|right; left; exact Hk|]. right; right. intros Hi.
    rewrite map_app in Hi. assert (HL : pos hint2 h <= ch_cblock h0); [|lia].
    eapply (at_end_le hint2 h (map hint_entry hs) (ch_cblock h0) []); [apply HR|]. rewrite map_map. exact Hi.
Qed.

(** The mappings of a document, and its hints. *)
Lemma maps_wp d (Q : wb -> crest -> Prop) (E : wb -> Prop) : ci_nr_cache_blocks (cd_sb d) = nr -> Forall (fun m => cm_origin m < 2 ^ 48) (cd_maps d) ->
  (forall w, exhausted n max w \/ ~ doc_in_order d -> E w) -> forall rest ms' w a ob h bits ms hs sec, cd_maps d = ms ++ ms' ->
  RC w a ob h bits ms hs ->
  (forall w' a' ob' bits', RC w' a' ob' h bits' (cd_maps d) hs -> wp (cvisits version clean rest (in_run w' a' ob' h bits' sec)) w' Q E) ->
  wp (cvisits version clean (map CMap ms' ++ rest) (in_run w a ob h bits sec)) w Q E.
Proof using Hn Hv Hnr.
  intros Hnd Ho HE rest. induction ms' as [|m ms' IH]; intros w a ob h bits ms hs sec Ed HR HK; cbn [map app cvisits].
  - apply HK. rewrite Ed, app_nil_r. exact HR.
  - apply wp_bind. cbn [cvisit]. eapply wp_mono; [apply (mapping_wp m w a ob h bits ms hs sec HR)| |].
    + rewrite Ed in Ho. apply Forall_app in Ho as [_ Ho]. inversion Ho; auto.
    + intros w' r' (a' & ob' & bits' & -> & HR'). eapply IH; [|exact HR'|exact HK]. rewrite Ed, <- app_assoc. reflexivity.
    + intros w' [Hx|Hx]; apply HE; [left; exact Hx|right]. intros [[Hi Hf] _]. rewrite Ed in Hi, Hf. destruct Hx as [Hx|Hx].
      * rewrite map_app in Hf. apply Forall_app in Hf as [_ Hf]. inversion Hf; subst. lia.
      * apply Hx. change (m :: ms') with ([m] ++ ms') in Hi. rewrite app_assoc, map_app in Hi. apply increasing_app in Hi. tauto.
Qed.
Lemma hints_wp d (Q : wb -> crest -> Prop) (E : wb -> Prop) : ci_nr_cache_blocks (cd_sb d) = nr -> Forall (fun h => hint_range (ch_data h)) (cd_hints d) ->
  (forall w, exhausted n max w \/ ~ doc_in_order d -> E w) -> forall rest hs' w a ob h bits ms hs sec, cd_hints d = hs ++ hs' ->
  RC w a ob h bits ms hs ->
  (forall w' h', RC w' a ob h' bits ms (cd_hints d) -> wp (cvisits version clean rest (in_run w' a ob h' bits sec)) w' Q E) ->
  wp (cvisits version clean (map CHint hs' ++ rest) (in_run w a ob h bits sec)) w Q E.
Proof using Hn Hv Hnr.
  intros Hnd Ho HE rest. induction hs' as [|m hs' IH]; intros w a ob h bits ms hs sec Ed HR HK; cbn [map app cvisits].
  - apply HK. rewrite Ed, app_nil_r. exact HR.
  - apply wp_bind. cbn [cvisit]. eapply wp_mono; [apply (hint_wp m w a ob h bits ms hs sec HR)| |].
    + rewrite Ed in Ho. apply Forall_app in Ho as [_ Ho]. inversion Ho; auto.
    + intros w' r' (h' & -> & HR'). eapply IH; [|exact HR'|exact HK]. rewrite Ed, <- app_assoc. reflexivity.
    + intros w' [Hx|Hx]; apply HE; [left; exact Hx|right]. intros [_ [Hi Hf]]. rewrite Ed in Hi, Hf. destruct Hx as [Hx|Hx].
      * rewrite map_app in Hf. apply Forall_app in Hf as [_ Hf]. inversion Hf; subst. lia.
      * apply Hx. change (m :: hs') with ([m] ++ hs') in Hi. rewrite app_assoc, map_app in Hi. apply increasing_app in Hi. tauto.
Qed.
End Run.
