(** era_restore writes what the document says. *)
From Coq Require Import Permutation.
From Verif Require Import Base Csum_Model Codec_Model Codec_Spec Codec_Proofs SbCodec_Proofs SpaceMap_Model SpaceMap_Spec SpaceMap_Proofs Batcher_Model Batcher_Proofs IoMany_Proofs
  Builder_Model Builder_Spec Builder_Proofs Utils_Proofs BtreeBuild_Proofs Session_Spec ThinOut_Model Walker_Model Array_Model Array_Spec Array_Proofs SmWrite_Model
  SmWrite_Spec SmWrite_Proofs SmMetaTop_Proofs Restore_Model RestoreSafe_Proofs Props_SmWrite ContigSafe_Proofs RestoreRun_Proofs RestoreDoc_Proofs RestoreFin_Proofs Utils_Model Era_Model Era_Spec
  CacheIo_Spec CacheRestore_Proofs CacheRestoreFin_Proofs EraRestore_Proofs EraIo_Model EraIo_Spec.
From Verif Require Pack_Proofs.

(** ** One writeset is one array *)
Lemma evisits_app a : forall b r w, evisits (a ++ b) r w = (r' <~ evisits a r ;; evisits b r') w.
Proof. induction a as [|e a IH]; intros b r w; [reflexivity|]. cbn [app evisits]. unfold bindst at 1 2 3. destruct (evisit e r w) as [w1 [r1| |]]; auto. apply IH. Qed.
Lemma blocks_all sb T eras c : forall rs s w, evisits (map (fun r => EBlocks (fst r) (snd r)) rs) (mker sb T (Some (c, s)) eras ESWriteset) w =
  (s' <~ writeset_all rs s ;; ret (mker sb T (Some (c, s')) eras ESWriteset)) w.
Proof.
  induction rs as [|[b l] rs IH]; intros s w; [reflexivity|]. cbn [map evisits evisit writeset_all fst snd]. unfold era_blocks, eunwrap, bindst, lift. cbn [er_cur snd fst].
  destruct (writeset_blocks (b, l) s w) as [w1 [s1| |]]; auto. cbn [ret er_sb er_sets er_eras er_sec]. rewrite IH. reflexivity.
Qed.
Lemma set_is_array s rest sb T eras w : evisits (eset_events s ++ rest) (mker sb T None eras ESSuperblock) w =
  (root <~ restore_writeset (ew_bits s) (ew_marked s) ;; evisits rest (mker sb (bmap_insert (ew_era s) (mkws (ew_bits s) root) T) None eras ESSuperblock)) w.
Proof.
  rewrite evisits_app. unfold eset_events. cbn [evisits evisit]. unfold in_esec. cbn [er_sec esec_eqb]. unfold bindst at 1 2. cbn [ret]. cbn [er_sb er_sets er_eras].
  rewrite evisits_app. unfold bindst at 1. rewrite blocks_all. unfold restore_writeset, bindst. destruct (writeset_all (ew_marked s) (writeset_b (ew_bits s)) w) as [w1 [s1| |]]; auto.
  cbn [ret evisits evisit]. unfold era_writeset_e, in_esec, bindst. cbn [er_sec esec_eqb er_cur]. destruct (writeset_e s1 w1) as [w2 [root| |]]; auto.
Qed.

(** ** The restorer between two sections *)
(** What is known of a writeset: root and size, words, the blocks of the array. *)
Definition wrec : Type := writeset * list N * (list N * list N).
Definition rec_blocks (t : N * wrec) : list N := fst (snd (snd t)) ++ snd (snd (snd t)).
Definition rec_entry (t : N * wrec) : N * writeset := (fst t, fst (fst (snd t))).
Lemma insert_map k (v : wrec) : forall T, bmap_insert k (fst (fst v)) (map rec_entry T) = map rec_entry (bmap_insert k v T).
Proof. induction T as [|[k' v'] T IH]; [reflexivity|]. cbn [map rec_entry bmap_insert fst snd]. destruct (k <? k'); auto. destruct (k =? k'); auto. cbn [map rec_entry fst snd]. rewrite <- IH. reflexivity. Qed.

Lemma u32_size : (0 < csize u32_codec <= 4072)%nat. Proof. cbn. lia. Qed.
Section Run.
Variables n nr : N.
Let max := W32 - 1.
Hypothesis Hn : n < 2 ^ 64.
Hypothesis Hnr : nr < 2 ^ 32.
Let Hv1 : 1 = 1 \/ 1 = 2 := or_introl eq_refl.
Notation EInv := (AInv n u32_codec (fun v => v < 2 ^ 32) 0 nr).

Record rec_ok (w : wb) (ss : list eset) (t : N * wrec) : Prop := {
  rk_array : array_at u64_codec (wb_view w) (ws_root (fst (fst (snd t)))) (snd (fst (snd t))) (snd (snd (snd t))) (fst (snd (snd t)));
  rk_root : ws_root (fst (fst (snd t))) < n;
  rk_len : nlen (snd (fst (snd t))) = (ws_nr_bits (fst (fst (snd t))) + 63) / 64;
  rk_bits : ws_nr_bits (fst (fst (snd t))) < 2 ^ 32;
  rk_words : Forall (fun w => w < 2 ^ 64) (snd (fst (snd t)));
  rk_era : fst t < 2 ^ 32;
  rk_lt : forall x, In x (rec_blocks t) -> x < n;
  rk_doc : exists m, In m ss /\ same_set m (fst t) (fst (fst (snd t))) (snd (fst (snd t))) }.
Record RE (w : wb) (T : list (N * wrec)) (b : abuilder N) (kvs : list (N * N)) (ss : list eset) : Prop := {
  re_env : env n max w;
  re_j : J n max [] w;
  re_eras : EInv w b kvs;
  re_end : at_end u32_codec b kvs;
  re_inc : increasing (map fst T);
  re_recs : Forall (rec_ok w ss) T;
  re_keys : forall k, In k (map fst T) <-> In k (map ew_era ss);
  re_cnt : forall x, cnt w x = occ x (0 :: flat_map rec_blocks T ++ abb_blocks b);
  re_one : forall x, cnt w x <= 1 }.

Lemma rec_used w T b kvs ss t : RE w T b kvs ss -> In t T -> forall x, In x (rec_blocks t) -> 0 < cnt w x.
Proof.
  intros H Ht x Hx. rewrite (re_cnt _ _ _ _ _ H). apply occ_in. right. apply in_or_app. left. apply in_flat_map. eauto.
Qed.
Lemma rec_grew w w' l T b kvs ss t ss' : RE w T b kvs ss -> In t T -> grew n max w w' l -> (forall m, In m ss -> In m ss') -> rec_ok w ss t -> rec_ok w' ss' t.
Proof.
  intros H Ht G Hs [A1 A2 A3 A4 A5 A6 A0 (m & A7 & A8)]. constructor; auto.
  - eapply (array_grew n 1 nr Hn Hnr Hv1); [exact A1|exact G|]. apply (rec_used _ _ _ _ _ t H Ht).
  - eauto.
Qed.
Lemma j_build {V} (c : codec V) dflt nr0 kvs : safe (J n max []) (array_build c dflt nr0 kvs) any.
Proof.
  unfold array_build. eapply safe_bind with (Q := any); [|intros; apply j_ab_complete; exact Hn].
  generalize (abb_new c nr0). induction kvs as [|[k v] kvs IH]; intros a; cbn [abb_pushes]; [apply j_ret|]. eapply safe_bind with (Q := any); [apply j_push; exact Hn|intros; apply IH].
Qed.
Lemma bits_len nr0 kvs x : x / 64 < nr0 -> bit_at 64 (contents 0 nr0 kvs) x = N.testbit (value_at 0 kvs (x / 64)) (x mod 64).
Proof.
  intros H. unfold bit_at. f_equal. erewrite nth_error_nth; [reflexivity|]. apply contents_nth. auto.
Qed.
Lemma assoc_in (kvs : list (N * N)) i v : assoc kvs i = Some v -> In (i, v) kvs.
Proof.
  induction kvs as [|[k x] kvs IH]; cbn [assoc]; [discriminate|]. destruct (N.eqb_spec i k) as [->|]; [intros E; injection E as ->; left; auto|]. right. auto.
Qed.

(** One writeset. *)
Lemma set_wp s w T b kvs ss : RE w T b kvs ss -> ew_era s < 2 ^ 32 -> ew_bits s < 2 ^ 32 -> marked_ranges 0 (ew_bits s) (ew_marked s) -> ~ In (ew_era s) (map ew_era ss) ->
  wp (restore_writeset (ew_bits s) (ew_marked s)) w
     (fun w' root => exists words bl, RE w' (bmap_insert (V := wrec) (ew_era s) (mkws (ew_bits s) root, words, bl) T) b kvs (ss ++ [s]))
     (fun w' => exhausted n max w' \/ awkward s).
Proof.
  intros HR He Hb Hm Hnew. eapply wp_eq; [apply restore_is_build|]. set (bits := ew_bits s) in *. set (rs := ew_marked s) in *.
  assert (Hdu : div_up_u64 bits 64 = div_up bits 64).
  { unfold div_up_u64, div_up, W64. rewrite N.mod_small; [reflexivity|]. change (2 ^ 64) with 18446744073709551616. change (2 ^ 32) with 4294967296 in *. lia. }
  rewrite Hdu. destruct (ws_words_facts bits rs Hm Hb) as (Hi & Hs & Hset & Hex).
  assert (Hnb : div_up bits 64 <= bits) by (unfold div_up; dlia).
  eapply wp_mono; [eapply wp_safe; [|apply j_build|apply HR]| |].
  - apply (array_build_wp n max Hn u64_codec (fun v => v < 2 ^ 64) 0 u64_lossless u64_size eq_refl (div_up bits 64) (ws_words rs) w); [|apply HR|exact Hs].
    change (array_per u64_codec) with 509. lia.
  - intros w' root [(blocks & foot & G & Hr & Ha & Hi' & Hlt) Hj]. set (words := contents 0 (div_up bits 64) (ws_words rs)) in *. exists words, (blocks, foot).
    assert (Hk : ~ In (ew_era s) (map fst T)) by (rewrite (re_keys _ _ _ _ _ HR); exact Hnew).
    pose proof (bmap_perm (V := wrec) (ew_era s) (mkws bits root, words, (blocks, foot)) T Hk) as HP.
    constructor.
    + apply G.
    + exact Hj.
    + eapply AInv_stable; [apply HR|exact G].
    + apply HR.
    + apply bmap_increasing; [exact Hk|apply HR].
    + apply Forall_forall. intros t Ht. apply (Permutation_in _ (Permutation_sym HP)) in Ht. apply in_app_or in Ht as [Ht|[<-|[]]].
      * eapply rec_grew; [exact HR|exact Ht|exact G|intros; apply in_or_app; auto|]. pose proof (re_recs _ _ _ _ _ HR) as HF. rewrite Forall_forall in HF. auto.
      * constructor; cbn [fst snd ws_root ws_nr_bits]; auto.
        -- unfold words. rewrite contents_len. reflexivity.
        -- unfold words, contents. apply Forall_forall. intros v Hv. apply in_map_iff in Hv as (i & <- & _). unfold value_at. destruct (assoc (ws_words rs) i) as [v|] eqn:E; [|reflexivity].
           apply assoc_in in E. rewrite Forall_forall in Hs. apply (Hs _ E).
        -- intros x Hx. apply (gr_free _ _ _ _ _ G x Hx).
        -- exists s. split; [apply in_or_app; right; left; auto|]. unfold same_set. cbn [ws_nr_bits].
           assert (HB : forall x, bit_at 64 words x = N.testbit (value_at 0 (ws_words rs) (x / 64)) (x mod 64)).
           { intros x. destruct (N.lt_ge_cases (x / 64) (div_up bits 64)) as [Hx|Hx]; [apply bits_len; auto|]. unfold value_at.
             destruct (assoc (ws_words rs) (x / 64)) as [v|] eqn:E.
             - apply assoc_in in E. rewrite Forall_forall in Hlt. specialize (Hlt _ E). cbn [fst] in Hlt. lia.
             - rewrite N.bits_0. unfold bit_at. rewrite nth_overflow, N.bits_0; auto. pose proof (contents_len 0 (div_up bits 64) (ws_words rs)) as Hl. fold words in Hl. unfold nlen in Hl. lia. }
           conj; auto.
           ++ intros x Hx. rewrite HB. auto.
           ++ intros Hna x Hx. rewrite HB in Hx. unfold awkward in Hna. fold bits rs in Hna.
              assert (Hw : Forall within_word rs). { apply Forall_forall. intros r Hr'. destruct (N.eq_dec (fst r / 64) ((fst r + snd r - 1) / 64)) as [Hd|Hd]; [exact Hd|].
                exfalso. apply Hna. right. intros HF. rewrite Forall_forall in HF. apply Hd, HF, Hr'. }
              destruct (Hex Hw) as [Hex1 _]. auto.
    + intros k. rewrite map_app, in_app_iff. cbn [map In]. rewrite <- (re_keys _ _ _ _ _ HR).
      assert (HQ : Permutation (map fst T ++ [ew_era s]) (map fst (bmap_insert (V := wrec) (ew_era s) (mkws bits root, words, (blocks, foot)) T))).
      { change [ew_era s] with (map fst [(ew_era s, (mkws bits root, words, (blocks, foot)) : wrec)]). rewrite <- map_app. apply Permutation_map. exact HP. }
      split; intros Hk'; [apply (Permutation_in _ (Permutation_sym HQ)) in Hk'; apply in_app_or in Hk'; cbn [In] in Hk'; tauto|apply (Permutation_in _ HQ); apply in_or_app; cbn [In]; tauto].
    + intros x. rewrite (gr_cnt _ _ _ _ _ G), (re_cnt _ _ _ _ _ HR). cbn [occ]. rewrite !occ_app.
      rewrite <- (occ_perm x _ _ (Permutation_flat_map rec_blocks HP)). rewrite flat_map_app, occ_app. cbn [flat_map]. rewrite app_nil_r.
      change (rec_blocks (ew_era s, (mkws bits root, words, (blocks, foot)))) with (blocks ++ foot). rewrite occ_app. lia.
    + eapply (grew_one n 1 nr Hn Hnr Hv1); [exact G|apply HR].
  - intros w' [Hx|[Hx|(kv & Hin & Hx)]]; [left; exact Hx|contradiction|right].
    unfold awkward. fold bits rs. destruct (N.eq_dec bits 0) as [E0|E0]; [left; exact E0|right]. intros HW. destruct (Hex HW) as [_ H2]. specialize (H2 ltac:(lia)).
    rewrite Forall_forall in H2. specialize (H2 _ Hin). lia.
Qed.

(** The era array. *)
Lemma era_wp e w T b kvs ss sb : RE w T b kvs ss -> snd e < 2 ^ 32 ->
  wp (evisit (EEra (fst e) (snd e)) (mker sb (map rec_entry T) None (Some b) ESEraArray)) w
     (fun w' r' => exists b', r' = mker sb (map rec_entry T) None (Some b') ESEraArray /\ RE w' T b' (kvs ++ [e]) ss)
     (fun w' => exhausted n max w' \/ nr <= fst e \/ ~ increasing (map fst (kvs ++ [e]))).
Proof.
  intros HR He. cbn [evisit]. unfold era_era, eunwrap. cbn [er_eras]. eapply wp_step; [reflexivity|]. apply wp_bind.
  eapply wp_mono; [eapply wp_safe; [|apply j_push; exact Hn|apply HR]| |].
  - apply (push_wp n max Hn u32_codec (fun v => v < 2 ^ 32) 0 u32_lossless u32_size eq_refl nr w b kvs (fst e) (snd e)); [apply HR|apply HR|exact He|apply HR].
  - intros w2 b' [(l2 & G2 & A2 & B2 & P2) Hj2]. apply wp_ret. exists b'. split; [reflexivity|].
    replace [(fst e, snd e)] with [e] in A2 by (destruct e; reflexivity).
    constructor.
    + apply G2.
    + exact Hj2.
    + exact A2.
    + unfold at_end. rewrite rev_app_distr. cbn [rev app]. destruct e as [k v]. exact P2.
    + apply HR.
    + apply Forall_forall. intros t Ht. eapply rec_grew; [exact HR|exact Ht|exact G2|auto|]. pose proof (re_recs _ _ _ _ _ HR) as HF. rewrite Forall_forall in HF. auto.
    + apply HR.
    + intros x. rewrite (gr_cnt _ _ _ _ _ G2), (re_cnt _ _ _ _ _ HR), B2. cbn [occ]. rewrite !occ_app. lia.
    + eapply (grew_one n 1 nr Hn Hnr Hv1); [exact G2|apply HR].
  - intros w2 [Hf|[Hk|Hk]]; [left; left; exact Hf|right; left; exact Hk|]. right; right. intros Hi.
    rewrite map_app in Hi. assert (HL : pos u32_codec b <= fst e); [|lia].
    eapply (at_end_le u32_codec b kvs (fst e) []); [apply HR|]. exact Hi.
Qed.

Section Doc.
Variable d : edoc.
Hypothesis Hnd : ei_nr_blocks (ed_sb d) = nr.
Hypothesis Hfit : edoc_fits d.
Definition doc_bad : Prop := ~ eras_in_order d \/ Exists awkward (ed_sets d).

Lemma sets_wp (Q : wb -> erest -> Prop) (E : wb -> Prop) : (forall w, exhausted n max w \/ doc_bad -> E w) -> forall rest ss' ss w T b kvs, ed_sets d = ss ++ ss' ->
  RE w T b kvs ss ->
  (forall w' T', RE w' T' b kvs (ed_sets d) -> wp (evisits rest (mker (Some (ed_sb d)) (map rec_entry T') None (Some b) ESSuperblock)) w' Q E) ->
  wp (evisits (flat_map eset_events ss' ++ rest) (mker (Some (ed_sb d)) (map rec_entry T) None (Some b) ESSuperblock)) w Q E.
Proof.
  intros HE rest. induction ss' as [|s ss' IH]; intros ss w T b kvs Ed HR HK; cbn [flat_map app].
  - apply HK. rewrite Ed, app_nil_r. exact HR.
  - rewrite <- app_assoc. eapply wp_eq; [apply set_is_array|]. apply wp_bind.
    destruct Hfit as (_ & _ & _ & F4 & F5 & _). rewrite Ed in F4, F5. apply Forall_app in F4 as [_ F4]. apply Forall_cons_iff in F4 as [(X1 & X2 & X3) _].
    assert (Hnew : ~ In (ew_era s) (map ew_era ss)).
    { rewrite map_app in F5. apply NoDup_app_iff_local in F5 as (_ & _ & F5). intros Hx. apply (F5 _ Hx). left. auto. }
    eapply wp_mono; [apply (set_wp s w T b kvs ss HR X1 X2 X3 Hnew)| |].
    + intros w' root (words & bl & HR'). change (mkws (ew_bits s) root) with (fst (fst (mkws (ew_bits s) root, words, bl))). rewrite insert_map. eapply IH; [|exact HR'|exact HK]. rewrite Ed, <- app_assoc. reflexivity.
    + intros w' [Hx|Hx]; apply HE; [left; exact Hx|right]. right. apply Exists_exists. exists s. split; auto. rewrite Ed. apply in_or_app. right. left. auto.
Qed.
Lemma eras_wp (Q : wb -> erest -> Prop) (E : wb -> Prop) : (forall w, exhausted n max w \/ doc_bad -> E w) -> forall rest es' es w T b ss, ed_eras d = es ++ es' ->
  RE w T b es ss ->
  (forall w' b', RE w' T b' (ed_eras d) ss -> wp (evisits rest (mker (Some (ed_sb d)) (map rec_entry T) None (Some b') ESEraArray)) w' Q E) ->
  wp (evisits (map (fun e => EEra (fst e) (snd e)) es' ++ rest) (mker (Some (ed_sb d)) (map rec_entry T) None (Some b) ESEraArray)) w Q E.
Proof.
  intros HE rest. induction es' as [|e es' IH]; intros es w T b ss Ed HR HK; cbn [map app evisits].
  - apply HK. rewrite Ed, app_nil_r. exact HR.
  - apply wp_bind. destruct Hfit as (_ & _ & _ & _ & _ & F6). rewrite Ed in F6. apply Forall_app in F6 as [_ F6]. apply Forall_cons_iff in F6 as [X1 _].
    eapply wp_mono; [apply (era_wp e w T b es ss (Some (ed_sb d)) HR X1)| |].
    + intros w' r' (b' & -> & HR'). eapply IH; [|exact HR'|exact HK]. rewrite Ed, <- app_assoc. reflexivity.
    + intros w' [Hx|Hx]; apply HE; [left; exact Hx|right]. left. intros [Hi Hf]. rewrite Ed in Hi, Hf. destruct Hx as [Hx|Hx].
      * apply Forall_app in Hf as [_ Hf]. apply Forall_cons_iff in Hf as [Hf _]. rewrite Hnd in Hf. lia.
      * apply Hx. change (e :: es') with ([e] ++ es') in Hi. rewrite app_assoc, map_app in Hi. apply increasing_app in Hi. tauto.
Qed.
End Doc.
End Run.

(** ** The superblock *)
Lemma write_esb_spec sb w : era_sb_range sb -> wb_good w 0 = true -> exists w', wb_write_era_sb sb w = (w', Ok tt) /\
  era_read_superblock (wb_disk w') 0 = Ok sb /\ (forall x, x <> 0 -> wb_disk w' x = wb_disk w x) /\ wb_queue w' = wb_queue w.
Proof.
  intros Hr Hg. destruct (era_roundtrip (wb_disk w) 0 sb Hr) as (d' & E & R & O & _).
  unfold era_write_superblock in E. destruct (to_block (era_sb_pack sb)) as [b| |] eqn:Eb; [|discriminate E|discriminate E].
  cbn [bind] in E. destruct (write_checksum b ERA_SUPERBLOCK) as [data| |] eqn:Ed; [|discriminate E|discriminate E].
  cbn [bind] in E. apply Pack_Proofs.Ok_inj in E.
  unfold wb_write_era_sb, bindst, lift. rewrite Eb, Ed, Hg.
  eexists. split; [reflexivity|].
  unfold wb_disk. cbn [wb_base wb_good wb_log wb_queue]. rewrite put_log_app. unfold put_log at 1 3. cbn [fold_left b_loc]. rewrite Hg.
  change (put_block (put_log (wb_base w) (wb_good w) (wb_log w)) (mkblock 0 data)) with (upd (wb_disk w) 0 data). rewrite E.
  split; [exact R|split; [|reflexivity]]. intros x Hx. apply O. exact Hx.
Qed.
