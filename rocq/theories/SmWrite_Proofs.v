(** Writing the space map of a device: the bitmaps, the overflow builder that runs
    alongside, and the index. *)
From Coq Require Import Permutation.
From Verif Require Import Base Csum_Model Csum_Proofs Codec_Model Codec_Spec Codec_Proofs NodeCodec_Proofs SbCodec_Proofs
  SpaceMap_Model SpaceMap_Spec SpaceMap_Proofs IoMany_Proofs Utils_Proofs Batcher_Model Batcher_Proofs
  Builder_Model Builder_Spec Builder_Proofs NodeBuilder_Proofs BtreeBuild_Proofs Array_Proofs SmWrite_Model SmWrite_Spec.

From Verif Require Pack_Proofs.
Arguments write_checksum : simpl never.

Section SW.
Variables n max : N.
Hypothesis Hn : n < 2 ^ 64.
Notation u32 := (fun v : N => v < 2 ^ 32).
Notation rep1 := (fun (_ : unit) (_ : list N) => True).
Notation bad0 := (fun (_ : list N) (_ : N) => False).
Notation Inv1 w1 := (NodeBuilder_Proofs.Inv n max u32_codec (leaf_io N) false rep1 true w1 [] (fun _ => False)).
Notation wfc1 := (wfc u32).

Lemma m_u32 : calc_max_entries u32_codec = 336.
Proof using. reflexivity. Qed.

(** A group of blocks used by somebody else appears while the builder runs. *)
Lemma Inv_rebase w1 cont w b w' l : Inv1 w1 cont w b -> grew n max w w' l ->
  exists w2, Inv1 w2 cont w' b /\ (forall x, cnt w2 x = cnt w1 x + occ x l) /\
    (forall x, wb_view w2 x = wb_view w' x) /\ wb_base w2 = wb_base w'.
Proof.
  intros [[He (kvss & HF & Hc & Hr) Hcnt Hfr Hb Hown] Hlen Hsh Hla Hv] [G1 G2 G3 G4 G5 G6].
  set (s := wb_sm w').
  exists (set_sm w' (mksm (sm_nr s) (sm_max s) (sm_nalloc s) (sm_begin s) (fun x => cnt w1 x + occ x l))).
  assert (Hused : forall s0, In s0 (nb_nodes b) -> 0 < cnt w (su_block s0)).
  { intros s0 Hs. rewrite Hcnt. assert (0 < occ (su_block s0) (map su_block (nb_nodes b))); [|lia].
    apply occ_in. apply in_map. auto. }
  conj; auto. constructor; auto. constructor; auto.
  - exists kvss. conj; auto. eapply Forall2_node_ext; [|exact HF]. intros s0 Hs. apply G5. auto.
  - intros x. rewrite G2, Hcnt. unfold cnt at 2. cbn. lia.
  - unfold origin in *. rewrite Forall_forall in *. intros s0 Hs. specialize (Hown s0 Hs).
    specialize (Hused s0 Hs). destruct (own false s0); [|destruct Hown as [[] _]].
    destruct Hown as [A B]. split; auto. unfold cnt at 1. cbn. rewrite A.
    destruct (in_dec N.eq_dec (su_block s0) l) as [Hi|Hi]; [apply G3 in Hi; lia|]. rewrite occ_not_in; auto.
Qed.

(** The builder in a session that started in [w0] and since has used the blocks [l] for
    other things. *)
Definition OB (w0 : wb) (l : list N) (cont : list (N * N)) (w : wb) (b : nbuilder N unit) : Prop :=
  exists w1, Inv1 w1 cont w b /\ (forall x, cnt w1 x = cnt w0 x + occ x l) /\
    (forall x, 0 < cnt w0 x -> wb_view w x = wb_view w0 x) /\ wb_base w = wb_base w0 /\
    (forall x, In x l -> cnt w0 x = 0 /\ x < n) /\ NoDup l /\ wfc1 cont.
Definition kept (w0 : wb) (l : list N) (w w' : wb) : Prop :=
  forall x, 0 < cnt w0 x \/ In x l -> wb_view w' x = wb_view w x.

Lemma OB_env w0 l cont w b : OB w0 l cont w b -> env n max w.
Proof. intros (w1 & H & _). apply H. Qed.
Lemma OB_new w : env n max w -> OB w [] [] w (nb_new tt).
Proof.
  intros He. exists w. conj; auto.
  - apply Inv_new; auto; [reflexivity|rewrite m_u32; lia].
  - intros x. cbn. lia.
  - intros x [].
  - constructor.
  - cbn. split; auto. constructor.
Qed.
Lemma OB_grow w0 l cont w b w' m : OB w0 l cont w b -> grew n max w w' m ->
  OB w0 (l ++ m) cont w' b /\ kept w0 l w w'.
Proof.
  intros (w1 & HI & H1 & H2 & H3 & H4 & H5 & H6) G.
  assert (Hc : forall x, cnt w1 x <= cnt w x).
  { intros x. rewrite (c_counts _ _ _ _ _ _ _ _ _ _ _ _ (v_core _ _ _ _ _ _ _ _ _ _ _ _ _ HI)). lia. }
  assert (Hk : kept w0 l w w').
  { intros x Hx. apply (gr_frame _ _ _ _ _ G). specialize (Hc x). rewrite H1 in Hc. destruct Hx as [Hx|Hx]; [lia|].
    apply occ_in in Hx. lia. }
  split; [|auto].
  destruct (Inv_rebase _ _ _ _ _ _ HI G) as (w2 & I2 & C2 & V2 & B2).
  exists w2. conj; auto.
  - intros x. rewrite C2, H1, occ_app. lia.
  - intros x Hx. rewrite <- H2 by auto. apply Hk. auto.
  - rewrite (gr_base _ _ _ _ _ G). auto.
  - intros x Hx. apply in_app_or in Hx as [Hx|Hx]; auto. destruct (gr_free _ _ _ _ _ G x Hx) as [Hz ?].
    specialize (Hc x). rewrite H1 in Hc. split; [lia|auto].
  - apply NoDup_app_iff_local. conj; auto; [apply G|]. intros x Hx Hm. destruct (gr_free _ _ _ _ _ G x Hm) as [Hz _].
    specialize (Hc x). rewrite H1 in Hc. apply occ_in in Hx. lia.
Qed.

Lemma Efail_exhausted cont (s : wb * nbuilder N unit) : Efail n max bad0 [] cont s -> exhausted n max (fst s).
Proof using. intros [H|[H|(v & vs & [] & _)]]; [left|right]; auto. Qed.

Lemma OB_push w0 l cont w b k v : OB w0 l cont w b -> k < 2 ^ 64 -> v < 2 ^ 32 ->
  (forall k', In k' (map fst cont) -> k' < k) ->
  wp (push_overflow k v) (w, b)
     (fun s _ => OB w0 l (cont ++ [(k, v)]) (fst s) (snd s) /\ kept w0 l w (fst s))
     (fun s => exhausted n max (fst s)).
Proof.
  intros (w1 & HI & H1 & H2 & H3 & H4 & H5 & H6) Hk Hv Hlt. unfold push_overflow. eapply wp_mono.
  - eapply (push_value_wp n max Hn u32_codec u32 (leaf_io N) false noop_inc rep1 bad0 u32_lossless) with (vo := true) (lenient := false); eauto.
    + reflexivity.
    + apply leaf_io_ok.
    + rewrite m_u32. lia.
    + apply noop_counter.
  - intros [w' b'] _ [I2 _]. cbn [fst snd] in *.
    assert (Hfr : forall x, 0 < cnt w1 x -> wb_view w' x = wb_view w x).
    { intros x Hx. rewrite (c_frame _ _ _ _ _ _ _ _ _ _ _ _ (v_core _ _ _ _ _ _ _ _ _ _ _ _ _ I2)) by auto.
      rewrite (c_frame _ _ _ _ _ _ _ _ _ _ _ _ (v_core _ _ _ _ _ _ _ _ _ _ _ _ _ HI)) by auto. auto. }
    assert (Hkept : kept w0 l w w').
    { intros x Hx. apply Hfr. rewrite H1. destruct Hx as [Hx|Hx]; [lia|]. apply occ_in in Hx. lia. }
    split; auto. exists w1. conj; auto.
    + intros x Hx. rewrite <- H2 by auto. apply Hkept; auto.
    + rewrite (c_base _ _ _ _ _ _ _ _ _ _ _ _ (v_core _ _ _ _ _ _ _ _ _ _ _ _ _ I2)).
      rewrite <- H3. rewrite (c_base _ _ _ _ _ _ _ _ _ _ _ _ (v_core _ _ _ _ _ _ _ _ _ _ _ _ _ HI)). auto.
    + destruct H6 as [A B]. split.
      * rewrite map_app. cbn [map fst]. apply (increasing_snoc n Hn u32_codec); auto; [reflexivity|rewrite m_u32; lia|].
        destruct (rev (map fst cont)) as [|x r] eqn:Er; auto. apply Hlt. apply in_rev. rewrite Er. left; auto.
      * apply Forall_app. split; auto.
  - intros s [H|[H _]]; [|discriminate]. apply Efail_exhausted in H. auto.
Qed.

Lemma OB_complete w0 l cont w b : OB w0 l cont w b ->
  wp complete_overflow (w, b)
     (fun s root => exists depth foot, grew n max w0 (fst s) (l ++ foot) /\ kept w0 l w (fst s) /\
        tree u32_codec (wb_view (fst s)) true depth root cont foot /\ root < n)
     (fun s => exhausted n max (fst s)).
Proof.
  intros (w1 & HI & H1 & H2 & H3 & H4 & H5 & H6). unfold complete_overflow. apply wp_bind. eapply wp_mono.
  - eapply (complete_wp n max Hn u32_codec u32 (leaf_io N) false noop_inc rep1 bad0 u32_lossless) with (vo := true); eauto.
    + reflexivity.
    + apply leaf_io_ok.
    + rewrite m_u32. lia.
    + apply noop_counter.
  - intros [w2 b2] ns (Ha & Hnd & Hb & Hc & Hd & Ho). cbn [fst snd] in *. apply wp_onw. eapply wp_mono.
    + eapply (build_btree_wp n max u32_codec u32 rep1 w1 [] (fun _ => False) cont w2 ns tt false); eauto.
      * rewrite m_u32. lia.
      * unfold nodes_built. conj; auto.
    + intros w3 root (He3 & Hb3 & Hfr3 & depth & foot & Ht & Hlt & Hlv & Hinn & Hcnt). cbn [fst snd].
      exists depth, foot.
      assert (Hk : kept w0 l w w3).
      { intros x Hx. assert (0 < cnt w1 x) as Hp by (rewrite H1; destruct Hx as [Hx|Hx]; [lia|apply occ_in in Hx; lia]).
        rewrite Hfr3 by auto. rewrite (c_frame _ _ _ _ _ _ _ _ _ _ _ _ (v_core _ _ _ _ _ _ _ _ _ _ _ _ _ HI)) by auto. auto. }
      conj; auto.
      destruct Hnd as (kvss & HF & _).
      assert (Hleaf : forall x, In x (map fst (leaves u32_codec (wb_view w3) depth root)) ->
         (cnt w1 x = 0 /\ occ x (map fst (leaves u32_codec (wb_view w3) depth root)) = 1) /\ x < n).
      { assert (El : map fst (leaves u32_codec (wb_view w3) depth root) = map su_block ns).
        { rewrite Hlv. clear - HF. induction HF as [|s kvs ns kvss (A & B & C & D & h & E & F & G) HF IH]; cbn [flat_map map]; auto.
          rewrite map_app, IH. cbn [leaves]. cbn [io_make leaf_io] in E. rewrite (holds_raw _ _ _ _ _ E). reflexivity. }
        rewrite El. intros x Hx. apply in_map_iff in Hx as (s & <- & Hs). split.
        - unfold origin in Ho. rewrite Forall_forall in Ho. specialize (Ho s Hs). destruct (own false s); [auto|destruct Ho as [[] _]].
        - clear - HF Hs. induction HF as [|s' kvs ns kvss (A & _) HF IH]; [destruct Hs|]. destruct Hs as [<-|Hs]; auto. }
      pose proof (fun x => foot_split u32_codec (wb_view w3) x _ _ _ _ _ Ht) as Hsp.
      assert (Hall : forall x, In x foot -> (cnt w1 x = 0 /\ occ x foot = 1) /\ x < n).
      { intros x Hx. destruct (in_dec N.eq_dec x (inner u32_codec (wb_view w3) depth root)) as [Hi|Hi]; [apply Hinn; auto|].
        apply occ_in in Hx. rewrite Hsp, (occ_not_in x (inner _ _ _ _)) in Hx by auto. rewrite Hsp, (occ_not_in x (inner _ _ _ _)) by auto.
        apply Hleaf. apply occ_in. lia. }
      constructor; auto.
      * intros x. rewrite Hcnt, H1, occ_app. lia.
      * intros x Hx. apply in_app_or in Hx as [Hx|Hx]; auto. destruct (Hall x Hx) as [[Hz _] ?]. rewrite H1 in Hz. split; [lia|auto].
      * apply NoDup_app_iff_local. conj; auto.
        -- apply occ_NoDup. intros x. destruct (in_dec N.eq_dec x foot) as [Hx|Hx]; [|rewrite occ_not_in by auto; lia].
           destruct (Hall x Hx) as [[? ?] ?]. lia.
        -- intros x Hx Hf. destruct (Hall x Hf) as [[Hz _] ?]. rewrite H1 in Hz. apply occ_in in Hx. lia.
      * intros x Hx. rewrite Hk by auto. auto.
      * rewrite Hb3. rewrite <- H3. rewrite (c_base _ _ _ _ _ _ _ _ _ _ _ _ (v_core _ _ _ _ _ _ _ _ _ _ _ _ _ HI)). auto.
    + intros w3 H. auto.
  - intros s H. apply Efail_exhausted in H. auto.
Qed.

(** ** One bitmap *)
Lemma bitmap_block old b : bm_blocknr b < 2 ^ 64 -> Forall entry_ok (bm_entries b) -> length old = 4096%nat ->
  nlen (bm_entries b) = 16320 \/ (nlen (bm_entries b) <= 16320 /\ old = repeat 0 4096) ->
  exists l data blk, bitmap_pack b = Ok l /\ overwrite old l = Ok data /\ write_checksum data BITMAP = Ok blk /\
    metadata_block_type blk = BITMAP /\ bytes blk /\ length blk = 4096%nat /\
    exists rest, bitmap_unpack blk =
      Ok (mkbitmap (bm_blocknr b)
            (bm_entries b ++ repeat (Small 0) (N.to_nat 16320 - length (bm_entries b))), rest).
Proof.
  intros Hb Ho Hold Hl.
  assert (Hl' : nlen (bm_entries b) <= 16320) by (destruct Hl as [->|[]]; lia).
  destruct (bitmap_pack_ok b Hb Ho Hl') as (l & blk & E1 & E2 & E3 & rest & E4).
  assert (HL : bytes l /\ (nlen (bm_entries b) = 16320 -> length l = 4096%nat)).
  { unfold bitmap_pack in E1. destruct (pack_chunks_spec WORDS_PER_BITMAP (bm_entries b) (length (bm_entries b)) Ho)
      as (bs & E & Hbb & Hlb & Hlf & G); [unfold nlen, WORDS_PER_BITMAP in *; lia|lia|].
    unfold chunks in E1. rewrite E in E1. cbn [bind] in E1. apply Pack_Proofs.Ok_inj in E1 as <-. split.
    - bts. conj; auto; apply le_enc_bytes.
    - intros Hf. rewrite !app_length, !le_enc_length.
      pose proof Hlf as Hlf'. unfold nlen in Hf. rewrite Hlf by (unfold WORDS_PER_BITMAP; lia). unfold WORDS_PER_BITMAP. lia. }
  destruct HL as [HbL HfL].
  destruct (to_block l) as [data| |] eqn:Et; cbn [bind] in E2; try discriminate.
  assert (Hd : bytes data).
  { unfold to_block, to_buf, overwrite in Et. destruct (Nat.leb _ _); [|discriminate]. apply Pack_Proofs.Ok_inj in Et as <-.
    apply bytes_app. split; auto. apply bytes_skipn. apply bytes_repeat0. }
  pose proof (write_checksum_ok _ _ _ Hd E2) as (_ & _ & Hlen & Hbb & _).
  assert (length blk = 4096%nat).
  { rewrite Hlen. assert (exists x, write_checksum data BITMAP = Ok x) as Hx by eauto. apply write_checksum_total in Hx as [-> _]. reflexivity. }
  exists l, data, blk. conj; eauto.
  destruct Hl as [Hl|[_ ->]]; [|exact Et].
  unfold to_block, to_buf, overwrite in *. rewrite repeat_length in Et. rewrite Hold. change BLOCK_SIZE with 4096%nat in Et.
  rewrite HfL in * by auto. cbn [Nat.leb] in *. rewrite <- Et. f_equal. f_equal. rewrite !skipn_all2; auto.
  - lia.
Qed.
Lemma write_bitmap_wp es w : env n max w -> nlen es <= 16320 -> Forall entry_ok es ->
  wp (write_bitmap es) w (fun w' b => grew n max w w' [b] /\ bitmap_at (wb_view w') b es) (full n).
Proof.
  intros [Hinv Hgood Hjunk] Hlen Hr. unfold write_bitmap. apply wp_bind. unfold wp, wb_alloc_zeroed, bindst.
  destruct (wb_alloc_loc w) as [w1 r1] eqn:E1. apply (wb_alloc_loc_spec n max) in E1; [|apply Hinv].
  destruct E1 as (I1 & Eb & El & Eg & Eba & Eq & Ej & [(loc & -> & Hloc & H0 & Hc & _)|(-> & Hfull & Hsm & _)]).
  2:{ intros x Hx. unfold cnt. rewrite Hsm. apply Hfull; auto. }
  cbn [b_loc b_data ret].
  destruct (bitmap_block (repeat 0 4096) (mkbitmap loc es)) as (l & data & blk & Hp & Et & Hw & B1 & B2 & B3 & rest & B4);
    [cbn [bm_blocknr]; lia|auto|apply repeat_length|right; auto|].
  cbn [bm_entries bm_blocknr] in *. unfold lift. rewrite Hp. change BLOCK_SIZE with 4096%nat. rewrite Et.
  destruct (wb_write (mkblock loc data) BITMAP w1) as [w2 r2] eqn:E2.
  apply wb_write_spec in E2; [|rewrite Eg; auto|rewrite Eg, Eq; apply Hinv].
  destruct E2 as (C1 & C2 & C3 & C4 & C5 & C6 & C7 & C8). rewrite Hw in C8. destruct C8 as (-> & Hview & _).
  assert (Hv1 : forall x, wb_view w1 x = wb_view w x).
  { intros x. unfold wb_view, wb_disk. rewrite Eb, El, Eg, Eq. auto. }
  cbn [ret fst snd]. split.
  - constructor.
    + constructor.
      * constructor; [rewrite C3; auto|auto].
      * rewrite C2, Eg. auto.
      * rewrite C6, Ej. auto.
    + intros x. unfold cnt. rewrite C3, Hc, upd_spec. cbn [occ]. destruct (N.eqb_spec x loc) as [->|]; [rewrite H0; lia|lia].
    + intros x [<-|[]]. auto.
    + repeat constructor; auto.
    + intros x Hx. rewrite Hview. destruct (N.eqb_spec x loc) as [->|]; [unfold cnt in Hx; lia|auto].
    + congruence.
  - assert (wb_view w2 loc = blk) as Ev. { rewrite Hview, N.eqb_refl. auto. }
    unfold bitmap_at. rewrite Ev. conj; eauto. unfold nlen. rewrite B3. reflexivity.
Qed.

(** ** Scanning the counts *)
Variable sm : core_sm.
Notation counts := (sm_counts sm).
Hypothesis Hnr : sm_nr sm < 2 ^ 64.
Hypothesis Hcounts : forall b, b < sm_nr sm -> counts b < 2 ^ 32.

Lemma big_counts_app c lo m hi : lo <= m -> m <= hi -> big_counts c lo hi = big_counts c lo m ++ big_counts c m hi.
Proof using. clear Hn Hnr Hcounts. intros. unfold big_counts. rewrite (range_app lo m hi) by lia. rewrite filter_app, map_app. auto. Qed.
Lemma big_counts_one c b : big_counts c b (b + 1) = if 3 <=? c b then [(b, c b)] else [].
Proof using. clear Hn Hnr Hcounts. unfold big_counts. rewrite (range_cons b (b + 1)) by lia. rewrite range_nil by lia. cbn [filter]. destruct (3 <=? c b); auto. Qed.
Lemma big_counts_keys c lo hi k : In k (map fst (big_counts c lo hi)) -> lo <= k < hi.
Proof using. clear Hn Hnr Hcounts.
  unfold big_counts. rewrite map_map. cbn [fst]. rewrite map_id. intros H. apply filter_In in H as [H _]. apply in_range in H. auto.
Qed.
Lemma used_in_snoc c begin j : used_in c begin (j + 1) = used_in c begin j + (if c (begin + j) =? 0 then 0 else 1).
Proof using. clear Hn Hnr Hcounts.
  unfold used_in. rewrite snoc_range, filter_app. unfold nlen. rewrite app_length. cbn [filter].
  destruct (c (begin + j) =? 0); cbn [negb length]; lia.
Qed.
Lemma used_in_le c begin j : used_in c begin j <= j.
Proof using. clear Hn Hnr Hcounts.
  unfold used_in, nlen. assert (H : forall l, (length (filter (fun i => negb (c (begin + i) =? 0)%N) l) <= length l)%nat).
  { induction l as [|x l IH]; cbn [filter]; auto. destruct (negb _); cbn [length]; lia. }
  specialize (H (range 0 j)). rewrite range_length in H. lia.
Qed.

Definition ff_ok (begin j : N) (ff : option N) : Prop :=
  match ff with
  | None => forall i, i < j -> counts (begin + i) <> 0
  | Some f => f < j /\ counts (begin + f) = 0 /\ forall i, i < f -> counts (begin + i) <> 0
  end.
Definition scanned (begin j : N) (acc : scan) : Prop :=
  let '(es, ff, nf) := acc in
  rev es = map (fun i => entry_for (counts (begin + i))) (range 0 j) /\ ff_ok begin j ff /\
  nf + used_in counts begin j = 16320.

Lemma wc_entries_wp w0 l begin len : begin + len <= sm_nr sm -> len <= 16320 -> forall k w b j acc cont,
  len = j + N.of_nat k -> OB w0 l (cont ++ big_counts counts begin (begin + j)) w b ->
  (forall k', In k' (map fst cont) -> k' < begin) -> scanned begin j acc ->
  wp (wc_entries sm begin (range j len) acc) (w, b)
     (fun s acc' => OB w0 l (cont ++ big_counts counts begin (begin + len)) (fst s) (snd s) /\ kept w0 l w (fst s) /\
        scanned begin len acc')
     (fun s => exhausted n max (fst s)).
Proof.
  intros Hb Hlen. induction k as [|k IH]; intros w b j acc cont Ek HO Hk Hs.
  - rewrite range_nil by lia. cbn [wc_entries]. apply wp_ret. cbn [fst snd]. assert (len = j) as -> by lia. conj; auto.
    intros x _. auto.
  - rewrite range_cons by lia. cbn [wc_entries]. destruct acc as [[es ff] nf]. destruct Hs as (S1 & S2 & S3).
    apply wp_bind. unfold sm_get. assert (sm_nr sm <=? begin + j = false) as Hlt by (apply N.leb_gt; lia).
    pose proof (Hcounts (begin + j)) as Hc32.
    assert (Hu : used_in counts begin j <= j) by apply used_in_le.
    assert (Hstep : forall w' b' e ff' nf', OB w0 l (cont ++ big_counts counts begin (begin + (j + 1))) w' b' -> kept w0 l w w' ->
       e = entry_for (counts (begin + j)) -> ff_ok begin (j + 1) ff' -> nf' + used_in counts begin (j + 1) = 16320 ->
       wp (wc_entries sm begin (range (j + 1) len) (e :: es, ff', nf')) (w', b')
         (fun s acc' => OB w0 l (cont ++ big_counts counts begin (begin + len)) (fst s) (snd s) /\ kept w0 l w (fst s) /\
            scanned begin len acc') (fun s => exhausted n max (fst s))).
    { intros w' b' e ff' nf' HO' Hkept -> Hff Hnf. eapply wp_mono; [eapply (IH w' b' (j + 1) _ cont); [lia|exact HO'|auto|]| |auto].
      - cbn [scanned]. conj; auto. cbn [rev]. rewrite S1, snoc_range, map_app. auto.
      - intros s acc' (A & B & C). conj; auto. intros x Hx. rewrite B, Hkept; auto. }
    assert (Hbig : big_counts counts begin (begin + (j + 1)) = big_counts counts begin (begin + j) ++
                   if 3 <=? counts (begin + j) then [(begin + j, counts (begin + j))] else []).
    { rewrite (big_counts_app _ begin (begin + j)) by lia. f_equal. rewrite N.add_assoc. apply big_counts_one. }
    rewrite (used_in_snoc counts begin j) in Hstep. rewrite Hbig in Hstep. clear Hbig IH.
    apply wp_lift with (a := counts (begin + j)); [rewrite Hlt; reflexivity|].
    assert (Hnone : counts (begin + j) <> 0 -> ff_ok begin (j + 1) ff).
    { intros Hne. destruct ff as [f|]; cbn [ff_ok] in *.
      - conj; try tauto. lia.
      - intros i Hi. destruct (N.eq_dec i j) as [->|]; auto. apply S2. lia. }
    apply wp_bind.
    destruct (N.eqb_spec (counts (begin + j)) 0) as [E0|E0].
    { apply wp_ret. apply Hstep; auto.
      - rewrite E0. cbn [N.leb]. rewrite app_nil_r. exact HO.
      - intros x _; auto.
      - rewrite E0. auto.
      - destruct ff as [f|]; cbn [ff_ok] in *; [conj; try tauto; lia|]. conj; auto. lia.
      - lia. }
    destruct (N.eqb_spec (counts (begin + j)) 1) as [E1|E1].
    { apply wp_ret. apply Hstep; auto.
      - rewrite E1. cbn [N.leb N.compare Pos.compare Pos.compare_cont]. rewrite app_nil_r. exact HO.
      - intros x _; auto.
      - rewrite E1. auto.
      - lia. }
    destruct (N.eqb_spec (counts (begin + j)) 2) as [E2|E2].
    { apply wp_ret. apply Hstep; auto.
      - rewrite E2. cbn [N.leb N.compare Pos.compare Pos.compare_cont]. rewrite app_nil_r. exact HO.
      - intros x _; auto.
      - rewrite E2. auto.
      - lia. }
    assert (3 <=? counts (begin + j) = true) as E3 by (apply N.leb_le; lia). rewrite E3 in Hstep.
    apply wp_bind. eapply wp_mono.
    + apply (OB_push w0 l _ w b (begin + j) (counts (begin + j)) HO); [lia|apply Hc32; lia|].
      intros k' Hin. rewrite map_app in Hin. apply in_app_or in Hin as [Hin|Hin].
      * apply Hk in Hin. lia.
      * apply big_counts_keys in Hin. lia.
    + intros [w' b'] _ [HO' Hkept]. cbn [fst snd] in *. apply wp_ret. rewrite <- app_assoc in HO'. apply Hstep; auto.
      * unfold entry_for. destruct (N.ltb_spec (counts (begin + j)) 3); [lia|auto].
      * lia.
    + auto.
Qed.

Lemma bitmap_at_ext d d' b es : d' b = d b -> bitmap_at d b es -> bitmap_at d' b es.
Proof using. unfold bitmap_at. intros ->. auto. Qed.
Lemma describes_ext d d' c nr bm ie : d' (ie_blocknr ie) = d (ie_blocknr ie) -> describes d c nr bm ie -> describes d' c nr bm ie.
Proof using. unfold describes. intros H (A & B). split; auto. eapply bitmap_at_ext; eauto. Qed.
Lemma entry_for_ok x : entry_ok (entry_for x).
Proof using. clear Hn Hnr Hcounts. unfold entry_for. destruct (N.ltb_spec x 3); cbn [entry_ok]; auto. lia. Qed.

Lemma wc_bitmap_wp w0 l w b bm : bm * 16320 < sm_nr sm ->
  OB w0 l (big_counts counts 0 (bm * 16320)) w b ->
  wp (wc_bitmap sm bm) (w, b)
     (fun s ie => OB w0 (l ++ [ie_blocknr ie]) (big_counts counts 0 (bm * 16320 + bitmap_len (sm_nr sm) bm)) (fst s) (snd s) /\
        kept w0 l w (fst s) /\ describes (wb_view (fst s)) counts (sm_nr sm) bm ie /\ first_free counts (sm_nr sm) bm ie)
     (fun s => exhausted n max (fst s)).
Proof.
  intros Hbm HO. unfold wc_bitmap. change ENTRIES_PER_BITMAP with 16320.
  change (N.min (sm_nr sm - bm * 16320) 16320) with (bitmap_len (sm_nr sm) bm).
  assert (Hle : bitmap_len (sm_nr sm) bm <= 16320 /\ bm * 16320 + bitmap_len (sm_nr sm) bm <= sm_nr sm) by (unfold bitmap_len; lia).
  set (len := bitmap_len (sm_nr sm) bm) in *. apply wp_bind. eapply wp_mono.
  - eapply (wc_entries_wp w0 l (bm * 16320) len) with (k := N.to_nat len) (cont := big_counts counts 0 (bm * 16320)); try tauto; try lia.
    + rewrite N.add_0_r. unfold big_counts at 2. rewrite range_nil by lia. cbn [filter map]. rewrite app_nil_r. exact HO.
    + intros k Hk. apply big_counts_keys in Hk. lia.
    + cbn [scanned rev]. rewrite range_nil by lia. conj; auto. cbn [ff_ok]. intros i Hi. lia.
  - intros [w1 b1] [[es ff] nf] (HO1 & Hk1 & S1 & S2 & S3). cbn [fst snd] in *.
    rewrite <- big_counts_app in HO1 by lia.
    apply wp_bind, wp_onw. eapply wp_mono.
    + apply (write_bitmap_wp (rev es) w1 (OB_env _ _ _ _ _ HO1)); rewrite S1.
      * unfold nlen. rewrite map_length, range_length. lia.
      * apply Forall_map, Forall_forall. intros i _. apply entry_for_ok.
    + intros w2 loc [G Hat]. cbn [fst snd]. apply wp_ret. cbn [fst snd ie_blocknr].
      destruct (OB_grow _ _ _ _ _ _ _ HO1 G) as [HO2 Hk2]. conj; auto.
      * intros x Hx. rewrite Hk2, Hk1; auto.
      * unfold describes. cbn [ie_blocknr ie_nr_free ie_none_free_before]. fold len. rewrite <- S1. conj; auto.
        intros i Hi Hil. destruct ff as [f|]; cbn [ff_ok] in S2; auto. apply S2. auto.
      * unfold first_free. cbn [ie_none_free_before]. fold len. destruct ff as [f|]; cbn [ff_ok] in S2; split; try lia.
    + intros w2 H. left. exact H.
  - auto.
Qed.

Definition ies_ok (d : disk) (bm : N) (ies : list index_entry) : Prop :=
  forall i ie, nth_error ies i = Some ie ->
    describes d counts (sm_nr sm) (bm + N.of_nat i) ie /\ first_free counts (sm_nr sm) (bm + N.of_nat i) ie.

Lemma bitmap_len_full nr bm : (bm + 1) * 16320 < nr -> bitmap_len nr bm = 16320.
Proof using. clear Hn Hnr Hcounts. unfold bitmap_len. lia. Qed.

Lemma wc_bitmaps_wp w0 nb : nb = div_up (sm_nr sm) 16320 -> forall k w b l bm, nb = bm + N.of_nat k ->
  OB w0 l (big_counts counts 0 (N.min (bm * 16320) (sm_nr sm))) w b ->
  wp (wc_bitmaps sm (range bm nb)) (w, b)
     (fun s ies => nlen ies = nb - bm /\ OB w0 (l ++ map ie_blocknr ies) (big_counts counts 0 (sm_nr sm)) (fst s) (snd s) /\
        kept w0 l w (fst s) /\ ies_ok (wb_view (fst s)) bm ies)
     (fun s => exhausted n max (fst s)).
Proof.
  intros Enb. induction k as [|k IH]; intros w b l bm Ek HO.
  - rewrite range_nil by lia. cbn [wc_bitmaps]. apply wp_ret. cbn [fst snd map]. rewrite app_nil_r. conj; auto.
    + unfold nlen; cbn; lia.
    + assert (sm_nr sm <= bm * 16320) as H.
      { destruct (N.le_gt_cases (sm_nr sm) (bm * 16320)); auto. apply lt_div_up in H; lia. }
      rewrite N.min_r in HO by auto. auto.
    + intros x _; auto.
    + intros [|i] ie; discriminate.
  - assert (bm * 16320 < sm_nr sm) as Hbm by (apply lt_div_up; lia).
    rewrite range_cons by lia. cbn [wc_bitmaps]. apply wp_bind. rewrite N.min_l in HO by lia.
    eapply wp_mono; [apply (wc_bitmap_wp w0 l w b bm Hbm HO)| |auto].
    intros [w1 b1] ie (HO1 & Hk1 & D1 & F1). cbn [fst snd] in *. apply wp_bind.
    assert (bm * 16320 + bitmap_len (sm_nr sm) bm = N.min ((bm + 1) * 16320) (sm_nr sm)) as El by (unfold bitmap_len; lia).
    rewrite El in HO1. eapply wp_mono; [apply (IH w1 b1 (l ++ [ie_blocknr ie]) (bm + 1)); [lia|exact HO1]| |auto].
    intros [w2 b2] ies (L2 & HO2 & Hk2 & I2). cbn [fst snd] in *. apply wp_ret. cbn [fst snd map].
    rewrite <- app_assoc in HO2. conj; auto.
    + unfold nlen in *. cbn [length]. lia.
    + intros x Hx. rewrite Hk2, Hk1; auto. rewrite in_app_iff. tauto.
    + intros [|i] ie' Hi.
      * cbn in Hi. injection Hi as <-. rewrite N.add_0_r. split; auto. eapply describes_ext; [|exact D1].
        apply Hk2. right. rewrite in_app_iff. cbn. auto.
      * cbn in Hi. apply I2 in Hi. replace (bm + N.of_nat (S i)) with (bm + 1 + N.of_nat i) by lia. auto.
Qed.

Lemma write_common_wp w0 : env n max w0 ->
  wp (write_common sm) w0
     (fun w r => nlen (fst r) = div_up (sm_nr sm) 16320 /\ ies_ok (wb_view w) 0 (fst r) /\
        exists depth foot, grew n max w0 w (map ie_blocknr (fst r) ++ foot) /\
          tree u32_codec (wb_view w) true depth (snd r) (big_counts counts 0 (sm_nr sm)) foot /\ snd r < n)
     (exhausted n max).
Proof.
  intros He. unfold write_common, with_overflow.
  assert (Hwp : wp (ies <~ wc_bitmaps sm (range 0 (div_up (sm_nr sm) ENTRIES_PER_BITMAP)) ;;
     root <~ complete_overflow ;; ret (ies, root)) (w0, nb_new tt)
     (fun s r => nlen (fst r) = div_up (sm_nr sm) 16320 /\ ies_ok (wb_view (fst s)) 0 (fst r) /\
        exists depth foot, grew n max w0 (fst s) (map ie_blocknr (fst r) ++ foot) /\
          tree u32_codec (wb_view (fst s)) true depth (snd r) (big_counts counts 0 (sm_nr sm)) foot /\ snd r < n)
     (fun s => exhausted n max (fst s))).
  { change ENTRIES_PER_BITMAP with 16320. apply wp_bind. eapply wp_mono.
    - eapply (wc_bitmaps_wp w0 _ eq_refl (N.to_nat (div_up (sm_nr sm) 16320)) w0 (nb_new tt) [] 0); [lia|].
      cbn [N.mul N.min]. rewrite N.min_l by lia. unfold big_counts. rewrite range_nil by lia. apply OB_new. auto.
    - intros [w1 b1] ies (L1 & HO1 & K1 & I1). cbn [fst snd app] in *. apply wp_bind. eapply wp_mono.
      + apply OB_complete. exact HO1.
      + intros [w2 b2] root (depth & foot & G & K2 & T & R). cbn [fst snd] in *. apply wp_ret. cbn [fst snd]. conj; auto.
        * rewrite L1. lia.
        * intros i ie Hi. destruct (I1 i ie Hi) as [A B]. split; auto. eapply describes_ext; [|exact A].
          apply K2. right. apply in_map. eapply nth_error_In; eauto.
        * eauto.
      + auto.
    - auto. }
  unfold wp in *. match type of Hwp with let (_, _) := ?m in _ => destruct m as [[w' b'] r] end. cbn [fst snd] in *. destruct r; auto.
Qed.

(** ** The index of a data space map *)
Lemma m_ie : calc_max_entries ie_codec = 168.
Proof using. reflexivity. Qed.

Lemma write_disk_sm_wp w0 : env n max w0 ->
  wp (write_disk_sm sm) w0
     (fun w r => exists ies depth foot depth' foot',
        wb_queue w = [] /\
        nlen ies = div_up (sm_nr sm) 16320 /\ ies_ok (wb_view w) 0 ies /\
        grew n max w0 w (map ie_blocknr ies ++ foot ++ foot') /\
        tree u32_codec (wb_view w) true depth (sr_ref_count_root r) (big_counts counts 0 (sm_nr sm)) foot /\
        tree ie_codec (wb_view w) true depth' (sr_bitmap_root r) (combine (range 0 (nlen ies)) ies) foot' /\
        sr_nr_blocks r = sm_nr sm /\ sr_nr_allocated r = sm_nalloc sm /\
        sr_ref_count_root r < n /\ sr_bitmap_root r < n)
     (exhausted n max).
Proof.
  intros He. unfold write_disk_sm. apply wp_bind. eapply wp_mono; [apply write_common_wp; auto| |auto].
  intros w1 [ies root] (L1 & I1 & depth & foot & G1 & T1 & R1). cbn [fst snd] in *.
  assert (Hlen : nlen ies < 2 ^ 64). { rewrite L1. unfold div_up. dlia. }
  apply wp_bind. eapply wp_mono.
  - eapply (build_tree_wp n max ie_codec ie_range w1 (combine (range 0 (nlen ies)) ies)); auto.
    + apply ie_lossless.
    + reflexivity.
    + rewrite m_ie. lia.
    + apply G1.
    + assert (length (range 0 (nlen ies)) = length ies) as Hl by (rewrite range_length; unfold nlen; lia).
      split.
      * rewrite map_fst_combine by auto. apply range_increasing.
      * apply Forall_forall. intros [k ie] Hin. cbn [fst snd]. split.
        -- apply in_combine_l in Hin. apply in_range in Hin. lia.
        -- apply in_combine_r in Hin. apply In_nth_error in Hin as Hi. destruct Hi as (i & Hi).
           destruct (I1 i ie Hi) as [(A & B & C) [D E]].
           assert (Hu : bitmap_len (sm_nr sm) (0 + N.of_nat i) <= 16320) by (unfold bitmap_len; lia).
           unfold ie_range. conj; try lia.
           assert (In (ie_blocknr ie) (map ie_blocknr ies ++ foot)) as Hb by (apply in_or_app; left; apply in_map; auto).
           destruct (gr_free _ _ _ _ _ G1 _ Hb). lia.
  - intros w2 [root2 u] (depth' & foot' & G2 & T2 & R2). cbn [fst snd] in *.
    pose proof (grew_trans _ _ _ _ _ _ _ G1 G2) as G.
    assert (Hall : forall x, In x (map ie_blocknr ies ++ foot) -> wb_view w2 x = wb_view w1 x).
    { intros x Hx. apply (gr_frame _ _ _ _ _ G2). rewrite (gr_cnt _ _ _ _ _ G1). apply occ_in in Hx. lia. }
    destruct (gr_env _ _ _ _ _ G) as [Hi Hg Hj].
    pose proof (wb_flush_view w2 (wi_good _ _ _ Hi)) as Hv.
    apply wp_bind. unfold wp. destruct (wb_flush w2) as [w3 r3] eqn:Ef. unfold wb_flush in Ef. injection Ef as <- <-.
    set (w3 := mkwb _ _ _ _ _ _ _ _) in *. cbn [fst] in Hv. unfold ret.
    cbn [sr_nr_blocks sr_nr_allocated sr_bitmap_root sr_ref_count_root].
    exists ies, depth, foot, depth', foot'. conj; auto.
    + intros i ie Hie. destruct (I1 i ie Hie) as [A B]. split; auto. eapply describes_ext; [|exact A].
      rewrite Hv. apply Hall. apply in_or_app. left. apply in_map. eapply nth_error_In; eauto.
    + rewrite app_assoc. constructor.
      * constructor; auto. constructor; [apply Hi|]. constructor.
      * exact (gr_cnt _ _ _ _ _ G).
      * exact (gr_free _ _ _ _ _ G).
      * exact (gr_nodup _ _ _ _ _ G).
      * intros x Hx. rewrite Hv. apply (gr_frame _ _ _ _ _ G); auto.
      * exact (gr_base _ _ _ _ _ G).
    + eapply tree_frame; [|exact T1]. intros x Hx. rewrite Hv. apply Hall. apply in_or_app; auto.
    + eapply tree_frame; [|exact T2]. intros x Hx. rewrite Hv. auto.
  - auto.
Qed.
End SW.
