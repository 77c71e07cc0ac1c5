(** Leak repair. *)
From Verif Require Import Base Csum_Model Codec_Model Codec_Spec Csum_Proofs SbCodec_Proofs SpaceMap_Model Pack_Proofs Utils_Proofs Builder_Spec SmWrite_Proofs
  SmCheck_Model SmCheck_Spec SmCheck_Proofs.

Section R.
Variable sm : core_sm.
Notation counts := (sm_counts sm).
Notation nr := (sm_nr sm).
Definition fix_entry (b : N) (e : bitmap_entry) : bitmap_entry := if (b <? nr) && leakp counts (b, e) then Small 0 else e.
Fixpoint fixed (b : N) (es : list bitmap_entry) : list bitmap_entry :=
  match es with [] => [] | e :: r => fix_entry b e :: fixed (b + 1) r end.
Lemma fix_entry_released b e : released counts nr b e (fix_entry b e).
Proof.
  unfold released, fix_entry. rewrite <- leakp_iff. destruct (N.ltb_spec b nr); cbn [andb]; [|right; split; auto; intros [? _]; lia].
  destruct (leakp counts (b, e)); [left; auto|right]. split; auto. intros [_ ?]. discriminate.
Qed.
Lemma fix_entry_ok b e : entry_ok e -> entry_ok (fix_entry b e).
Proof. unfold fix_entry. destruct ((b <? nr) && _); auto. intros _. cbn. lia. Qed.
Lemma fix_entry_idem b e : fix_entry b (fix_entry b e) = fix_entry b e.
Proof. unfold fix_entry at 2 3. destruct ((b <? nr) && leakp counts (b, e)) eqn:E; [unfold fix_entry, leakp; cbn; rewrite andb_false_r; auto|]. unfold fix_entry. rewrite E. auto. Qed.
Lemma fixed_length : forall es b, length (fixed b es) = length es.
Proof. induction es; intros; cbn; auto. Qed.
Lemma fixed_app : forall a b c, fixed b (a ++ c) = fixed b a ++ fixed (b + nlen a) c.
Proof.
  induction a as [|e a IH]; intros b c; cbn [fixed app].
  - f_equal. unfold nlen. cbn. lia.
  - rewrite IH. do 3 f_equal. unfold nlen. cbn [length]. lia.
Qed.
Lemma fixed_nth : forall es b i, nth_error (fixed b es) i = option_map (fix_entry (b + N.of_nat i)) (nth_error es i).
Proof.
  induction es as [|e es IH]; intros b [|i]; cbn [fixed nth_error option_map]; auto.
  - do 2 f_equal. lia.
  - rewrite IH. destruct (nth_error es i); auto. cbn. do 2 f_equal. lia.
Qed.
Lemma fixed_idem : forall es b, fixed b (fixed b es) = fixed b es.
Proof. induction es as [|e es IH]; intros b; cbn [fixed]; auto. rewrite IH, fix_entry_idem. auto. Qed.
Lemma fixed_ok : forall es b, Forall entry_ok es -> Forall entry_ok (fixed b es).
Proof. induction es as [|e es IH]; intros b H; cbn [fixed]; auto. inversion H; subst. constructor; auto. apply fix_entry_ok; auto. Qed.
Lemma fixed_none : forall es b, existsb (leakp counts) (seen nr b es) = false -> fixed b es = es.
Proof.
  induction es as [|e es IH]; intros b H; cbn [fixed seen] in *; auto. rewrite existsb_app in H. apply orb_false_iff in H as [H1 H2].
  rewrite IH by auto. f_equal. unfold fix_entry. destruct (b <? nr); auto. cbn in H1. rewrite orb_false_r in H1. rewrite H1. auto.
Qed.
Lemma fixed_out : forall es b, nr <= b -> fixed b es = es.
Proof. intros es b H. apply fixed_none. rewrite seen_none by auto. auto. Qed.
Lemma repair_entries_spec : forall es b, repair_entries sm b es = Ok (fixed b es).
Proof.
  induction es as [|e es IH]; intros b; cbn [repair_entries]; auto.
  destruct (N.leb_spec nr b) as [H|H]; [rewrite fixed_out by auto; auto|].
  cbn [fixed]. rewrite IH. unfold fix_entry, leakp. cbn [fst snd]. destruct (N.ltb_spec b nr); [|lia].
  destruct e as [a|]; cbn [bind andb]; auto. unfold sm_get. destruct (N.leb_spec nr b); [lia|]. cbn [bind].
  replace (match a with 1 => counts b =? 0 | _ => false end) with ((a =? 1) && (counts b =? 0)) by (destruct a as [|[p|p|]]; auto).
  auto.
Qed.

(** ** One block *)
(** The block packed from a full bitmap depends on the bitmap only. *)
Definition sealed (bm : bitmap) (blk : list N) : Prop := exists l, bitmap_pack bm = Ok l /\ write_checksum l BITMAP = Ok blk.
Definition repaired (first : N) (old new : list N) : Prop :=
  exists bm rest, bitmap_unpack old = Ok (bm, []) /\ nlen (bm_entries bm) = 16320 /\
    bitmap_unpack new = Ok (mkbitmap (bm_blocknr bm) (fixed first (bm_entries bm)), rest) /\
    metadata_block_type new = BITMAP /\ bytes new /\ nlen new = 4096 /\ sealed (mkbitmap (bm_blocknr bm) (fixed first (bm_entries bm))) new.
Lemma pack_full_length b l : nlen (bm_entries b) = 16320 -> Forall entry_ok (bm_entries b) -> bitmap_pack b = Ok l -> length l = 4096%nat.
Proof.
  intros Hf Ho E1. unfold bitmap_pack in E1. destruct (pack_chunks_spec WORDS_PER_BITMAP (bm_entries b) (length (bm_entries b)) Ho)
      as (bs & E & Hbb & Hlb & Hlf & G); [unfold nlen, WORDS_PER_BITMAP in *; lia|lia|].
  unfold chunks in E1. rewrite E in E1. cbn [bind] in E1. apply Pack_Proofs.Ok_inj in E1 as <-.
  rewrite !app_length, !le_enc_length. unfold nlen in Hf. rewrite Hlf by (unfold WORDS_PER_BITMAP; lia). unfold WORDS_PER_BITMAP. lia.
Qed.

Variable readable : N -> bool.
Lemma repair_blocks_spec d : forall lks, dev_ok d -> (forall lk, In lk lks -> readable (lk_loc lk) = true) ->
  exists bs, repair_blocks (fun b => if readable b then Some (d b) else None) sm lks = Ok bs /\
    Forall2 (fun lk blk => b_loc blk = lk_loc lk /\ repaired (lk_first lk) (d (lk_loc lk)) (b_data blk)) lks bs.
Proof.
  induction lks as [|lk lks IH]; intros Hd Hr; cbn [repair_blocks].
  { exists []. split; [reflexivity|constructor]. }
  rewrite (Hr lk) by (left; auto). destruct (Hd (lk_loc lk)) as [Hby Hlen].
  destruct (bitmap_unpack_block _ Hby Hlen) as (bm & Eu & Hle & _ & Hok & _). rewrite Eu. cbn [bind].
  destruct (bitmap_unpack_inv _ _ _ Hby Eu) as (_ & _ & _ & _ & _ & _ & _ & _ & Hb64 & _).
  rewrite repair_entries_spec. cbn [bind].
  set (nb := mkbitmap (bm_blocknr bm) (fixed (lk_first lk) (bm_entries bm))).
  assert (Hnl : nlen (bm_entries nb) = 16320). { unfold nb. cbn [bm_entries]. unfold nlen. rewrite fixed_length. exact Hle. }
  assert (Hno : Forall entry_ok (bm_entries nb)). { apply fixed_ok; auto. }
  destruct (bitmap_block 0 eq_refl (d (lk_loc lk)) nb Hb64 Hno) as (l & data & blk & E1 & E2 & E3 & E4 & E5 & E6 & rest & E7).
  { unfold nlen in Hlen. lia. } { left. exact Hnl. }
  rewrite E1. cbn [bind]. rewrite E2. cbn [bind]. rewrite E3. cbn [bind].
  destruct (IH Hd) as (bs & -> & HF). { intros; apply Hr; right; auto. }
  cbn [bind]. eexists. split; [reflexivity|]. constructor; auto. cbn [b_loc b_data]. split; auto.
  exists bm, rest. conj; auto.
  - rewrite E7. replace (N.to_nat 16320 - length (bm_entries nb))%nat with 0%nat by (unfold nlen in Hnl; lia). cbn [repeat]. rewrite app_nil_r. auto.
  - unfold nlen. lia.
  - exists l. split; auto. rewrite <- E3. f_equal. pose proof (pack_full_length nb l Hnl Hno E1) as HL.
    unfold overwrite in E2. rewrite HL in E2. unfold nlen in Hlen. assert (Hold : length (d (lk_loc lk)) = 4096%nat) by lia.
    rewrite Hold in E2. destruct (Nat.leb 4096 4096); [|discriminate]. apply Ok_inj in E2. rewrite <- E2, skipn_all2 by lia. rewrite app_nil_r. auto.
Qed.
Lemma write_blocks_other good : forall bs d b, ~ In b (map b_loc bs) -> write_blocks good bs d b = d b.
Proof.
  induction bs as [|x bs IH]; intros d b H; cbn [write_blocks map] in *; auto. rewrite IH by (intros Hx; apply H; right; auto).
  destruct (good (b_loc x)); auto. apply upd_other. intros ->. apply H; left; auto.
Qed.
Lemma write_blocks_in good : forall bs d x, NoDup (map b_loc bs) -> In x bs -> good (b_loc x) = true -> write_blocks good bs d (b_loc x) = b_data x.
Proof.
  induction bs as [|y bs IH]; intros d x HN Hi Hg; [destruct Hi|]. cbn [write_blocks map] in *. inversion HN as [|? ? Hn HN']; subst.
  destruct Hi as [->|Hi]; [|apply IH; auto]. rewrite write_blocks_other by auto. rewrite Hg, upd_same. auto.
Qed.
Variable good : N -> bool.
Lemma repair_spec d lks : dev_ok d -> NoDup (map lk_loc lks) -> (forall lk, In lk lks -> readable (lk_loc lk) = true /\ good (lk_loc lk) = true) ->
  exists d', repair_space_map readable good sm lks d = (d', Ok tt) /\ dev_ok d' /\
    (forall b, ~ In b (map lk_loc lks) -> d' b = d b) /\
    forall lk, In lk lks -> repaired (lk_first lk) (d (lk_loc lk)) (d' (lk_loc lk)).
Proof.
  intros Hd HN Hg. destruct (repair_blocks_spec d lks Hd) as (bs & E & HF). { intros lk H. apply Hg; auto. }
  unfold repair_space_map. rewrite E.
  assert (HL : map b_loc bs = map lk_loc lks). { clear - HF. induction HF as [|lk blk lks bs [H _] HF IH]; cbn; congruence. }
  assert (Hgb : forall x, In x bs -> good (b_loc x) = true).
  { intros x Hx. assert (Hin : In (b_loc x) (map lk_loc lks)) by (rewrite <- HL; apply in_map; auto).
    apply in_map_iff in Hin as (lk & <- & Hin). apply Hg; auto. }
  replace (forallb (fun b => good (b_loc b)) bs) with true by (symmetry; apply forallb_forall; auto).
  set (d' := write_blocks good bs d).
  assert (HO : forall b, ~ In b (map lk_loc lks) -> d' b = d b). { intros b H. apply write_blocks_other. rewrite HL. auto. }
  assert (HR : forall lk, In lk lks -> repaired (lk_first lk) (d (lk_loc lk)) (d' (lk_loc lk))).
  { intros lk Hin. assert (Hx : exists blk, In blk bs /\ b_loc blk = lk_loc lk /\ repaired (lk_first lk) (d (lk_loc lk)) (b_data blk)).
    { clear - HF Hin. induction HF as [|lk0 blk lks bs [H H'] HF IH]; [destruct Hin|]. destruct Hin as [->|Hin].
      - exists blk. split; [left; auto|auto].
      - destruct (IH Hin) as (x & ? & ?). exists x. split; [right; auto|auto]. }
    destruct Hx as (blk & Hb & Hloc & Hrep). rewrite <- Hloc at 2. unfold d'. rewrite write_blocks_in; auto. rewrite HL. auto. }
  exists d'. conj; auto. intros b. destruct (in_dec N.eq_dec b (map lk_loc lks)) as [Hin|Hin].
  - apply in_map_iff in Hin as (lk & <- & Hin). destruct (HR lk Hin) as (bm & rest & _ & _ & _ & _ & A & B & _). auto.
  - rewrite HO by auto. apply Hd.
Qed.
(** Whatever happens, only the blocks on the list are written. *)
Lemma repair_only d lks d' r : repair_space_map readable good sm lks d = (d', r) -> forall b, ~ In b (map lk_loc lks) -> d' b = d b.
Proof.
  unfold repair_space_map. destruct (repair_blocks _ sm lks) as [bs| |] eqn:E; intros H b Hb; try (injection H as <- _; auto; fail).
  injection H as <- _. apply write_blocks_other. intros Hin. apply Hb. clear Hb. revert bs E Hin. induction lks as [|lk lks IH]; intros bs E Hin; cbn [repair_blocks] in E.
  - injection E as <-. destruct Hin.
  - destruct (readable (lk_loc lk)); [|discriminate]. inv_bind E. destruct a as [bm rest]. do 5 inv_bind E.
    apply Ok_inj in E. subst bs. cbn [map b_loc] in *. destruct Hin as [Hin|Hin]; [left; auto|right]. eapply IH; eauto.
Qed.
End R.
