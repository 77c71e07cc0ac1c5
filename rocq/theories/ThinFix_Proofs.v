(** thin_check: what the repairs do to the blocks. *)
From Coq Require Import Permutation.
From Verif Require Import Base Csum_Model Codec_Model Codec_Spec Codec_Proofs SbCodec_Proofs Props_Codec SpaceMap_Model Utils_Model Walker_Model Pack_Proofs
  SmCheck_Model SmCheck_Spec SmCheck_Proofs SmRepair_Proofs Props_SmCheck Repair_Model ThinCheck_Model ThinCheck_Spec ThinRead_Proofs ThinCheck_Proofs.

Lemma loosened_refl x : loosened x x.
Proof. left. auto. Qed.
Lemma loosened_trans a b c : loosened a b -> loosened b c -> loosened a c.
Proof.
  intros [->|(bm & bm' & r & r' & A1 & A2 & A3 & A4 & A5 & A6)] H; [exact H|].
  destruct H as [->|(cm & cm' & q & q' & B1 & B2 & B3 & B4 & B5 & B6)]; [right; exists bm, bm', r, r'; auto 8|].
  right. exists bm, cm', r, q'. assert (E : cm = bm') by congruence. subst cm. conj; auto; try congruence.
  clear - A6 B6. revert B6. generalize (bm_entries cm'). induction A6 as [|e e' l l' H A6 IH]; intros m B6; inversion B6; subst; constructor; auto.
  match goal with HH : _ = e' \/ _ |- _ => destruct HH as [X|[X Y]] end; destruct H as [Z|[Z W]]; subst; auto.
Qed.
Lemma loosened_bitmap a b : loosened a b -> metadata_block_type a = BITMAP -> metadata_block_type b = BITMAP.
Proof. intros [->|(bm & bm' & r & r' & A1 & A2 & A3 & A4 & _)]; auto. Qed.
Lemma fixed_loose sm : forall es b, Forall2 (fun e e' => e' = e \/ (e = Small 1 /\ e' = Small 0)) es (fixed sm b es).
Proof.
  induction es as [|e es IH]; intros b; cbn [fixed]; constructor; auto.
  destruct (fix_entry_released sm b e) as [(_ & [H1 _] & H2)|[_ H]]; auto.
Qed.
Lemma repair_loose readable good sm lks d : dev_ok d -> leak_bitmaps d lks ->
  let d' := fst (repair_space_map readable good sm lks d) in dev_ok d' /\ forall b, loosened (d b) (d' b).
Proof.
  intros Hd Hl. cbv zeta. unfold repair_space_map. destruct (repair_blocks _ sm lks) as [bs| |] eqn:E; cbn [fst]; try (split; [auto|intros; apply loosened_refl]).
  assert (Hr : forall lk, In lk lks -> readable (lk_loc lk) = true).
  { clear Hl. revert bs E. induction lks as [|lk lks IH]; intros bs E x Hx; [destruct Hx|]. cbn [repair_blocks] in E. destruct (readable (lk_loc lk)) eqn:El; [|discriminate].
    inv_bind E. destruct a as [bm rest]. do 5 inv_bind E. destruct Hx as [<-|Hx]; [auto|]. eapply IH; [|exact Hx]; eauto. }
  destruct (repair_blocks_spec sm readable d lks Hd Hr) as (bs' & E' & HF). assert (bs' = bs) by congruence. subst bs'. clear E E' Hr.
  assert (HB : forall x, In x bs -> loosened (d (b_loc x)) (b_data x) /\ bytes (b_data x) /\ nlen (b_data x) = 4096).
  { intros x Hx. destruct (F2_in_r _ _ _ _ HF Hx) as (lk & Hlk & E & (bm & rest & A1 & A2 & A3 & A4 & A5 & A6 & _)). rewrite E. conj; auto.
    right. exists bm, (mkbitmap (bm_blocknr bm) (fixed sm (lk_first lk) (bm_entries bm))), [], rest. conj; auto; [|apply fixed_loose].
    apply Hl. apply in_map. exact Hlk. }
  clear HF Hl. assert (G : forall b, write_blocks good bs d b = d b \/ exists x, In x bs /\ b_loc x = b /\ write_blocks good bs d b = b_data x).
  { clear. revert d. induction bs as [|y bs IH]; intros d b; cbn [write_blocks]; auto. destruct (IH (if good (b_loc y) then upd d (b_loc y) (b_data y) else d) b) as [E|(x & Hx & E1 & E2)].
    - rewrite E. destruct (good (b_loc y)); auto. unfold upd. destruct (N.eqb_spec b (b_loc y)) as [Eb|Eb]; [|auto]. right. exists y. conj; auto. left; auto.
    - right. exists x. conj; auto. right; auto. }
  split.
  - intros b. destruct (G b) as [->|(x & Hx & Eb & ->)]; [apply Hd|]. destruct (HB x Hx) as (_ & H1 & H2). auto.
  - intros b. destruct (G b) as [->|(x & Hx & Eb & ->)]; [apply loosened_refl|]. subst b. apply HB, Hx.
Qed.

Section Check.
Context (nr : N) (fuel : nat) (order : list N -> list N) (o : check_opts) (readable writable : N -> bool).
Notation run := (thin_check nr fuel order o readable writable).
Notation eng := (dev nr readable).

Lemma fix_loose sm lks d : dev_ok d -> leak_bitmaps d lks ->
  let d' := fst (fix_leaks nr o readable writable sm lks d) in dev_ok d' /\ forall b, loosened (d b) (d' b).
Proof.
  intros Hd Hl. unfold fix_leaks. destruct lks as [|lk lks]; [cbn [fst]; split; [auto|intros; apply loosened_refl]|].
  destruct (_ || _); [apply repair_loose; auto|]. cbn [fst]. split; [auto|intros; apply loosened_refl].
Qed.
Lemma finish_loose dsm msm dl ml d b : dev_ok d -> leak_bitmaps d dl -> leak_bitmaps d ml -> b <> 0 ->
  loosened (d b) (fst (finish_check nr o readable writable dsm msm dl ml d) b).
Proof.
  intros Hd H1 H2 Hb. unfold finish_check. destruct (fix_loose dsm dl d Hd H1) as [D1 L1]. destruct (fix_leaks _ _ _ _ dsm dl d) as [d1 r1]. cbn [fst] in *.
  destruct r1; auto.
  assert (H3 : leak_bitmaps d1 ml) by (intros x Hx; apply (loosened_bitmap (d x)); [apply L1|apply H2, Hx]).
  destruct (fix_loose msm ml d1 D1 H3) as [D2 L2]. destruct (fix_leaks _ _ _ _ msm ml d1) as [d2 r2]. cbn [fst] in *.
  assert (L3 : loosened (d b) (d2 b)) by (eapply loosened_trans; eauto).
  destruct r2; auto. destruct (_ || _); auto. unfold done. cbn [fst]. rewrite clear_changes by auto. exact L3.
Qed.
Lemma run_loose d b : dev_ok d -> b <> 0 -> loosened (d b) (fst (run d) b).
Proof.
  intros Hd Hb.
  assert (C : loosened (d b) (fst (done (clear_flag nr o readable writable d)) b)) by (cbn [done fst]; rewrite clear_changes by auto; apply loosened_refl).
  assert (S : forall sb dsm msm, loosened (d b) (fst (check_space_maps nr o readable writable sb dsm msm d) b)).
  { intros. unfold check_space_maps. destruct (smroot_unpack (ts_data_sm_root sb)) as [[droot drest]| |]; try apply loosened_refl.
    destruct (check_disk_space_map _ _ _ _ _ _) as [m5 [[dn dl]| |]] eqn:Edc; try apply loosened_refl.
    destruct (smroot_unpack (ts_metadata_sm_root sb)) as [[mroot mrest]| |]; try apply loosened_refl.
    destruct (check_metadata_space_map _ _ _ _ _) as [m6 [[mn ml]| |]] eqn:Emc; try apply loosened_refl.
    apply finish_loose; auto.
    - apply disk_check_low in Edc. destruct Edc as [ies Edc]. eapply low_leaks; eauto.
    - apply metadata_check_low in Emc. destruct Emc as [ies Emc]. eapply low_leaks; eauto. }
  assert (M : forall sb t ts rs msm, loosened (d b) (fst (check_mappings nr fuel order o readable writable sb t ts rs msm d) b)).
  { intros; unfold check_mappings; repeat match goal with |- loosened _ (fst (match ?x with _ => _ end) _) => destruct x end; auto; apply loosened_refl. }
  unfold thin_check; repeat match goal with |- loosened _ (fst (match ?x with _ => _ end) _) => destruct x end; auto; apply loosened_refl.
Qed.

(** ** The flag *)
Lemma flag_cleared d d' x sb : dev_ok d -> read_sb (eng d) 0 = Ok sb -> clear_flag nr o readable writable d = (d', Ok x) ->
  read_sb (eng d') 0 = Ok (unflagged sb).
Proof.
  intros Hd Er H. unfold clear_flag in H. rewrite Er in H.
  assert (Hrange : thin_sb_range sb).
  { unfold read_sb in Er. destruct (eng d 0) as [data|] eqn:E0; [|discriminate]. unfold dev in E0. destruct (_ && _) in E0; [|discriminate]. assert (data = d 0) by congruence. subst.
    unfold thin_read_superblock in Er. destruct (metadata_block_type (d 0)); try discriminate. inv_bind Er. destruct a as [sb' rest]. apply Ok_inj in Er. subst sb'.
    eapply sb_unpack_range; [apply Hd|exact E]. }
  destruct (ts_needs_check sb) eqn:Ef.
  - fold (unflagged sb) in H. assert (Hr2 : thin_sb_range (unflagged sb)) by (clear - Hrange; destruct sb; exact Hrange).
    destruct (C05_thin_superblock d 0 (unflagged sb) Hr2) as (d2 & W1 & W2 & _). rewrite W1 in H. destruct (can_write o writable 0); [|discriminate].
    assert (d2 = d') by congruence. subst d2. unfold read_sb in *. destruct (eng d 0) as [data|] eqn:E0; [|discriminate]. unfold dev in *.
    destruct ((0 <? nr) && readable 0); [|discriminate]. exact W2.
  - assert (d = d') by congruence. subst d'. rewrite Er. destruct sb. cbn in Ef. subst. reflexivity.
Qed.
Lemma same_sb d d' : d' 0 = d 0 -> read_sb (eng d') 0 = read_sb (eng d) 0.
Proof. intros E. unfold read_sb, dev. rewrite E. reflexivity. Qed.
Lemma fix_keeps_sb sm lks d sb : read_sb (eng d) 0 = Ok sb -> leak_bitmaps d lks -> fst (fix_leaks nr o readable writable sm lks d) 0 = d 0.
Proof.
  intros Er Hl. apply fix_changes. intros Hin. apply Hl in Hin. unfold read_sb, dev in Er. destruct (_ && _); [|discriminate]. unfold thin_read_superblock in Er. rewrite Hin in Er. discriminate.
Qed.
Lemma finish_flag dsm msm dl ml d d' sb : dev_ok d -> leak_bitmaps d dl -> leak_bitmaps d ml -> read_sb (eng d) 0 = Ok sb ->
  o_auto_repair o || o_clear_needs_check o = true ->
  finish_check nr o readable writable dsm msm dl ml d = (d', Ok tt) -> read_sb (eng d') 0 = Ok (unflagged sb).
Proof.
  intros Hd H1 H2 Er Ho H. unfold finish_check in H. rewrite Ho in H.
  destruct (fix_loose dsm dl d Hd H1) as [D1 L1]. pose proof (fix_keeps_sb dsm dl d sb Er H1) as K1. destruct (fix_leaks _ _ _ _ dsm dl d) as [d1 r1]. cbn [fst] in *.
  destruct r1; try discriminate. assert (E1 : read_sb (eng d1) 0 = Ok sb) by (rewrite <- Er; apply same_sb, K1).
  assert (H3 : leak_bitmaps d1 ml) by (intros x Hx; apply (loosened_bitmap (d x)); [apply L1|apply H2, Hx]).
  destruct (fix_loose msm ml d1 D1 H3) as [D2 L2]. pose proof (fix_keeps_sb msm ml d1 sb E1 H3) as K2. destruct (fix_leaks _ _ _ _ msm ml d1) as [d2 r2]. cbn [fst] in *.
  destruct r2; try discriminate. assert (E2 : read_sb (eng d2) 0 = Ok sb) by (rewrite <- E1; apply same_sb, K2).
  unfold done in H. destruct (clear_flag nr o readable writable d2) as [d3 [x| |]] eqn:Ec; cbn [fst snd] in H; try discriminate.
  assert (d3 = d') by congruence. subst d3. eapply flag_cleared; eauto.
Qed.
Lemma run_flag d d' sb : dev_ok d -> o_auto_repair o || o_clear_needs_check o = true -> (o_sb_only o = true -> o_clear_needs_check o = true) ->
  read_sb (eng d) 0 = Ok sb -> run d = (d', Ok tt) -> read_sb (eng d') 0 = Ok (unflagged sb).
Proof.
  intros Hd Ho Hs Er H.
  assert (C : forall d', done (clear_flag nr o readable writable d) = (d', Ok tt) -> read_sb (eng d') 0 = Ok (unflagged sb)).
  { intros d2 E. unfold done in E. destruct (clear_flag nr o readable writable d) as [d3 [x| |]] eqn:Ec; cbn [fst snd] in E; try discriminate.
    assert (d3 = d2) by congruence. subst d3. exact (flag_cleared d d2 x sb Hd Er Ec). }
  assert (S : forall sb0 dsm msm d', check_space_maps nr o readable writable sb0 dsm msm d = (d', Ok tt) -> read_sb (eng d') 0 = Ok (unflagged sb)).
  { intros sb0 dsm msm d2 E. unfold check_space_maps in E. destruct (smroot_unpack (ts_data_sm_root sb0)) as [[droot drest]| |]; try discriminate.
    destruct (check_disk_space_map _ _ _ _ _ _) as [m5 [[dn dl]| |]] eqn:Edc; try discriminate.
    destruct (smroot_unpack (ts_metadata_sm_root sb0)) as [[mroot mrest]| |]; try discriminate.
    destruct (check_metadata_space_map _ _ _ _ _) as [m6 [[mn ml]| |]] eqn:Emc; try discriminate.
    apply disk_check_low in Edc. destruct Edc as [ies Edc]. apply metadata_check_low in Emc. destruct Emc as [ies' Emc].
    exact (finish_flag _ _ dl ml d d2 sb Hd (low_leaks _ _ d _ _ _ _ Hd Edc) (low_leaks _ _ d _ _ _ _ Hd Emc) Er Ho E). }
  unfold thin_check in H. rewrite Ho in H. destruct (o_metadata_snap o) eqn:O3; cbn [orb andb] in H; [discriminate|].
  destruct (o_mapping_root o); [discriminate|]. destruct (o_details_root o); [discriminate|]. cbn [orb andb] in H. rewrite Er in H. cbv zeta in H.
  destruct (o_sb_only o) eqn:O1; [rewrite (Hs eq_refl) in H; exact (C _ H)|].
  match type of H with match ?x with _ => _ end = _ => destruct x as [m0| |]; try discriminate end.
  match type of H with match ?x with _ => _ end = _ => destruct x as [m1 [u| |]]; try discriminate end.
  match type of H with match ?x with _ => _ end = _ => destruct x as [m2 [[t r]| |]]; try discriminate end.
  match type of H with match ?x with _ => _ end = _ => destruct x as [m3 x0]; try discriminate end.
  assert (M : forall sb0 ts rs, check_mappings nr fuel order o readable writable sb0 t ts rs m3 d = (d', Ok tt) -> read_sb (eng d') 0 = Ok (unflagged sb)).
  { intros sb0 ts rs E. unfold check_mappings in E. rewrite O3 in E.
    repeat match type of E with match ?x with _ => _ end = _ => destruct x; try discriminate end. all: exact (S _ _ _ _ E). }
  destruct x0 as [[a c]| |]; try discriminate; (destruct (o_skip_mappings o); [exact (C _ H)|exact (M _ _ _ H)]).
Qed.
End Check.
