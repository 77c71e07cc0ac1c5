(** cache_check: what it writes. *)
From Verif Require Import Base Csum_Model Csum_Proofs Codec_Model Codec_Spec Codec_Proofs SbCodec_Proofs Props_Codec Pack_Proofs SpaceMap_Model Utils_Model Walker_Model Array_Model
  SmCheck_Model SmCheck_Spec SmCheck_Proofs SmRepair_Proofs Props_SmCheck Repair_Model ThinCheck_Model ThinCheck_Spec ThinCheck_Proofs ThinFix_Proofs CacheCheck_Model CacheCmd_Model.

Lemma before_nul_spec l : bytes l -> Forall (fun c => 0 < c < 256) (before_nul l) /\ (length (before_nul l) <= length l)%nat.
Proof.
  induction l as [|x l IH]; intros H; [split; [constructor|cbn; lia]|]. assert (Hx : is_byte x) by (inversion H; auto). assert (Hl : bytes l) by (inversion H; auto).
  destruct (IH Hl) as [A B]. unfold before_nul in *. unfold is_byte in Hx. cbn [take_while]. destruct (N.eqb_spec x 0) as [->|Hn]; cbn [negb]; [split; [constructor|cbn [length]; lia]|].
  split; [constructor; [lia|exact A]|cbn [length]; lia].
Qed.
Lemma csb_unpack_range data sb rest : bytes data -> cache_sb_unpack data = Ok (sb, rest) -> cache_sb_range sb.
Proof.
  intros Hb H. unfold cache_sb_unpack in H.
  repeat match type of H with
  | bind (p_u32 ?i) _ = _ => let E := fresh "E" in destruct (p_u32 i) as [[? ?]| |] eqn:E; cbn [bind] in H; [|discriminate|discriminate];
      apply (le_bytes 4) in E; [|assumption]; change (256 ^ N.of_nat 4) with (2 ^ 32) in E; destruct E as [? ?]
  | bind (p_u64 ?i) _ = _ => let E := fresh "E" in destruct (p_u64 i) as [[? ?]| |] eqn:E; cbn [bind] in H; [|discriminate|discriminate];
      apply (le_bytes 8) in E; [|assumption]; change (256 ^ N.of_nat 8) with (2 ^ 64) in E; destruct E as [? ?]
  | bind (p_take ?n ?i) _ = _ => let E := fresh "E" in destruct (p_take n i) as [[? ?]| |] eqn:E; cbn [bind] in H; [|discriminate|discriminate];
      apply take_bytes in E; [|assumption]; destruct E as (? & ? & ?)
  end.
  match type of H with bind (if 2 <=? ?v then _ else _) _ = _ => destruct (N.leb_spec 2 v) end.
  1: match type of H with bind (bind (p_u64 ?i) _) _ = _ => let E := fresh "E" in destruct (p_u64 i) as [[? ?]| |] eqn:E; cbn [bind] in H; [|discriminate|discriminate];
      apply (le_bytes 8) in E; [|assumption]; change (256 ^ N.of_nat 8) with (2 ^ 64) in E; destruct E as [? ?] end.
  2: cbn [bind] in H.
  all: apply Ok_inj in H; apply (f_equal fst) in H; cbn [fst] in H; subst sb; unfold cache_sb_range;
  cbn [cs_block cs_version cs_policy_name cs_policy_version cs_policy_hint_size cs_metadata_sm_root cs_mapping_root cs_dirty_root cs_hint_root cs_discard_root cs_discard_block_size cs_discard_nr_blocks cs_data_block_size cs_cache_blocks
    cs_compat_flags cs_compat_ro_flags cs_incompat_flags cs_read_hits cs_read_misses cs_write_hits cs_write_misses];
  (conj; auto;
   [match goal with |- context [before_nul ?l] => destruct (before_nul_spec l ltac:(assumption)) as [? ?]; auto end
   |match goal with |- context [before_nul ?l] => destruct (before_nul_spec l ltac:(assumption)) as [? ?]; unfold nlen; lia end
   |unfold nlen; match goal with H : length ?l = SPACE_MAP_ROOT_SIZE |- N.of_nat (length ?l) = _ => rewrite H end; reflexivity]).
Qed.

Lemma csb_written d loc s d' : cache_sb_range s -> cache_write_superblock d loc s = Ok d' -> bytes (d' 0) /\ nlen (d' 0) = 4096.
Proof.
  unfold cache_sb_range.
  intros (H1 & H2 & (H3 & H3') & (H4 & H4') & H5 & (H6 & H6') & H7 & H8 & H9 & H10 & H11 & H12 & H13 & H14 & H15 & H16 & H17 & H18 & H19 & H20 & H21) E.
  unfold cache_write_superblock in E. destruct (cache_sb_pack s) as [l| |] eqn:El; try discriminate. cbn [bind] in E.
  assert (Hl : bytes l).
  { unfold cache_sb_pack in El. destruct (Nat.ltb_spec 16 (length (cs_policy_name s))); [discriminate|].
    destruct (cs_policy_version s) as [|v0 [|v1 [|v2 vs]]]; try discriminate. apply Ok_inj in El. subst l.
    assert (bytes (match cs_dirty_root s with Some r => le_enc 8 r | None => [] end)) as Hbd by (destruct (cs_dirty_root s); [apply le_enc_bytes|apply bytes_nil]).
    bts. repeat split; auto; try apply le_enc_bytes; try apply bytes_repeat0. eapply Forall_impl; [|exact H3]. unfold is_byte. cbn. intros; lia. }
  inv_bind E. inv_bind E. apply Ok_inj in E. subst d'. unfold upd. rewrite N.eqb_refl.
  assert (Ha : bytes a /\ length a = BLOCK_SIZE).
  { unfold to_block, to_buf, overwrite in E0. rewrite repeat_length in E0. destruct (Nat.leb (length l) BLOCK_SIZE) eqn:Elt; [|discriminate]. apply Nat.leb_le in Elt. apply Ok_inj in E0. subst a. split.
    - apply bytes_app. split; auto. apply bytes_skipn. apply bytes_repeat0.
    - rewrite app_length, skipn_length, repeat_length. lia. }
  apply write_checksum_ok in E1 as (_ & _ & A & B & _); [|tauto]. split; auto. unfold nlen. rewrite A. destruct Ha as [_ ->]. reflexivity.
Qed.

Section Check.
Context (nr : N) (o : cc_opts) (readable writable : N -> bool).
Notation run := (cache_check nr o readable writable).
Notation eng := (dev nr readable).

Lemma read_csb_in d sb : read_csb (eng d) = Ok sb -> cache_read_superblock d 0 = Ok sb /\ (0 <? nr) && readable 0 = true.
Proof. unfold read_csb, dev. destruct (_ && _); [|discriminate]. auto. Qed.
Lemma csb_same d d' : d' 0 = d 0 -> read_csb (eng d') = read_csb (eng d).
Proof. intros E. unfold read_csb, dev. rewrite E. reflexivity. Qed.
Lemma clear_cache_changes d b : b <> 0 -> fst (clear_cache_flag nr o readable writable d) b = d b.
Proof using.
  intros H. unfold clear_cache_flag. destruct (read_csb _) as [sb| |]; auto. destruct (cs_needs_check sb); auto.
  destruct (cache_write_superblock _ _ _) as [d'| |] eqn:E; auto. destruct (can_write _ _ _); auto. cbn [fst].
  unfold cache_write_superblock in E. inv_bind E. inv_bind E. inv_bind E. apply Ok_inj in E. subst d'. unfold upd. destruct (N.eqb_spec b 0); [congruence|auto].
Qed.
(** The cases in which something is done at the end. *)
Lemma run_cases d : fst (run d) = d /\ (snd (run d) = Ok tt -> cc_sb_only o = true \/ cc_skips o = true) \/
  exists sb sm root rest msm n lks, read_csb (eng d) = Ok sb /\ csb_ok sb = true /\ cc_sb_only o = false /\ cc_skips o = false /\ sections nr o (eng d) sb = Ok (sm, []) /\
    smroot_unpack (cs_metadata_sm_root sb) = Ok (root, rest) /\
    check_metadata_space_map nr (eng d) (cc_ignore_non_fatal o) root (as_core sm) = (msm, Ok (n, lks)) /\ run d = finish_cache nr o readable writable msm lks d.
Proof using.
  unfold cache_check. destruct (read_csb _) as [sb| |] eqn:E1; [|left; split; [auto|discriminate]|left; split; [auto|discriminate]].
  destruct (csb_ok sb) eqn:E2; cbn [negb]; [|left; split; [auto|discriminate]].
  destruct (cc_sb_only o) eqn:E3; [left; auto|].
  destruct (sections nr o (eng d) sb) as [[sm [|e es]]| |] eqn:E4; try (left; split; [auto|discriminate]).
  destruct (cc_skips o) eqn:E5; [left; auto|].
  destruct (smroot_unpack _) as [[root rest]| |] eqn:E6; try (left; split; [auto|discriminate]).
  destruct (check_metadata_space_map _ _ _ _ _) as [msm [[n lks]| |]] eqn:E7; try (left; split; [auto|discriminate]).
  right. exists sb, sm, root, rest, msm, n, lks. conj; auto.
Qed.
Lemma cache_ro d : cc_auto_repair o = false -> cc_clear_needs_check o = false -> fst (run d) = d.
Proof using.
  intros H1 H2. destruct (run_cases d) as [[H _]|(sb & sm & root & rest & msm & n & lks & _ & _ & _ & _ & _ & _ & _ & ->)]; auto.
  unfold finish_cache. pose proof (fix_ro nr (leak_opts o) readable writable msm lks d H1 H2) as F. destruct (fix_leaks _ _ _ _ msm lks d) as [d1 r1]. cbn [fst] in F. subst d1.
  destruct r1; auto. unfold cc_repairs. rewrite H1, H2. reflexivity.
Qed.
Lemma cache_skip_ro d : cc_sb_only o = true \/ cc_skips o = true -> fst (run d) = d.
Proof using.
  intros H. destruct (run_cases d) as [[E _]|(sb & sm & root & rest & msm & n & lks & _ & _ & A & B & _)]; auto. destruct H; congruence.
Qed.
Lemma finish_cache_loose msm lks d b : dev_ok d -> leak_bitmaps d lks -> b <> 0 -> loosened (d b) (fst (finish_cache nr o readable writable msm lks d) b).
Proof using.
  intros Hd Hl Hb. unfold finish_cache. destruct (fix_loose nr (leak_opts o) readable writable msm lks d Hd Hl) as [D1 L1].
  destruct (fix_leaks _ _ _ _ msm lks d) as [d1 r1]. cbn [fst] in *. destruct r1; auto. destruct (cc_repairs o); auto. rewrite clear_cache_changes by auto. auto.
Qed.
Lemma cache_loose d b : dev_ok d -> b <> 0 -> loosened (d b) (fst (run d) b).
Proof using.
  intros Hd Hb. destruct (run_cases d) as [[-> _]|(sb & sm & root & rest & msm & n & lks & _ & _ & _ & _ & _ & _ & Em & ->)]; [apply loosened_refl|].
  apply metadata_check_low in Em. destruct Em as [ies Em]. apply finish_cache_loose; auto. eapply low_leaks; eauto.
Qed.
Lemma clear_cache_done d d' sb : dev_ok d -> read_csb (eng d) = Ok sb -> clear_cache_flag nr o readable writable d = (d', Ok tt) -> read_csb (eng d') = Ok (unflag sb).
Proof using.
  intros Hd Er H. unfold clear_cache_flag in H. rewrite Er in H. destruct (read_csb_in d sb Er) as [Er' Hr].
  assert (Hrange : cache_sb_range sb).
  { unfold cache_read_superblock in Er'. destruct (metadata_block_type (d 0)); try discriminate. inv_bind Er'. destruct a as [sb' rest]. apply Ok_inj in Er'. subst sb'. eapply csb_unpack_range; [apply Hd|exact E]. }
  destruct (cs_needs_check sb) eqn:Ef.
  - assert (Hr2 : cache_sb_range (unflag sb)) by (clear - Hrange; destruct sb; exact Hrange).
    destruct (C05_cache_superblock d 0 (unflag sb) Hr2) as (d2 & W1 & W2 & _). rewrite W1 in H. destruct (can_write _ writable 0); [|discriminate].
    assert (d2 = d') by congruence. subst d2. unfold read_csb, dev. rewrite Hr. exact W2.
  - assert (d = d') by congruence. subst d'. rewrite Er. destruct sb. cbn in Ef. subst. reflexivity.
Qed.
Lemma fix_keeps_csb sm lks d sb : read_csb (eng d) = Ok sb -> leak_bitmaps d lks -> fst (fix_leaks nr (leak_opts o) readable writable sm lks d) 0 = d 0.
Proof using.
  intros Er Hl. apply fix_changes. intros Hin. apply Hl in Hin. apply read_csb_in in Er as [Er _]. unfold cache_read_superblock in Er. rewrite Hin in Er. discriminate.
Qed.
Lemma cache_flag d d' sb : dev_ok d -> cc_auto_repair o || cc_clear_needs_check o = true -> cc_sb_only o = false -> cc_skips o = false ->
  read_csb (eng d) = Ok sb -> run d = (d', Ok tt) -> read_csb (eng d') = Ok (unflag sb).
Proof using.
  intros Hd Ho Hs Hk Er H. destruct (run_cases d) as [[_ E]|(sb0 & sm & root & rest & msm & n & lks & _ & _ & _ & _ & _ & _ & Em & E)].
  - rewrite H in E. destruct (E eq_refl); congruence.
  - rewrite E in H. unfold finish_cache in H. apply metadata_check_low in Em. destruct Em as [ies Em]. pose proof (low_leaks _ _ d _ _ _ _ Hd Em) as Hl.
    destruct (fix_loose nr (leak_opts o) readable writable msm lks d Hd Hl) as [D1 L1]. pose proof (fix_keeps_csb msm lks d sb Er Hl) as K1.
    destruct (fix_leaks _ _ _ _ msm lks d) as [d1 r1]. cbn [fst] in *. destruct r1; try discriminate.
    unfold cc_repairs in H. rewrite Ho in H. eapply clear_cache_done; [exact D1| |exact H]. rewrite (csb_same d d1) by exact K1. exact Er.
Qed.
End Check.
