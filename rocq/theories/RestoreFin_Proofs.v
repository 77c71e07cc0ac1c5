(** Finalizing: the trees of devices, the space maps and the superblock. *)
From Coq Require Import Permutation.
From Verif Require Import Base Csum_Model Codec_Model Codec_Spec Codec_Proofs SbCodec_Proofs SpaceMap_Model SpaceMap_Spec SpaceMap_Proofs Batcher_Model Batcher_Proofs IoMany_Proofs
  Builder_Model Builder_Spec Builder_Proofs Utils_Proofs NodeBuilder_Proofs BtreeBuild_Proofs Session_Model Session_Spec Session_Proofs ThinOut_Model Walker_Model Array_Proofs SmWrite_Model
  SmWrite_Spec SmWrite_Proofs SmMetaTop_Proofs Restore_Model
  RestoreSafe_Proofs Props_SmWrite ContigSafe_Proofs RestoreDev_Proofs RestoreDoc_Spec RestoreRun_Proofs RestoreDoc_Proofs.
From Verif Require Pack_Proofs.

Lemma occ_perm x a b : Permutation a b -> occ x a = occ x b.
Proof. induction 1; cbn [occ]; lia. Qed.
Lemma concat_perm {A} (a b : list (list A)) : Permutation a b -> Permutation (concat a) (concat b).
Proof. induction 1; cbn [concat]; auto.
  - apply Permutation_app_head; auto.
  - rewrite !app_assoc. apply Permutation_app_tail, Permutation_app_comm.
  - etransitivity; eauto.
Qed.

Lemma app_inj_len {A} (a b a' b' : list A) : length a = length a' -> a ++ b = a' ++ b' -> a = a' /\ b = b'.
Proof.
  revert a'. induction a as [|x a IH]; intros [|y a'] H E; cbn in *; try lia; auto. inversion E; subst.
  destruct (IH a'); auto; try lia. subst; auto.
Qed.

Section Fin.
Variables n max nd mx : N.
Hypothesis Hn : n < 2 ^ 64.
Hypothesis Hnd : nd < 2 ^ 64.
Notation rep := (mapping_rep nd mx (fun _ => 0)).
Notation bad := (mapping_bad nd mx (fun _ => 0)).
Notation SIb w0 := (SI n max bt_codec rep w0 []).

Lemma RL_concat (P : list run_t) p : Forall (fun q : run_t => length (fst (snd q)) = length (snd (snd q))) P ->
  (In p (RL (concat (runs_of P)) (concat (rks_of P))) <-> exists q, In q P /\ In p (RL (fst (snd q)) (snd (snd q)))).
Proof using Hn Hnd.
  induction 1 as [|q P Hq HP IH]; unfold runs_of, rks_of in *; cbn [map concat In].
  - split; [intros []|intros (q & [] & _)].
  - unfold RL in *. rewrite combine_app_eq by auto. rewrite map_app, in_app_iff, IH. split.
    + intros [H|(q' & A & B)]; eauto.
    + intros (q' & [<-|A] & B); eauto.
Qed.
Lemma nodes_concat (P : list run_t) (R : summary -> list (N * block_time) -> Prop) :
  Forall (fun q : run_t => length (fst (snd q)) = length (snd (snd q))) P ->
  (Forall2 R (concat (runs_of P)) (concat (rks_of P)) <-> Forall (fun q : run_t => Forall2 R (fst (snd q)) (snd (snd q))) P).
Proof using Hn Hnd.
  induction 1 as [|q P Hq HP IH]; unfold runs_of, rks_of in *; cbn [map concat].
  - split; constructor.
  - split.
    + intros H. apply Forall2_app_inv_l in H as (l1 & l2 & H1 & H2 & E).
      assert (length l1 = length (snd (snd q))) by (rewrite <- Hq; symmetry; eapply Forall2_length; eauto).
      destruct (app_inj_len _ _ _ _ (eq_sym H) E) as [<- <-].
      constructor; auto. apply IH; auto.
    + intros H. inversion H; subst. apply Forall2_app; auto. apply IH; auto.
Qed.
Lemma SI_perm w0 P P' roots ts w rc LS : Permutation P P' ->
  Forall (fun q : run_t => length (fst (snd q)) = length (snd (snd q))) P ->
  SIb w0 (concat (runs_of P)) (concat (rks_of P)) roots ts w rc LS -> SIb w0 (concat (runs_of P')) (concat (rks_of P')) roots ts w rc LS.
Proof using Hn Hnd.
  intros Hp Hl S.
  assert (Hl' : Forall (fun q : run_t => length (fst (snd q)) = length (snd (snd q))) P').
  { rewrite Forall_forall in *. intros q Hq. apply Hl. eapply Permutation_in; [symmetry; exact Hp|auto]. }
  assert (Hr : Permutation (concat (runs_of P)) (concat (runs_of P'))) by (apply concat_perm, Permutation_map; auto).
  destruct S. constructor; auto.
  - rewrite nodes_concat in * by auto. rewrite Forall_forall in *. intros q Hq. apply si_nodes. eapply Permutation_in; [symmetry; exact Hp|auto].
  - rewrite Forall_forall in *. intros q Hq. apply si_shared. eapply Permutation_in; [symmetry; exact Hr|auto].
  - eapply Permutation_NoDup; [apply Permutation_map; exact Hr|auto].
  - intros s Hs. apply si_fresh. eapply Permutation_in; [symmetry; exact Hr|auto].
  - intros x. rewrite si_counts. rewrite (occ_perm x _ _ (Permutation_map su_block Hr)). auto.
  - intros p. rewrite si_in. rewrite !RL_concat by auto. split; (intros [(q & A & B)|H]; [left; exists q; split; auto|auto]);
      (eapply Permutation_in; [|exact A]); auto. symmetry; auto.
Qed.

(** Other blocks were taken meanwhile. *)
Lemma SI_rebase w0 ns kvss roots ts w rc LS w1 l : SIb w0 ns kvss roots ts w rc LS -> grew n max w w1 l ->
  exists w0', SIb w0' ns kvss roots ts w1 rc LS /\ (forall x, cnt w0' x = cnt w0 x + occ x l) /\ (forall x, wb_view w0' x = wb_view w1 x).
Proof using Hn Hnd.
  intros S G. assert (Hm4 : 4 <= calc_max_entries bt_codec) by (rewrite m_bt; lia).
  destruct (keep n max Hn bt_codec rep eq_refl Hm4 w0 [] _ _ _ _ _ _ _ w1 S (gr_frame _ _ _ _ _ G)) as (K1 & K2 & K3 & K4 & K5).
  set (s := wb_sm w1). set (w0' := set_sm w1 (mksm (sm_nr s) (sm_max s) (sm_nalloc s) (sm_begin s) (fun x => cnt w0 x + occ x l))).
  assert (Hv : forall x, wb_view w0' x = wb_view w1 x) by (intros; apply set_sm_view).
  assert (Hc : forall x, cnt w0' x = cnt w0 x + occ x l) by (intros; reflexivity).
  assert (Hfree : forall x, 0 < cnt w x -> occ x l = 0).
  { intros x Hx. apply occ_not_in. intros Hi. apply (gr_free _ _ _ _ _ G) in Hi. lia. }
  exists w0'. conj; auto. pose proof (fun p => live n max Hn bt_codec rep eq_refl Hm4 w0 [] _ _ _ _ _ _ _ p S) as Hlive. destruct S. constructor; auto.
  - apply G.
  - intros x Hs. rewrite Hc, si_fresh by auto. apply Hfree. rewrite si_counts. apply (in_map su_block) in Hs. apply occ_in in Hs. lia.
  - intros x. rewrite (gr_cnt _ _ _ _ _ G), si_counts, Hc. lia.
  - intros p. rewrite si_in, K3. reflexivity.
  - intros p Hp. rewrite Hc, si_alone by auto. apply Hfree. apply Hlive. exact Hp.
  - intros x Hx. rewrite K4 in Hx. pose proof (si_inner x Hx) as H1. rewrite (gr_cnt _ _ _ _ _ G), H1, Hfree; lia.
Qed.

Lemma foot_fresh w0 ns kvss roots ts w rc LS f x : SIb w0 ns kvss roots ts w rc LS -> In f (map snd ts) -> In x f -> cnt w0 x = 0.
Proof using Hn Hnd.
  intros S Hf Hx. assert (Hpos : 0 < occs x (map snd ts)) by (apply in_occs; eauto).
  pose proof (si_counts _ _ _ _ _ _ _ _ _ _ _ _ _ S x) as Hc.
  assert (exists root t, In (root, t) (combine roots ts) /\ snd t = f /\ tree_of bt_codec (wb_view w) root t) as (root & t & H1 & <- & H2).
  { pose proof (si_trees _ _ _ _ _ _ _ _ _ _ _ _ _ S) as HF. clear - Hf HF. induction HF as [|r t roots ts Ht HF IH]; [destruct Hf|].
    cbn [combine In map] in *. destruct Hf as [<-|Hf]; [exists r, t; auto|]. destruct (IH Hf) as (r' & t' & A & B & C). exists r', t'. auto. }
  destruct (occ_inner _ _ _ _ _ _ _ x H2) as (_ & _ & K). destruct (K Hx) as [J|(vs & J)].
  - assert (In x (IL bt_codec (wb_view w) roots ts)) as Hi by (unfold IL; apply in_flat_map; exists (root, t); auto).
    apply (si_inner _ _ _ _ _ _ _ _ _ _ _ _ _ S) in Hi. lia.
  - apply (si_alone _ _ _ _ _ _ _ _ _ _ _ _ _ S (x, vs)). apply (si_in _ _ _ _ _ _ _ _ _ _ _ _ _ S). right.
    unfold TL. apply in_flat_map. exists (root, t). auto.
Qed.

Lemma pack_root_reads r : smroot_range r -> exists p, pack_root r SPACE_MAP_ROOT_SIZE = Ok p /\ bytes p /\ nlen p = 128 /\
  exists rest, smroot_unpack p = Ok (r, rest).
Proof using Hn Hnd.
  intros Hr. destruct (ll_size _ _ smroot_lossless r Hr) as [Hl Hb]. pose proof (ll_round _ _ smroot_lossless r) as Hu.
  unfold pack_root, to_buf, overwrite. cbn [csize cpack cunpack smroot_codec] in *.
  rewrite repeat_length, Hl. change (Nat.leb 32 SPACE_MAP_ROOT_SIZE) with true. cbn iota.
  exists (smroot_pack r ++ skipn 32 (repeat 0 SPACE_MAP_ROOT_SIZE)). conj; auto.
  - unfold bytes in *. apply Forall_app. split; auto. change (skipn 32 (repeat 0 SPACE_MAP_ROOT_SIZE)) with (repeat 0 96).
    apply Forall_forall. intros x Hx. apply repeat_spec in Hx. rewrite Hx. reflexivity.
  - eexists. apply Hu. auto.
Qed.

Fixpoint zip3 (done : list device) (roots : list N) (ts : list (@tinfo block_time)) : list dtree :=
  match done, roots, ts with
  | d :: ds, r :: rs, t :: ts => mkdt d r (fst (fst t)) (snd t) :: zip3 ds rs ts
  | _, _, _ => []
  end.
Lemma zip3_entries : forall done roots ts, length roots = length done -> length ts = length done ->
  entries_for done roots = map (fun t => dev_entry (dt_dev t) (dt_root t)) (zip3 done roots ts) /\ map dt_dev (zip3 done roots ts) = done.
Proof using Hn Hnd.
  unfold entries_for. induction done as [|d ds IH]; intros [|r rs] [|t ts] H1 H2; cbn in H1, H2; try lia; auto.
  cbn [zip3 combine map fst snd dt_dev dt_root]. destruct (IH rs ts) as [A B]; try lia. split; f_equal; auto.
Qed.
Lemma zip3_trees D : forall done roots ts, map (fun t : @tinfo block_time => snd (fst t)) ts = map dv_maps done -> Forall2 (tree_of bt_codec D) roots ts ->
  Forall (fun t => tree bt_codec D true (dt_depth t) (dt_root t) (dv_maps (dt_dev t)) (dt_foot t)) (zip3 done roots ts) /\
  (forall x, occ x (flat_map dt_foot (zip3 done roots ts)) = occs x (map snd ts)) /\
  TL bt_codec D roots ts = flat_map (fun t => leaves bt_codec D (dt_depth t) (dt_root t)) (zip3 done roots ts).
Proof using Hn Hnd.
  induction done as [|d ds IH]; intros roots ts E HF.
  - destruct ts; [|discriminate]. inversion HF; subst. cbn. conj; auto.
  - destruct ts as [|t ts]; [discriminate|]. cbn [map] in E. injection E as E1 E2. inversion HF as [|r ? rs ? Ht HF']; subst.
    destruct (IH rs ts E2 HF') as (A & B & C). cbn [zip3 flat_map map occs]. conj.
    + constructor; auto. cbn [dt_depth dt_root dt_dev dt_foot]. rewrite <- E1. exact Ht.
    + intros x. rewrite occ_app, B. reflexivity.
    + unfold TL in *. cbn [combine flat_map fst snd dt_depth dt_root]. f_equal. exact C.
Qed.
Lemma flat_perm {A B} (f : A -> list B) a b : Permutation a b -> Permutation (flat_map f a) (flat_map f b).
Proof using Hn Hnd. intros H. rewrite !flat_map_concat_map. apply concat_perm, Permutation_map, H. Qed.

Lemma wp_on_w {A} (m : st wb A) s Q (E : rstate -> Prop) :
  wp m (r_w s) (fun w a => Q (set_w w s) a) (fun w => E (set_w w s)) -> wp (on_w m) s Q E.
Proof using. unfold wp, on_w. destruct (m (r_w s)) as [w [a| |]]; auto. Qed.
Lemma root_in_foot {V} (c : codec V) d r dp b kvs foot : tree c d r dp b kvs foot -> In b foot.
Proof using Hn Hnd. destruct dp; cbn [tree]; [intros (h & ks & vs & H); decompose [and] H; subst; left; auto|intros (h & ch & sb & H); decompose [and] H; subst; left; auto]. Qed.
Lemma write_sb_spec sb w : thin_sb_range sb -> wb_good w 0 = true -> exists w', wb_write_superblock sb w = (w', Ok tt) /\
  thin_read_superblock (wb_disk w') 0 = Ok sb /\ forall x, x <> 0 -> wb_disk w' x = wb_disk w x.
Proof using Hn Hnd.
  intros Hr Hg. destruct (thin_roundtrip (wb_disk w) 0 sb Hr) as (d' & E & R & O & _).
  unfold thin_write_superblock in E. destruct (to_block (thin_sb_pack sb)) as [b| |] eqn:Eb; [|discriminate E|discriminate E].
  cbn [bind] in E. destruct (write_checksum b THIN_SUPERBLOCK) as [data| |] eqn:Ed; [|discriminate E|discriminate E].
  cbn [bind] in E. apply Pack_Proofs.Ok_inj in E.
  unfold wb_write_superblock, bindst, lift. rewrite Eb, Ed, Hg.
  eexists. split; [reflexivity|].
  unfold wb_disk. cbn [wb_base wb_good wb_log]. rewrite put_log_app. unfold put_log at 1 3. cbn [fold_left b_loc]. rewrite Hg.
  change (put_block (put_log (wb_base w) (wb_good w) (wb_log w)) (mkblock 0 data)) with (upd (wb_disk w) 0 data). rewrite E.
  split; [exact R|]. intros x Hx. apply O. exact Hx.
Qed.
Lemma range_perm_devs done roots dv : length roots = length done -> Permutation (entries_for done roots) dv ->
  Forall (fun d => dv_id d < 2 ^ 64 /\ dd_range (dv_details d)) done -> Forall (fun r => r < n) roots ->
  Forall (fun p : N * (device_detail * N) => fst p < 2 ^ 64 /\ dd_range (fst (snd p)) /\ snd (snd p) < 2 ^ 64) dv.
Proof using Hn Hnd.
  intros Hl Hp H1 H2. rewrite Forall_forall in *. intros p Hi. assert (Hi' : In p (entries_for done roots)) by (eapply Permutation_in; [symmetry; exact Hp|exact Hi]).
  unfold entries_for in Hi'. apply in_map_iff in Hi' as ([d r] & <- & Hc). pose proof (in_combine_l _ _ _ _ Hc) as A. pose proof (in_combine_r _ _ _ _ Hc) as B.
  specialize (H1 d A). specialize (H2 r B). cbn [fst snd dev_entry]. conj; try tauto. lia.
Qed.

Lemma filter_short {A} (f : A -> bool) l : (length (filter f l) <= length l)%nat.
Proof using Hn Hnd. induction l as [|x l IH]; [auto|]. cbn [filter length]. destruct (f x); cbn [length]; lia. Qed.
Lemma nr_used_le m c : nr_used m c <= m.
Proof using Hn Hnd. unfold nr_used, nlen. pose proof (filter_short (fun b => negb (c b =? 0)) (range 0 m)) as H. rewrite range_length in H. lia. Qed.

Lemma finalize_wp o w0 src P done roots ts w subs dv rc LS all :
  RI n max nd mx w0 P done roots ts w subs dv rc LS ->
  (forall x, cnt w0 x = if x =? 0 then 1 else 0) -> 0 < n -> n <= 255 * 16320 -> max < 2 ^ 32 -> mx < 2 ^ 32 ->
  is_nr_data_blocks src = nd -> is_time src < 2 ^ 32 -> ov_nr_data_blocks o = None ->
  let src' := overridden (ov_transaction_id o) (ov_data_block_size o) src in is_transaction src' < 2 ^ 64 -> is_data_block_size src' < 2 ^ 32 ->
  wp (finalize o) (between w subs (Some src) dv rc)
     (fun s _ => restored (wb_disk (r_w s)) n src' done /\ wb_queue (r_w s) = []) (fun s => build_failed n max bad all (r_w s)).
Proof using Hn Hnd.
  intros HI Hc0 Hn0 Hn255 Hmax Hmx Hsrc Htime Hov src' Htrans Hbs. assert (Hm4 : 4 <= calc_max_entries bt_codec) by (rewrite m_bt; lia).
  pose proof (mapping_ok nd mx (fun _ => 0) Hnd) as Hrc. pose proof (mapping_undo nd mx (fun _ => 0)) as Hundo.
  pose proof (ri_si _ _ _ _ _ _ _ _ _ _ _ _ _ _ HI) as S.
  unfold finalize. eapply wp_step; [reflexivity|]. eapply wp_step; [reflexivity|]. cbn [r_sb between]. eapply wp_step; [reflexivity|].
  cbn [r_devs set_sb between]. apply wp_bind, wp_on_w. cbn [r_w set_sb between].
  assert (HJ0 : J n max [] w) by (split; [apply (ri_ci _ _ _ _ _ _ _ _ _ _ _ _ _ _ HI)|intros ? []]).
  (* device details *)
  eapply wp_mono; [eapply wp_safe; [|apply (j_device_details n max Hn [])|exact HJ0]| |intros w' Hf; left; exact Hf].
  { apply (device_details_wp n max Hn w dv (si_env _ _ _ _ _ _ _ _ _ _ _ _ _ S)); [apply (ri_sorted _ _ _ _ _ _ _ _ _ _ _ _ _ _ HI)|].
    eapply range_perm_devs; apply HI. }
  intros w1 [droot mroot] [(dpd & fd & dpm & fm & G1 & Td & Tm & Hdr & Hmr) HJ1]. cbn [fst snd] in *.
  (* release *)
  assert (Hlens : Forall (fun q : run_t => length (fst (snd q)) = length (snd (snd q))) P).
  { pose proof (ri_runs _ _ _ _ _ _ _ _ _ _ _ _ _ _ HI) as Hr. unfold runs_of, rks_of, runs_ok in Hr. clear - Hr.
    induction P as [|q P IH]; constructor; inversion Hr; subst; [tauto|auto]. }
  destruct (Permutation_map_inv _ _ (Permutation_sym (ri_subs _ _ _ _ _ _ _ _ _ _ _ _ _ _ HI))) as (P' & Esub & HPP).
  pose proof (SI_perm w0 P P' roots ts w rc LS HPP Hlens S) as S'.
  destruct (SI_rebase w0 _ _ roots ts w rc LS w1 (fd ++ fm) S' G1) as (w0' & S1 & Cw0' & Vw0').
  assert (Hlens' : Forall2 (fun run (kvss : list (list (N * block_time))) => length run = length kvss) (runs_of P') (rks_of P')).
  { assert (Forall (fun q : run_t => length (fst (snd q)) = length (snd (snd q))) P') as H'.
    { rewrite Forall_forall in *. intros q Hq. apply Hlens. eapply Permutation_in; [symmetry; exact HPP|auto]. }
    clear - H'. unfold runs_of, rks_of. induction H'; cbn [map]; constructor; auto. }
  destruct (release_runs_spec n max Hn bt_codec bt_range mapping_inc mapping_dec rep bad eq_refl Hm4 Hrc Hundo w0' [] (runs_of P') (rks_of P') roots ts w1 rc LS Hlens' S1)
    as (w2 & rc2 & LS2 & E2 & S2).
  assert (HJ2 : J n max [] w2).
  { pose proof (j_release_runs n max Hn [] bt_codec mapping_dec (runs_of P') (w1, rc) HJ1) as H. rewrite E2 in H. apply H. }
  assert (Hruns : map snd subs = runs_of P').
  { rewrite Esub. unfold runs_of, subs_of. rewrite map_map. reflexivity. }
  eapply wp_step.
  { unfold release_subtrees. cbn [r_dsm r_subs r_w set_w set_sb between]. rewrite Hruns, E2. reflexivity. }
  eapply wp_step; [reflexivity|]. cbn [r_dsm set_dsm].
  (* data space map *)
  pose proof (si_rep _ _ _ _ _ _ _ _ _ _ _ _ _ S2) as (Irc & Frc & Crc). rewrite app_nil_r in Frc, Crc.
  apply wp_bind, wp_on_w. cbn [r_w set_dsm set_w].
  eapply wp_mono; [eapply wp_safe; [|apply (j_write_disk_sm n max Hn [] rc2)|exact HJ2]| |intros w' Hf; left; exact Hf].
  { apply (write_disk_sm_wp n max Hn rc2).
    - rewrite (inv_nr _ _ _ Irc). exact Hnd.
    - intros b Hb. rewrite (inv_nr _ _ _ Irc) in Hb. pose proof (inv_le _ _ _ Irc b Hb). lia.
    - apply (si_env _ _ _ _ _ _ _ _ _ _ _ _ _ S2). }
  intros w3 dr [(ies & dpo & fo & dpi & fi & Q3 & L3 & I3 & G3 & To & Ti & R3a & R3b & R3c & R3d) HJ3].
  assert (Hdr_range : smroot_range dr).
  { unfold smroot_range. rewrite R3a, R3b, (inv_nr _ _ _ Irc). conj; auto; try lia.
    rewrite (inv_nalloc _ _ _ Irc). pose proof (nr_used_le nd (sm_counts rc2)). lia. }
  destruct (pack_root_reads dr Hdr_range) as (dp & Edp & Bdp & Ldp & rdp & Udp).
  eapply wp_step; [unfold lift; rewrite Edp; reflexivity|].
  (* metadata space map *)
  set (l3 := map ie_blocknr ies ++ fo ++ fi) in *.
  assert (C2 : forall x, cnt w2 x = (if x =? 0 then 1 else 0) + occ x (fd ++ fm) + occs x (map snd ts)).
  { intros x. rewrite (si_counts _ _ _ _ _ _ _ _ _ _ _ _ _ S2), Cw0', Hc0. cbn [map occ]. lia. }
  destruct HJ3 as [(Ism3 & k & (Hk & Hal & Hout) & _) _].
  assert (H30 : 0 < cnt w3 0) by (rewrite (gr_cnt _ _ _ _ _ G3), C2; cbn [N.eqb]; lia).
  apply wp_bind, wp_on_w. cbn [r_w set_dsm set_w].
  eapply wp_mono; [apply (write_metadata_sm_wp n max Hn Hmax w3 k (gr_env _ _ _ _ _ G3) Hn255 H30 Hk Hn0 Hal Hout)| |intros w' Hf; left; exact Hf].
  intros w4 mr (ies4 & dp4 & f4 & Q4 & X4 & L4 & I4 & G4 & T4 & R4a & R4b).
  set (l4 := map ie_blocknr ies4 ++ f4 ++ [sr_bitmap_root mr]) in *.
  assert (Hlt4 : forall x, In x l4 -> x < n /\ cnt w3 x = 0) by (intros x Hx; apply (gr_free _ _ _ _ _ G4) in Hx; tauto).
  assert (Hmr_range : smroot_range mr).
  { unfold smroot_range. rewrite R4a, R4b. conj; auto; try lia.
    - rewrite (inv_nalloc n max) by apply (wi_sm _ _ _ (e_inv _ _ _ (gr_env _ _ _ _ _ G4))). pose proof (nr_used_le n (sm_counts (wb_sm w4))). lia.
    - assert (sr_bitmap_root mr < n); [|lia]. apply Hlt4. unfold l4. rewrite !in_app_iff. right; right; left; auto.
    - assert (sr_ref_count_root mr < n); [|lia]. apply Hlt4. unfold l4. rewrite !in_app_iff. right; left. eapply root_in_foot; exact T4. }
  destruct (pack_root_reads mr Hmr_range) as (mp & Emp & Bmp & Lmp & rmp & Ump).
  eapply wp_step; [unfold lift; rewrite Emp; reflexivity|].
  eapply wp_step; [unfold lift, override_sb; rewrite Hov; cbn [bind ts_needs_check ts_block ts_version ts_time ts_transaction_id ts_metadata_snap ts_data_sm_root ts_metadata_sm_root ts_mapping_root ts_details_root ts_data_block_size ts_nr_metadata_blocks]; reflexivity|].
  change (match ov_transaction_id o with Some t => N.max t (is_transaction src) | None => is_transaction src end) with (is_transaction src').
  change (match ov_data_block_size o with Some b => b | None => is_data_block_size src end) with (is_data_block_size src').
  set (sb := mktsb _ _ _ _ _ _ _ _ _ _ _ _).
  assert (Hsb : thin_sb_range sb).
  { unfold thin_sb_range, sb. cbn [ts_block ts_version ts_time ts_transaction_id ts_metadata_snap ts_data_sm_root ts_metadata_sm_root ts_mapping_root ts_details_root ts_data_block_size ts_nr_metadata_blocks].
    conj; auto; try lia. }
  destruct (write_sb_spec sb w4 Hsb) as (w5 & E5 & Rsb & O5).
  { apply (e_good _ _ _ (gr_env _ _ _ _ _ G4)). lia. }
  eapply wp_step.
  { unfold on_w. cbn [r_w set_dsm set_w]. rewrite E5. reflexivity. }
  unfold wp, modify. cbn [r_w set_sec set_w set_dsm].
  assert (Q5 : wb_queue w5 = []).
  { clear - E5 Q4. unfold wb_write_superblock, bindst, lift in E5. destruct (to_block _); [|discriminate E5|discriminate E5].
    destruct (write_checksum _ _); [|discriminate E5|discriminate E5]. destruct (wb_good w4 0); [|discriminate E5]. injection E5 as <-. exact Q4. }
  split; [|exact Q5].
  set (D := wb_disk w5) in *.
  assert (D4 : forall x, x <> 0 -> D x = wb_view w4 x) by (intros x Hx; rewrite (O5 x Hx); apply (empty_disk n max); [apply G4|auto]).
  assert (D3 : forall x, x <> 0 -> 0 < cnt w3 x -> D x = wb_view w3 x) by (intros x Hx Hp; rewrite D4 by auto; apply (gr_frame _ _ _ _ _ G4); auto).
  assert (C3 : forall x, cnt w3 x = cnt w2 x + occ x l3) by apply G3.
  assert (D2 : forall x, x <> 0 -> 0 < cnt w2 x -> D x = wb_view w2 x).
  { intros x Hx Hp. rewrite D3; [|auto|rewrite C3; lia]. apply (gr_frame _ _ _ _ _ G3); auto. }
  assert (C20 : 0 < cnt w2 0) by (rewrite C2; cbn [N.eqb]; lia).
  assert (D1 : forall x, In x (fd ++ fm) -> D x = wb_view w1 x).
  { intros x Hx. pose proof (gr_free _ _ _ _ _ G1 x Hx) as [Hz _].
    assert (x <> 0). { intros ->. rewrite (si_counts _ _ _ _ _ _ _ _ _ _ _ _ _ S), Hc0 in Hz. cbn [N.eqb] in Hz. lia. }
    apply occ_in in Hx. rewrite D2; [|auto|rewrite C2; lia]. rewrite (si_frame _ _ _ _ _ _ _ _ _ _ _ _ _ S2) by (rewrite Cw0'; lia). apply Vw0'. }
  assert (Hl3 : forall x, In x l3 -> x <> 0 /\ cnt w2 x = 0).
  { intros x Hx. apply (gr_free _ _ _ _ _ G3) in Hx as [Hx _]. split; auto. intros ->. lia. }
  assert (Hl4 : forall x, In x l4 -> x <> 0 /\ cnt w3 x = 0).
  { intros x Hx. apply Hlt4 in Hx as [_ Hx]. split; auto. intros ->. lia. }
  assert (DT : forall x f, In f (map snd ts) -> In x f -> D x = wb_view w2 x).
  { intros x f Hf Hx. pose proof (foot_fresh w0' [] [] roots ts w2 rc2 LS2 f x S2 Hf Hx) as Hz. rewrite Cw0', Hc0 in Hz.
    apply D2; [intros ->; cbn [N.eqb] in Hz; lia|]. rewrite C2. assert (0 < occs x (map snd ts)) by (apply in_occs; eauto). lia. }
  destruct (TL_frame bt_codec (wb_view w2) D roots ts (si_trees _ _ _ _ _ _ _ _ _ _ _ _ _ S2) DT) as [TD TLD].
  destruct (zip3_trees D done roots ts (ri_ts _ _ _ _ _ _ _ _ _ _ _ _ _ _ HI) TD) as (Z1 & Z2 & Z3).
  assert (Hlts : length ts = length done).
  { rewrite <- (map_length (fun t : @tinfo block_time => snd (fst t)) ts), (ri_ts _ _ _ _ _ _ _ _ _ _ _ _ _ _ HI). apply map_length. }
  destruct (zip3_entries done roots ts (ri_len _ _ _ _ _ _ _ _ _ _ _ _ _ _ HI) Hlts) as [Z4 Z5].
  pose proof (ri_devs _ _ _ _ _ _ _ _ _ _ _ _ _ _ HI) as Hpd. rewrite Z4 in Hpd.
  destruct (Permutation_map_inv _ _ (Permutation_sym Hpd)) as (trees & Edv & Hpt).
  assert (Zo : forall x, occ x (flat_map dt_foot trees) = occs x (map snd ts)).
  { intros x. rewrite <- Z2. symmetry. apply occ_perm, flat_perm, Hpt. }
  exists sb, trees, fd, fm. conj.
  - exact Rsb.
  - unfold devices_on_disk, sb. cbn [ts_needs_check ts_version ts_time ts_transaction_id ts_metadata_snap ts_data_block_size ts_details_root ts_mapping_root].
    conj; auto.
    + rewrite <- Z5. apply Permutation_map. symmetry. exact Hpt.
    + pose proof (ri_sorted _ _ _ _ _ _ _ _ _ _ _ _ _ _ HI) as Hs. rewrite Edv, map_map in Hs. exact Hs.
    + exists dpd. rewrite Edv in Td. unfold ent1 in Td. rewrite map_map in Td. eapply tree_frame; [|exact Td]. intros x Hx. apply D1. apply in_or_app; auto.
    + exists dpm. rewrite Edv in Tm. unfold ent2 in Tm. rewrite map_map in Tm. eapply tree_frame; [|exact Tm]. intros x Hx. apply D1. apply in_or_app; auto.
    + rewrite Forall_forall in *. intros t Ht. apply Z1. eapply Permutation_in; [symmetry; exact Hpt|exact Ht].
  - exists dr, rdp, LS2, (Datatypes.S (Nat.max dpo dpi)). unfold sb. cbn [ts_data_sm_root]. change (is_nr_data_blocks src') with (is_nr_data_blocks src). rewrite Hsrc. conj.
    + exact Udp.
    + rewrite R3a. apply (inv_nr _ _ _ Irc).
    + split; [apply (si_nodup _ _ _ _ _ _ _ _ _ _ _ _ _ S2)|]. intros p. rewrite (si_in _ _ _ _ _ _ _ _ _ _ _ _ _ S2 p).
      cbn [RL combine map In]. rewrite <- TLD, Z3, in_flat_map. split.
      * intros [[]|(t & Ht & Hp)]. exists (dt_root t), (dt_depth t). split; auto. apply in_map_iff. exists t. split; auto. eapply Permutation_in; eauto.
      * intros (root & depth & Hi & Hp). apply in_map_iff in Hi as (t & E & Ht). injection E as <- <-. right. exists t. split; auto.
        eapply Permutation_in; [symmetry; exact Hpt|exact Ht].
    + rewrite R3b, (inv_nalloc _ _ _ Irc). unfold nr_used. f_equal. apply filter_ext. intros x. rewrite Crc, N.add_0_l. reflexivity.
    + intros fuel b Hf.
      pose proof (disk_count_reads D (sm_counts rc2) dr ies dpo dpi fo fi fuel b) as HD. rewrite R3a, (inv_nr _ _ _ Irc) in HD.
      rewrite (inv_nr _ _ _ Irc) in L3, To. rewrite HD; auto; try lia.
      * destruct (nd <=? b); auto. rewrite Crc. reflexivity.
      * intros i ie Hi. destruct (I3 i ie Hi) as [A _]. rewrite N.add_0_l, (inv_nr _ _ _ Irc) in A. eapply describes_ext; [|exact A].
        assert (Hin : In (ie_blocknr ie) l3) by (unfold l3; apply in_or_app; left; apply in_map; eapply nth_error_In; eauto).
        apply D3; [apply Hl3; auto|]. rewrite C3. apply occ_in in Hin. lia.
      * eapply tree_frame; [|exact Ti]. intros x Hx. assert (Hin : In x l3) by (unfold l3; rewrite !in_app_iff; auto).
        apply D3; [apply Hl3; auto|]. rewrite C3. apply occ_in in Hin. lia.
      * eapply tree_frame; [|exact To]. intros x Hx. assert (Hin : In x l3) by (unfold l3; rewrite !in_app_iff; auto).
        apply D3; [apply Hl3; auto|]. rewrite C3. apply occ_in in Hin. lia.
  - exists mr, rmp, (mkmi (sr_bitmap_root mr) ies4), (Datatypes.S dp4), (l3 ++ l4). unfold sb. cbn [ts_metadata_sm_root ts_nr_metadata_blocks]. conj.
    + exact Ump.
    + exact R4a.
    + exact R4a.
    + rewrite D4 by (apply Hl4; unfold l4; rewrite !in_app_iff; right; right; left; auto). exact X4.
    + apply occ_NoDup. intros x. change (0 :: fd ++ fm ++ l3 ++ l4) with ([0] ++ fd ++ fm ++ l3 ++ l4). rewrite !occ_app. rewrite <- (occ_app x fd fm) || idtac.
      pose proof (nodup_occ _ (gr_nodup _ _ _ _ _ G1) x) as N1. pose proof (nodup_occ _ (gr_nodup _ _ _ _ _ G3) x) as N3. pose proof (nodup_occ _ (gr_nodup _ _ _ _ _ G4) x) as N4.
      rewrite occ_app in N1. pose proof (C2 x) as C2x. rewrite occ_app in C2x. pose proof (C3 x) as C3x. cbn [occ].
      assert (A4 : 0 < occ x l4 -> cnt w3 x = 0) by (intros H; apply occ_in in H; apply Hl4 in H; tauto).
      assert (A3 : 0 < occ x l3 -> cnt w2 x = 0) by (intros H; apply occ_in in H; apply Hl3 in H; tauto).
      assert (A1 : 0 < occ x (fd ++ fm) -> x <> 0).
      { intros H. apply occ_in in H. pose proof (gr_free _ _ _ _ _ G1 x H) as [Hz _]. intros ->.
        rewrite (si_counts _ _ _ _ _ _ _ _ _ _ _ _ _ S), Hc0 in Hz. cbn [N.eqb] in Hz. lia. }
      rewrite occ_app in A1. destruct (N.eqb_spec x 0); lia.
    + intros x Hx Hx'. apply occ_in in Hx. rewrite Zo in Hx. apply in_occs in Hx as (f & Hf & Hxf).
      pose proof (foot_fresh w0' [] [] roots ts w2 rc2 LS2 f x S2 Hf Hxf) as Hz. rewrite Cw0', Hc0 in Hz.
      assert (0 < occs x (map snd ts)) as Hpos by (apply in_occs; eauto).
      assert (0 < cnt w2 x) by (rewrite C2; lia).
      destruct Hx' as [<-|Hx']; [cbn [N.eqb] in Hz; lia|]. rewrite app_assoc in Hx'. apply in_app_or in Hx' as [Hx'|Hx']; [apply occ_in in Hx'; lia|].
      apply in_app_or in Hx' as [Hx'|Hx']; [apply Hl3 in Hx'; lia|]. apply Hl4 in Hx'. rewrite C3 in Hx'. lia.
    + apply Forall_forall. intros x Hx. assert (Hlk : 0 < cnt w3 x -> x < n).
      { intros Hp. destruct (N.lt_ge_cases x n) as [|Hge]; auto. exfalso. assert (cnt w3 x = 0) by (apply Hout; lia). lia. }
      change (0 :: fd ++ fm ++ (l3 ++ l4) ++ flat_map dt_foot trees) with ([0] ++ fd ++ fm ++ (l3 ++ l4) ++ flat_map dt_foot trees) in Hx.
      apply occ_in in Hx. rewrite !occ_app, Zo in Hx. cbn [occ] in Hx.
      destruct (N.eq_dec (occ x l4) 0) as [E4|E4].
      * apply Hlk. rewrite C3, C2, occ_app. destruct (N.eqb_spec x 0) as [E0|E0]; [lia|]. destruct (N.eqb_spec 0 x); lia.
      * apply (Hlt4 x). apply occ_in. lia.
    + intros fuel b Hf Hb. cbn [mi_indexes].
      assert (Hlt : b / 16320 < nlen ies4) by (rewrite L4; apply lt_div_up; dlia).
      destruct (nth_error ies4 (N.to_nat (b / 16320))) as [ie|] eqn:Ei. 2:{ apply nth_error_None in Ei. unfold nlen in Hlt. lia. }
      exists ie. destruct (I4 _ ie Ei) as (A & _). rewrite N2Nat.id in A.
      assert (A' : bitmap_at D (ie_blocknr ie) (map (fun x => entry_for (cnt w4 (b / 16320 * 16320 + x))) (range 0 (bitmap_len n (b / 16320))))).
      { eapply bitmap_at_ext; [|exact A]. apply D4. apply Hl4. unfold l4. apply in_or_app. left. apply in_map. eapply nth_error_In; eauto. }
      assert (T4' : tree u32_codec D true dp4 (sr_ref_count_root mr) (big_counts (cnt w4) 0 n) f4).
      { eapply tree_frame; [|exact T4]. intros x Hx. apply D4. apply Hl4. unfold l4. rewrite !in_app_iff. auto. }
      conj; auto; [apply A'|].
      rewrite (entry_read fuel D (cnt w4) n ie b dp4 (sr_ref_count_root mr) f4 Hb ltac:(lia) A' T4'). f_equal. f_equal.
      rewrite (gr_cnt _ _ _ _ _ G4), C3, C2, Zo. change (0 :: fd ++ fm ++ l3 ++ l4) with ([0] ++ fd ++ fm ++ l3 ++ l4). rewrite !occ_app. cbn [occ]. lia.
Qed.
End Fin.
