(** Property C22: what a restore leaves on the device. *)
From Coq Require Import Permutation.
From Verif Require Import Base Csum_Model Codec_Model Codec_Spec Codec_Proofs SbCodec_Proofs SpaceMap_Model SpaceMap_Spec SpaceMap_Proofs Batcher_Model Batcher_Proofs IoMany_Proofs
  Builder_Model Builder_Spec Builder_Proofs Utils_Proofs NodeBuilder_Proofs BtreeBuild_Proofs Session_Model Session_Spec Session_Proofs ThinOut_Model Walker_Model Array_Proofs SmWrite_Model
  SmWrite_Spec SmWrite_Proofs SmMetaTop_Proofs Restore_Model
  RestoreSafe_Proofs Restore_Proofs Props_SmWrite ContigSafe_Proofs RestoreDev_Proofs RestoreDoc_Spec RestoreRun_Proofs RestoreDoc_Proofs RestoreFin_Proofs.

Lemma occ_within x (a : list block_time) u : within a u -> occ x (map bt_block a) <= occ x (map bt_block u).
Proof. intros (r & Hp). rewrite <- (occ_perm x _ _ (Permutation_map bt_block Hp)), map_app, occ_app. lia. Qed.

Lemma first_block d good junk n batch w b : wb_alloc_loc (wb_new d good (sm_new n (W32 - 1)) batch junk) = (w, Ok b) ->
  n < 2 ^ 64 -> (forall x, x < n -> good x = true) -> (forall x, bytes (junk x) /\ nlen (junk x) = 4096) ->
  b = 0 /\ 0 < n /\ env n (W32 - 1) w /\ CI n (W32 - 1) w /\ (forall x, cnt w x = if x =? 0 then 1 else 0).
Proof.
  intros E Hn Hg Hj. set (w0 := wb_new _ _ _ _ _) in E.
  assert (I0 : sm_inv n (W32 - 1) (wb_sm w0)) by (apply sm_new_inv; unfold W32; lia).
  pose proof (CI_alloc n (W32 - 1) w0 w (Ok b)) as HC.
  pose proof (wb_alloc_loc_spec n (W32 - 1) w0 w (Ok b) I0 E) as (I & E1 & E2 & E3 & E4 & E5 & E6 & [(b' & Eb & B1 & B2 & B3 & B4)|(Eb & _)]); [|discriminate].
  injection Eb as <-.
  assert (Hb : b = 0).
  { unfold wb_alloc_loc in E. destruct (sm_alloc (wb_sm w0)) as [s x] eqn:Es. apply (sm_alloc_spec n (W32 - 1)) in Es; auto.
    destruct Es as [_ [(c & C1 & C2 & -> & C4 & C5 & C6 & C7)|(_ & -> & _)]]; [|discriminate E]. injection E as _ <-.
    destruct (N.eq_dec c 0); auto. exfalso. apply (C6 0); [cbn; lia|reflexivity]. }
  subst b. conj; auto; try lia.
  - constructor.
    + constructor; [exact I|rewrite E5; constructor].
    + intros x Hx. rewrite E3. apply Hg; auto.
    + intros x. rewrite E6. apply Hj.
  - apply HC; auto. split; auto. exists 0. split; [|cbn; lia]. split; [lia|split]; [cbn; intros; split; [tauto|lia]|intros; reflexivity].
  - intros x. unfold cnt. rewrite B3. unfold upd. rewrite (N.eqb_sym x 0). reflexivity.
Qed.

Section Start.
Variables (n nd : N).
Hypothesis (Hn : n < 2 ^ 64) (Hnd : nd < 2 ^ 64).
Let max := W32 - 1.

Lemma RI_start w : env n max w -> CI n max w -> RI n max nd max w [] [] [] [] w [] [] (core_sm_for nd max) [].
Proof using Hn Hnd.
  intros He HC. constructor; auto; try (constructor; fail).
  - constructor; auto; try (constructor; fail).
    + intros s [].
    + intros x. cbn. lia.
    + intros p. cbn. tauto.
    + intros p [].
    + intros x [].
    + cbn [map concat app]. split; [|split; [constructor|intros; cbn; reflexivity]].
      unfold core_sm_for, max. cbn [N.leb]. apply (sm_new_inv nd 4294967295). lia.
Qed.
End Start.

Lemma land127 x : (exists k, x = 128 * k) -> N.land x 127 = 0.
Proof. intros (k & ->). change 127 with (N.ones 7). rewrite N.land_ones. change (2 ^ 7) with 128. rewrite N.mul_comm. apply N.mod_mul. discriminate. Qed.

(** A document of any number of definitions and devices, restored onto a device whose blocks
    can be written, for every batch size and previous contents: restore either succeeds, and
    then the superblock (with the options --transaction-id and --data-block-size applied), the device details, the mapping trees and both space maps on the
    device are those of the document ([restored]); or it reports an error because the
    metadata device is full (or a metadata block has 2^32 - 1 owners), a mapping points past
    the end of the data device, or a data block is mapped 2^32 times.  It never panics. *)
Theorem C22_restore : forall d good junk nr batch tid bs sb secs devs s r,
  let n := N.min nr (255 * 16320) in
  (forall b, b < n -> good b = true) -> (forall b, bytes (junk b) /\ nlen (junk b) = 4096) ->
  sb_fits sb -> (forall t, tid = Some t -> t < 2 ^ 64) -> (forall b, bs = Some b -> b < 2 ^ 32) -> sections [] secs devs ->
  restore d good junk nr batch (mkov tid bs None) (doc_events sb secs ++ [EvEof]) = (s, r) ->
  match r with
  | Ok _ => restored (wb_disk (r_w s)) n (overridden tid bs sb) devs /\ wb_queue (r_w s) = []
  | Err => exhausted n (W32 - 1) (r_w s) \/
           (exists v, In v (doc_values secs devs) /\ is_nr_data_blocks sb <= bt_block v) \/
           (exists b, W32 <= occ b (map bt_block (doc_values secs devs)))
  | Panic => False
  end.
Proof.
  intros d good junk nr batch tid bs sb secs devs s r n Hg Hj (Hnd & Htime & Htr & Hbs & Hbs2) Htid Hb32 Hs E. set (o := mkov tid bs None) in *.
  assert (Hn : n < 2 ^ 64) by (unfold n; lia).
  assert (Htr' : is_transaction (overridden tid bs sb) < 2 ^ 64) by (cbn; destruct tid as [t|]; [specialize (Htid t eq_refl)|]; lia).
  assert (Hbs' : is_data_block_size (overridden tid bs sb) < 2 ^ 32) by (cbn; destruct bs as [b|]; [specialize (Hb32 b eq_refl)|]; lia).
  pose (nd := is_nr_data_blocks sb). pose (all := doc_values secs devs).
  assert (HW : wp (visits o (doc_events sb secs ++ [EvEof])) (restorer_new (wb_new d good (core_metadata_sm nr (W32 - 1)) batch junk))
    (fun s _ => restored (wb_disk (r_w s)) n (overridden tid bs sb) devs /\ wb_queue (r_w s) = [])
    (fun s => build_failed n (W32 - 1) (mapping_bad nd (W32 - 1) (fun _ => 0)) all (r_w s))).
  { unfold doc_events. cbn [visits app]. apply wp_bind. cbn [visit]. unfold superblock_b.
    eapply wp_step; [reflexivity|].
    destruct (N.leb_spec 128 (is_data_block_size sb)); [|lia]. destruct (N.leb_spec (is_data_block_size sb) 2097152); [|lia].
    rewrite land127 by auto. cbn [negb andb orb N.eqb].
    eapply wp_step; [reflexivity|]. eapply wp_step; [reflexivity|]. apply wp_bind, wp_on_w. cbn [r_w set_dsm set_sb restorer_new].
    unfold core_metadata_sm. change (N.of_nat MAX_METADATA_BITMAPS * ENTRIES_PER_BITMAP) with (255 * 16320). fold n.
    change (core_sm_for n (W32 - 1)) with (sm_new n (W32 - 1)).
    set (w0 := wb_new _ _ _ _ _).
    assert (I0 : sm_inv n (W32 - 1) (wb_sm w0)) by (apply sm_new_inv; unfold W32; lia).
    unfold wb_alloc. apply wp_bind. unfold wp at 1. destruct (wb_alloc_loc w0) as [w [b| |]] eqn:Ea.
    - destruct (first_block d good junk n batch w b Ea Hn Hg Hj) as (-> & Hn0 & He & HC & Hc).
      unfold wp at 1. cbn [b_loc N.eqb negb]. unfold wp at 1, modify.
      change (set_sec InSuperblock (set_w w (set_dsm (Some (core_sm_for (is_nr_data_blocks sb) (W32 - 1))) (set_sb (Some sb) (restorer_new w0)))))
        with (between w [] (Some sb) [] (core_sm_for nd (W32 - 1))).
      rewrite <- app_assoc. eapply (sections_wp n (W32 - 1) nd (W32 - 1) Hn Hnd w o (Some sb) _ all _ secs [] [] devs [] [] w [] [] _ [] []); [exact Hs|apply (RI_start n nd Hn Hnd w He HC)| | | |].
      + exists []. constructor.
      + exists []. rewrite !app_nil_r. reflexivity.
      + intros ? ? [].
      + intros P' roots' ts' w' subs' dv' rc' LS' HI. cbn [app visits]. apply wp_bind.
        pose proof (finalize_wp n (W32 - 1) nd (W32 - 1) Hn Hnd o w sb P' devs roots' ts' w' subs' dv' rc' LS' all HI Hc Hn0) as HF.
        assert (HF' := HF ltac:(unfold n; lia) ltac:(unfold W32; lia) ltac:(unfold W32; lia) eq_refl Htime eq_refl Htr' Hbs'). clear HF.
        unfold wp at 1. unfold wp in HF'. cbn [visit]. destruct (finalize o _) as [s1 [[]| |]] eqn:Ef; [|exact HF'|exact HF'].
        apply finalize_ok in Ef. destruct Ef as (? & ? & ? & ? & ? & ? & ? & ? & ? & ? & ? & ? & ? & ? & ? & _ & _ & _ & _ & _ & _ & _ & _ & _ & _ & _ & ? & _ & ->).
        exact HF'.
    - pose proof (wb_alloc_loc_spec n (W32 - 1) w0 w Err I0 Ea) as (_ & _ & _ & _ & _ & _ & _ & [(b & X & _)|(_ & H1 & H2 & _)]); [discriminate|].
      left. left. cbn [r_w set_w]. rewrite H2. exact H1.
    - pose proof (wb_alloc_loc_spec n (W32 - 1) w0 w Panic I0 Ea) as (_ & _ & _ & _ & _ & _ & _ & [(b & X & _)|(X & _)]); discriminate. }
  unfold restore in E. unfold wp in HW. rewrite E in HW. destruct r as [[]| |]; [exact HW| |exact HW].
  destruct HW as [HX|(v & vs & [Hb|Hb] & Hwi)]; [left; exact HX| |]; right.
  - left. exists v. split; [|exact Hb]. destruct Hwi as (rest & Hp). eapply Permutation_in; [exact Hp|]. left; auto.
  - right. exists (bt_block v). pose proof (occ_within (bt_block v) _ _ Hwi) as H. cbn [map occ] in H. rewrite N.eqb_refl in H. unfold W32 in *. fold all. lia.
Qed.
Print Assumptions C22_restore.

(** A document as in the theorem: a definition, and a device with that definition's mappings
    and one of its own; 20 metadata blocks are enough. *)
Definition ex_sb : ir_sb := mkirsb 0 1 None None 128 10 None.
Definition ex_secs : list sect := [SDef 1 [mkmap 0 4 0 2]; SDev (mkirdev 3 9 0 0 0) [CRef 1; CMap (mkmap 5 8 0 1)]].
Definition ex_devs : list device := [mkdev 3 (mkdd 9 0 0 0) [(0, mkbt 4 0); (1, mkbt 5 0); (5, mkbt 8 0)]].
Definition ex_run (o : overrides) (es : list event) : rstate * res unit :=
  restore (fun _ => repeat 0 4096) (fun _ => true) (fun _ => repeat 0 4096) 20 8 o es.
Lemma ex_junk_ok : forall b : N, bytes (repeat 0 4096) /\ nlen (repeat 0 4096) = 4096.
Proof. intros _. split; [|reflexivity]. apply Forall_forall. intros x Hx. apply repeat_spec in Hx. rewrite Hx. reflexivity. Qed.
Lemma ex_sb_fits : sb_fits ex_sb.
Proof. unfold sb_fits, ex_sb. cbn. conj; try lia. exists 1. reflexivity. Qed.
Lemma ex_sections : sections [] ex_secs ex_devs.
Proof.
  assert (Hb : forall b, b < 2 ^ 40 -> bt_range (mkbt b 0)) by (intros b H; unfold bt_range; cbn; lia).
  apply secs_def; [intros []| |].
  - split; [cbn; repeat constructor; lia|]. repeat (apply Forall_cons; [split; [cbn; lia|apply Hb; cbn; lia]|]). apply Forall_nil.
  - eapply secs_dev with (its := [CRef 1; CMap (mkmap 5 8 0 1)]); [reflexivity| | | | |intros []|constructor].
    + split; [cbn; repeat constructor; lia|]. repeat (apply Forall_cons; [split; [cbn; lia|apply Hb; cbn; lia]|]). apply Forall_nil.
    + intros name [[=]|[]].
    + cbn. lia.
    + unfold dd_range; cbn; lia.
Qed.
Lemma restore_ok d good junk nr batch sb secs devs s n : n = N.min nr (255 * 16320) ->
  (forall b, b < n -> good b = true) -> (forall b, bytes (junk b) /\ nlen (junk b) = 4096) ->
  sb_fits sb -> sections [] secs devs ->
  restore d good junk nr batch no_overrides (doc_events sb secs ++ [EvEof]) = (s, Ok tt) -> restored (wb_disk (r_w s)) n sb devs.
Proof.
  intros -> Hg Hj Hs Hd E. pose proof (C22_restore d good junk nr batch None None sb secs devs s (Ok tt) Hg Hj Hs) as H.
  destruct sb. apply H; [discriminate|discriminate|exact Hd|exact E].
Qed.
Lemma ex_run_ok sb secs devs s : sb_fits sb -> sections [] secs devs ->
  ex_run no_overrides (doc_events sb secs ++ [EvEof]) = (s, Ok tt) -> restored (wb_disk (r_w s)) 20 sb devs.
Proof. intros H1 H2 E. eapply restore_ok; [|intros; reflexivity|exact ex_junk_ok|exact H1|exact H2|exact E]. reflexivity. Qed.
Lemma pair_snd {A} (x : rstate * res A) y : snd x = y -> exists s, x = (s, y).
Proof. intros <-. exists (fst x). destruct x; reflexivity. Qed.
Lemma ex_ok : snd (ex_run no_overrides (doc_events ex_sb ex_secs ++ [EvEof])) = Ok tt.
Proof. vm_compute. reflexivity. Qed.
Example C22_example : exists s, ex_run no_overrides (doc_events ex_sb ex_secs ++ [EvEof]) = (s, Ok tt) /\
  restored (wb_disk (r_w s)) 20 ex_sb ex_devs.
Proof.
  destruct (pair_snd _ _ ex_ok) as (s & E). exists s. split; [exact E|]. exact (ex_run_ok ex_sb ex_secs ex_devs s ex_sb_fits ex_sections E).
Qed.

(** ... and mapped_blocks is copied from the document: here it is 9, with three mappings. *)
Theorem C22_mapped_blocks_refuted : exists s d, ex_run no_overrides (doc_events ex_sb ex_secs ++ [EvEof]) = (s, Ok tt) /\
  restored (wb_disk (r_w s)) 20 ex_sb [d] /\ dd_mapped (dv_details d) = 9 /\ nlen (dv_maps d) = 3.
Proof. destruct C22_example as (s & E & R). exists s, (mkdev 3 (mkdd 9 0 0 0) [(0, mkbt 4 0); (1, mkbt 5 0); (5, mkbt 8 0)]). conj; auto. Qed.

(** A second <device> with the same dev_id silently replaces the first: the restore succeeds,
    one device remains, and data block 4, which only the first one mapped, stays in use. *)
Definition ex_twice : list sect := [SDev (mkirdev 3 1 0 0 0) [CMap (mkmap 0 4 0 1)]; SDev (mkirdev 3 1 0 0 0) [CMap (mkmap 0 6 0 1)]].
Definition device_ids (x : rstate * res unit) : res unit * list N * list N :=
  (snd x, map fst (r_devs (fst x)), match r_dsm (fst x) with Some sm => map (sm_counts sm) [4; 6] | None => [] end).
Theorem C22_duplicate_device_refuted :
  device_ids (ex_run no_overrides (doc_events ex_sb ex_twice ++ [EvEof])) = (Ok tt, [3], [1; 1]).
Proof. vm_compute. reflexivity. Qed.

(** --nr-data-blocks larger than what the document says makes the data space map larger than
    the bitmaps that were written: the count of block 16320 of 20000 cannot be read. *)
Definition data_root (x : rstate * res unit) : option sm_root :=
  match thin_read_superblock (wb_disk (r_w (fst x))) 0 with
  | Ok s => match smroot_unpack (ts_data_sm_root s) with Ok (r, _) => Some r | _ => None end
  | _ => None
  end.
Definition counts_read (x : rstate * res unit) (bs : list N) : option (N * list (res (option N))) :=
  match data_root x with Some r => Some (sr_nr_blocks r, map (disk_count 3 (wb_disk (r_w (fst x))) r) bs) | None => None end.
Theorem C22_nr_data_blocks_refuted :
  counts_read (ex_run (mkov None None (Some 20000)) (doc_events ex_sb [] ++ [EvEof])) [9; 16319; 16320] =
  Some (20000, [Ok (Some 0); Ok (Some 0); Ok None]) /\ snd (ex_run (mkov None None (Some 20000)) (doc_events ex_sb [] ++ [EvEof])) = Ok tt.
Proof. split; vm_compute; reflexivity. Qed.

Print Assumptions C22_mapped_blocks_refuted.
Print Assumptions C22_duplicate_device_refuted.
Print Assumptions C22_nr_data_blocks_refuted.
