(** C16, C17: what the space maps on the device say after they have been written. *)
From Verif Require Import Base Csum_Model Codec_Model Codec_Spec SpaceMap_Model SpaceMap_Spec SpaceMap_Proofs IoMany_Proofs Utils_Proofs
  Batcher_Model Batcher_Proofs Builder_Model Builder_Spec Builder_Proofs NodeBuilder_Proofs BtreeBuild_Proofs BtreeRead_Proofs Props_Btree
  Array_Proofs SmWrite_Model SmWrite_Spec SmWrite_Proofs SmAlloc_Proofs SmMeta_Proofs SmIndex_Proofs SmMetaTop_Proofs.

Lemma assoc_range {V} (l : list V) : forall b i, assoc (combine (range b (b + nlen l)) l) i =
  if b <=? i then nth_error l (N.to_nat (i - b)) else None.
Proof.
  induction l as [|v l IH]; intros b i.
  - rewrite combine_nil. cbn [assoc]. destruct (b <=? i); auto. destruct (N.to_nat (i - b)); auto.
  - assert (E : b + nlen (v :: l) = (b + 1) + nlen l) by (unfold nlen; cbn [length]; lia).
    rewrite range_cons by (unfold nlen; cbn [length]; lia). rewrite E. cbn [combine assoc]. rewrite IH.
    destruct (N.eqb_spec i b) as [->|].
    + destruct (N.leb_spec b b); [|lia]. rewrite N.sub_diag. reflexivity.
    + destruct (N.leb_spec (b + 1) i), (N.leb_spec b i); auto; try lia.
      replace (N.to_nat (i - b)) with (S (N.to_nat (i - (b + 1)))) by lia. reflexivity.
Qed.
Lemma assoc_big counts b : forall lo m, lo <= b < lo + N.of_nat m -> 3 <= counts b ->
  assoc (big_counts counts lo (lo + N.of_nat m)) b = Some (counts b).
Proof.
  intros lo m. revert lo. induction m as [|m IH]; intros lo Hb Hc; [lia|].
  unfold big_counts. rewrite range_cons by lia. cbn [filter].
  assert (E : lo + N.of_nat (S m) = lo + 1 + N.of_nat m) by lia. rewrite E.
  destruct (N.eq_dec b lo) as [->|Hne].
  - destruct (N.leb_spec 3 (counts lo)); [|lia]. cbn [map assoc]. rewrite N.eqb_refl. auto.
  - specialize (IH (lo + 1) ltac:(lia) Hc). unfold big_counts in IH. destruct (3 <=? counts lo); cbn [map assoc]; auto.
    destruct (N.eqb_spec b lo); [contradiction|auto].
Qed.
Lemma big_increasing counts lo hi : increasing (map fst (big_counts counts lo hi)).
Proof.
  unfold big_counts. rewrite map_map. cbn [fst]. rewrite map_id. pose proof (range_increasing lo hi) as H. revert H.
  generalize (range lo hi). induction l as [|x l IH]; intros H; cbn [filter]; auto. apply increasing_strong in H as [H1 H2].
  destruct (3 <=? counts x); auto. apply increasing_strong. split; auto. intros y Hy. apply filter_In in Hy. apply H1. tauto.
Qed.
(** One entry of a bitmap, read by a reader of the device. *)
Lemma entry_read fuel d counts nr ie b depth root foot : b < nr -> (depth < fuel)%nat ->
  bitmap_at d (ie_blocknr ie) (map (fun i => entry_for (counts (b / 16320 * 16320 + i))) (range 0 (bitmap_len nr (b / 16320)))) ->
  tree u32_codec d true depth root (big_counts counts 0 nr) foot ->
  entry_count fuel d root (d (ie_blocknr ie)) b = Ok (Some (counts b)).
Proof.
  intros Hb Hf (_ & _ & _ & rest & E) T. unfold entry_count. rewrite E. cbn [bind bm_entries].
  assert (Hi : b mod 16320 < bitmap_len nr (b / 16320)) by (unfold bitmap_len; dlia).
  rewrite nth_error_app1 by (rewrite map_length, range_length; lia).
  rewrite (map_nth_error (fun i => entry_for (counts (b / 16320 * 16320 + i))) _ (range 0 (bitmap_len nr (b / 16320))) (d := b mod 16320)).
  2:{ rewrite (nth_error_nth' _ 0) by (rewrite range_length; lia). rewrite nth_range by lia. f_equal. lia. }
  replace (b / 16320 * 16320 + b mod 16320) with b by dlia.
  unfold entry_for. destruct (N.ltb_spec (counts b) 3) as [H|H]; auto.
  destruct (C12_built_trees_readable _ _ _ _ _ _ _ _ T (big_increasing counts 0 nr)) as [HL _].
  rewrite HL by auto. f_equal. pose proof (assoc_big counts b 0 (N.to_nat nr) ltac:(lia) H) as HA.
  replace (0 + N.of_nat (N.to_nat nr)) with nr in HA by lia. exact HA.
Qed.

(** Reading a space map of a device through its root. *)
Lemma disk_count_reads d counts r ies depth depth' foot foot' fuel b :
  nlen ies = div_up (sr_nr_blocks r) 16320 ->
  (forall i ie, nth_error ies i = Some ie -> describes d counts (sr_nr_blocks r) (N.of_nat i) ie) ->
  tree ie_codec d true depth' (sr_bitmap_root r) (combine (range 0 (nlen ies)) ies) foot' ->
  tree u32_codec d true depth (sr_ref_count_root r) (big_counts counts 0 (sr_nr_blocks r)) foot ->
  (depth < fuel)%nat -> (depth' < fuel)%nat ->
  disk_count fuel d r b = if sr_nr_blocks r <=? b then Err else Ok (Some (counts b)).
Proof.
  intros L I' T2 T1 Hf Hf'. unfold disk_count. destruct (N.leb_spec (sr_nr_blocks r) b) as [|Hb]; auto.
  assert (Hinc : increasing (map fst (combine (range 0 (nlen ies)) ies))).
  { rewrite map_fst_combine by (rewrite range_length; unfold nlen; lia). apply range_increasing. }
  destruct (C12_built_trees_readable _ _ _ _ _ _ _ _ T2 Hinc) as [HL _]. rewrite HL by auto. cbn [bind].
  pose proof (assoc_range ies 0 (b / 16320)) as HA. rewrite N.add_0_l in HA. rewrite HA. clear HA.
  destruct (N.leb_spec 0 (b / 16320)); [|lia]. rewrite N.sub_0_r.
  assert (Hlt : b / 16320 < nlen ies) by (rewrite L; apply lt_div_up; dlia).
  destruct (nth_error ies (N.to_nat (b / 16320))) as [ie|] eqn:Ei.
  2:{ apply nth_error_None in Ei. unfold nlen in Hlt. lia. }
  destruct (I' _ ie Ei) as (B & _). rewrite N2Nat.id in B. pose proof (proj1 (proj2 (proj2 B))) as Hk. rewrite Hk.
  exact (entry_read fuel _ _ _ _ _ _ _ _ Hb Hf B T1).
Qed.

(** The blocks in use at the end are those in use before, plus the fresh blocks [l]; no
    block in use before has changed. *)
Definition took (n : N) (w w' : wb) (l : list N) : Prop :=
  NoDup l /\ (forall b, In b l -> b < n /\ sm_counts (wb_sm w) b = 0) /\
  (forall b, sm_counts (wb_sm w') b = sm_counts (wb_sm w) b + (if in_dec N.eq_dec b l then 1 else 0)) /\
  (forall b, 0 < sm_counts (wb_sm w) b -> flushed w' b = flushed w b).
Lemma grew_took n max w w' l : env n max w -> grew n max w w' l -> took n w w' l.
Proof.
  intros He G. unfold took. conj.
  - apply G.
  - intros b Hb. destruct (gr_free _ _ _ _ _ G b Hb). auto.
  - intros b. change (cnt w' b = cnt w b + (if in_dec N.eq_dec b l then 1 else 0)). rewrite (gr_cnt _ _ _ _ _ G). f_equal.
    destruct (in_dec N.eq_dec b l) as [Hb|Hb]; [|apply occ_not_in; auto].
    pose proof (nodup_occ l (gr_nodup _ _ _ _ _ G) b). apply occ_in in Hb. lia.
  - intros b Hb. rewrite (flushed_view n max w' (gr_env _ _ _ _ _ G)), (flushed_view n max w He). apply (gr_frame _ _ _ _ _ G). auto.
Qed.
Lemma empty_disk n max w : env n max w -> wb_queue w = [] -> forall x, wb_disk w x = wb_view w x.
Proof. intros _ E x. unfold wb_view. rewrite E. reflexivity. Qed.

(** C16.  Writing the space map [sm] (of a data device) through any batcher: on success
    everything is on the device when write_disk_sm returns (nothing is left queued); the
    index tree has one entry per bitmap, each with the right bitmap, the right number of
    free entries and the first free entry; the reference count tree holds exactly the
    counts above 2; and a reader following the returned root gets for every block of the
    map its count in core, and an error beyond.  All blocks written are distinct and were
    free; blocks in use keep their contents.  It fails only when the metadata device is
    exhausted, and never panics. *)
Theorem C16_write_disk_sm : forall n max w sm w' out,
  usable n max w -> sm_nr sm < 2 ^ 64 -> (forall b, b < sm_nr sm -> sm_counts sm b < 2 ^ 32) ->
  write_disk_sm sm w = (w', out) ->
  match out with
  | Ok r =>
      wb_queue w' = [] /\ sr_nr_blocks r = sm_nr sm /\ sr_nr_allocated r = sm_nalloc sm /\
      exists ies depth depth' foot foot',
        nlen ies = div_up (sm_nr sm) 16320 /\
        (forall i ie, nth_error ies i = Some ie ->
           describes (wb_disk w') (sm_counts sm) (sm_nr sm) (N.of_nat i) ie /\ first_free (sm_counts sm) (sm_nr sm) (N.of_nat i) ie) /\
        tree ie_codec (wb_disk w') true depth' (sr_bitmap_root r) (combine (range 0 (nlen ies)) ies) foot' /\
        tree u32_codec (wb_disk w') true depth (sr_ref_count_root r) (big_counts (sm_counts sm) 0 (sm_nr sm)) foot /\
        took n w w' (map ie_blocknr ies ++ foot ++ foot') /\
        forall fuel b, (depth < fuel)%nat -> (depth' < fuel)%nat ->
          disk_count fuel (wb_disk w') r b = if sm_nr sm <=? b then Err else Ok (Some (sm_counts sm b))
  | Err => exhausted n max w'
  | Panic => False
  end.
Proof.
  intros n max w sm w' out Hu Hnr Hc E. apply usable_env in Hu as [Hn He].
  pose proof (write_disk_sm_wp n max Hn sm Hnr Hc w He) as H. unfold wp in H. rewrite E in H.
  destruct out as [r| |]; auto.
  destruct H as (ies & depth & foot & depth' & foot' & Q & L & I & G & T & T' & R1 & R2 & _).
  pose proof (empty_disk n max w' (gr_env _ _ _ _ _ G) Q) as HV. conj; auto.
  assert (I' : forall i ie, nth_error ies i = Some ie ->
           describes (wb_disk w') (sm_counts sm) (sm_nr sm) (N.of_nat i) ie /\ first_free (sm_counts sm) (sm_nr sm) (N.of_nat i) ie).
  { intros i ie Hi. destruct (I i ie Hi) as [A B]. rewrite N.add_0_l in *. split; auto. eapply describes_ext; [|exact A]. auto. }
  assert (T1 : tree u32_codec (wb_disk w') true depth (sr_ref_count_root r) (big_counts (sm_counts sm) 0 (sm_nr sm)) foot)
    by (eapply tree_frame; [|exact T]; auto).
  assert (T2 : tree ie_codec (wb_disk w') true depth' (sr_bitmap_root r) (combine (range 0 (nlen ies)) ies) foot')
    by (eapply tree_frame; [|exact T']; auto).
  exists ies, depth, depth', foot, foot'. conj; auto.
  - eapply grew_took; eauto.
  - intros fuel b Hf Hf'. pose proof (disk_count_reads (wb_disk w') (sm_counts sm) r ies depth depth' foot foot' fuel b) as HD. rewrite R1 in HD.
    apply HD; auto. intros i ie Hi. apply I'; auto.
Qed.

(** nr_allocated is exact whenever the space map in core keeps its own count right, which
    C14 establishes for all of them. *)
Corollary C16_nr_allocated : forall n max w sm w' r,
  usable n max w -> sm_nr sm < 2 ^ 64 -> (forall b, b < sm_nr sm -> sm_counts sm b < 2 ^ 32) ->
  sm_nalloc sm = nr_used (sm_nr sm) (sm_counts sm) ->
  write_disk_sm sm w = (w', Ok r) ->
  exists fuel, sr_nr_allocated r = nlen (filter (fun b => match disk_count fuel (wb_disk w') r b with Ok (Some 0) => false | Ok (Some _) => true | _ => false end) (range 0 (sr_nr_blocks r))).
Proof.
  intros n max w sm w' r Hu Hnr Hc Ha E. pose proof (C16_write_disk_sm _ _ _ _ _ _ Hu Hnr Hc E) as (Q & R1 & R2 & ies & depth & depth' & foot & foot' & H).
  destruct H as (_ & _ & _ & _ & _ & HD). exists (S (Nat.max depth depth')). rewrite R2, Ha, R1. unfold nr_used. f_equal.
  apply filter_ext_in. intros b Hb. apply in_range in Hb. rewrite HD by lia. destruct (N.leb_spec (sm_nr sm) b); [lia|].
  destruct (sm_counts sm b); reflexivity.
Qed.

(** ** C17 *)
(** What a batcher that started with an empty space map of [n] blocks looks like when the
    metadata space map is written: it has recorded the blocks [0..k), the others are free. *)
Definition contiguous (n k : N) (w : wb) : Prop :=
  k <= n /\ (forall b, In b (wb_allocs w) <-> b < k) /\ (forall b, k <= b -> sm_counts (wb_sm w) b = 0).

(** The metadata space map accounts for itself: after write_metadata_sm everything is on the
    device; the index block has one entry for each bitmap of the device, the bitmap entry of
    every block is the one for its final count in core, including the bitmaps, the index and
    the reference count tree allocated meanwhile; the reference count tree holds exactly the
    counts above 2; none_free_before never skips a free block; nr_allocated and nr_blocks
    are right.  nr_free is exact ([describes]) if no block released before is allocated again
    by the write itself. *)
Theorem C17_write_metadata_sm : forall n max w k w' out,
  usable n max w -> 0 < n <= 255 * 16320 -> max < 2 ^ 32 -> contiguous n k w -> 0 < sm_counts (wb_sm w) 0 ->
  write_metadata_sm w = (w', out) ->
  match out with
  | Ok r =>
      wb_queue w' = [] /\ sr_nr_blocks r = n /\ sr_nr_allocated r = nr_used n (sm_counts (wb_sm w')) /\
      exists ies depth foot,
        load_metadata_index (mkblock (sr_bitmap_root r) (wb_disk w' (sr_bitmap_root r))) n = Ok (mkmi (sr_bitmap_root r) ies) /\
        nlen ies = div_up n 16320 /\
        (forall i ie, nth_error ies i = Some ie ->
           bitmap_at (wb_disk w') (ie_blocknr ie)
             (map (fun x => entry_for (sm_counts (wb_sm w') (N.of_nat i * 16320 + x))) (range 0 (bitmap_len n (N.of_nat i)))) /\
           (forall x, x < ie_none_free_before ie -> sm_counts (wb_sm w') (N.of_nat i * 16320 + x) <> 0) /\
           ((forall x, x < k -> sm_counts (wb_sm w) x = 0 -> sm_counts (wb_sm w') x = 0) ->
            describes (wb_disk w') (sm_counts (wb_sm w')) n (N.of_nat i) ie)) /\
        tree u32_codec (wb_disk w') true depth (sr_ref_count_root r) (big_counts (sm_counts (wb_sm w')) 0 n) foot /\
        took n w w' (map ie_blocknr ies ++ foot ++ [sr_bitmap_root r])
  | Err => exhausted n max w'
  | Panic => False
  end.
Proof.
  intros n max w k w' out Hu Hn0 Hm (Hk & Ha & Ho) H0 E. apply usable_env in Hu as [Hn He].
  pose proof (write_metadata_sm_wp n max Hn Hm w k He ltac:(lia) H0 Hk ltac:(lia) Ha Ho) as H. unfold wp in H. rewrite E in H.
  destruct out as [r| |]; auto.
  destruct H as (ies & depth & foot & Q & X & L & I & G & T & R1 & R2).
  pose proof (empty_disk n max w' (gr_env _ _ _ _ _ G) Q) as HV. conj; auto.
  { rewrite R2. apply (inv_nalloc n max). apply (wi_sm _ _ _ (e_inv _ _ _ (gr_env _ _ _ _ _ G))). }
  exists ies, depth, foot. conj; auto.
  - rewrite HV. exact X.
  - intros i ie Hi. destruct (I i ie Hi) as (A & B & _ & C). conj; auto.
    + eapply bitmap_at_ext; [|exact A]. auto.
    + intros Hz. eapply describes_ext; [|apply C; exact Hz]. auto.
  - eapply tree_frame; [|exact T]; auto.
  - eapply grew_took; eauto.
Qed.

(** So a reader of the device gets for every metadata block its final count. *)
Theorem C17_counts_read_back : forall n max w k w' r,
  usable n max w -> 0 < n <= 255 * 16320 -> max < 2 ^ 32 -> contiguous n k w -> 0 < sm_counts (wb_sm w) 0 ->
  write_metadata_sm w = (w', Ok r) ->
  exists m fuel, load_metadata_index (mkblock (sr_bitmap_root r) (wb_disk w' (sr_bitmap_root r))) n = Ok m /\
    forall b, b < n -> exists ie, nth_error (mi_indexes m) (N.to_nat (b / 16320)) = Some ie /\
      metadata_block_type (wb_disk w' (ie_blocknr ie)) = BITMAP /\
      entry_count fuel (wb_disk w') (sr_ref_count_root r) (wb_disk w' (ie_blocknr ie)) b = Ok (Some (sm_counts (wb_sm w') b)).
Proof.
  intros n max w k w' r Hu Hn0 Hm Hc H0 E. pose proof (C17_write_metadata_sm _ _ _ _ _ _ Hu Hn0 Hm Hc H0 E) as (_ & _ & _ & ies & depth & foot & X & L & I & T & _).
  exists (mkmi (sr_bitmap_root r) ies), (S depth). split; auto. intros b Hb. cbn [mi_indexes].
  assert (Hlt : b / 16320 < nlen ies) by (rewrite L; apply lt_div_up; dlia).
  destruct (nth_error ies (N.to_nat (b / 16320))) as [ie|] eqn:Ei. 2:{ apply nth_error_None in Ei. unfold nlen in Hlt. lia. }
  exists ie. destruct (I _ ie Ei) as (A & _). rewrite N2Nat.id in A. conj; auto; [apply A|]. exact (entry_read (S depth) _ _ _ _ _ _ _ _ Hb (Nat.lt_succ_diag_r depth) A T).
Qed.

(** [contiguous] holds for every batcher that started with an empty space map, whatever it
    was used for, as long as counts are only raised for blocks in use. *)
Inductive use := UBatch (o : wb_op) | UInc (b : N) | UDec (b : N).
Definition use_step (w : wb) (u : use) : wb :=
  match u with
  | UBatch o => fst (wb_step w o)
  | UInc b => fst (wb_inc b w)
  | UDec b => fst (wb_dec b w)
  end.
Definition use_ok (w : wb) (u : use) : Prop :=
  match u with UBatch BClearAllocations => False | UInc b => b < 2 ^ 64 - 1 /\ sm_counts (wb_sm w) b <> 0 | _ => True end.
Fixpoint uses_ok (w : wb) (us : list use) : Prop :=
  match us with [] => True | u :: r => use_ok w u /\ uses_ok (use_step w u) r end.

Definition CI (n max : N) (w : wb) : Prop :=
  sm_inv n max (wb_sm w) /\ exists k, contiguous n k w /\ sm_begin (wb_sm w) <= k.
Lemma CI_same n max w w' : CI n max w -> wb_sm w' = wb_sm w -> wb_allocs w' = wb_allocs w -> CI n max w'.
Proof. unfold CI, contiguous. intros H -> ->. exact H. Qed.
Lemma CI_alloc n max w w' r : CI n max w -> wb_alloc_loc w = (w', r) -> CI n max w'.
Proof.
  intros (I & k & (Hk & Ha & Ho) & Hb) E. unfold wb_alloc_loc in E. destruct (sm_alloc (wb_sm w)) as [s x] eqn:Es.
  apply (sm_alloc_spec n max) in Es; auto. destruct Es as [I' [(b & B1 & B2 & -> & B4 & B5 & B6 & B7)|(B1 & -> & ->)]].
  2:{ injection E as <- <-. split; auto. exists k. split; auto. unfold contiguous. cbn. conj; auto. }
  injection E as <- <-. unfold CI, contiguous. cbn [wb_sm wb_allocs]. split; auto. rewrite B4, B5.
  assert (Hbk : b <= k).
  { destruct (N.le_gt_cases b k); auto. exfalso. apply (B6 k); [lia|]. apply Ho. lia. }
  destruct (N.eq_dec b k) as [->|Hne].
  - exists (k + 1). conj; try lia.
    + intros x. cbn [In]. rewrite Ha. split; [intros [<-|]; lia|intros; destruct (N.eq_dec x k); auto; right; lia].
    + intros x Hx. rewrite upd_other by lia. apply Ho. lia.
  - exists k. conj; try lia.
    + intros x. cbn [In]. rewrite Ha. split; [intros [<-|]; lia|auto].
    + intros x Hx. rewrite upd_other by lia. auto.
Qed.
Theorem C17_contiguous : forall n max base good batch junk us,
  n < 2 ^ 64 -> 1 <= max ->
  let w0 := wb_new base good (sm_new n max) batch junk in
  uses_ok w0 us -> exists k, contiguous n k (fold_left use_step us w0).
Proof.
  intros n max base good batch junk us Hn Hm w0 Hok.
  assert (H0 : CI n max w0).
  { split; [apply sm_new_inv; auto|]. exists 0. split; [|cbn; lia]. unfold contiguous. cbn. conj; try lia; auto. }
  clearbody w0. revert w0 Hok H0. induction us as [|u us IH]; intros w0 Hok H0; cbn [fold_left].
  - destruct H0 as (_ & k & H & _). eauto.
  - cbn [uses_ok] in Hok. destruct Hok as [Hu Hus]. apply IH; auto. clear IH Hus us.
    destruct u as [o|b|b]; cbn [use_step].
    + destruct o; cbn [wb_step].
      * unfold wb_alloc, bindst. destruct (wb_alloc_loc w0) as [w1 [loc| |]] eqn:E; cbn [fst]; eapply CI_alloc; eauto.
      * unfold wb_alloc_zeroed, bindst. destruct (wb_alloc_loc w0) as [w1 [loc| |]] eqn:E; cbn [fst]; eapply CI_alloc; eauto.
      * destruct (wb_write (mkblock loc data) kind w0) as [w1 r] eqn:E. cbn [fst]. apply wb_write_same in E as [E1 E2]. eapply CI_same; eauto.
      * unfold wb_read. destruct (find_queued _ _); [exact H0|]. destruct (wb_good w0 loc); exact H0.
      * eapply CI_same; eauto.
      * contradiction.
    + destruct Hu as [Hb0 Hu]. destruct H0 as (I & k & (Hk & Ha & Ho) & Hb). unfold wb_inc. destruct (sm_inc (wb_sm w0) b 1) as [s r] eqn:Es. cbn [fst].
      unfold sm_inc in Es. rewrite N.mod_small in Es by (unfold W64; lia). rewrite (inv_nr _ _ _ I) in Es.
      destruct (N.ltb_spec n (b + 1)).
      { injection Es as <- <-. split; auto. exists k. split; auto. unfold contiguous; cbn; auto. }
      assert (Hbk : b < k). { destruct (N.lt_ge_cases b k); auto. exfalso. apply Hu. auto. }
      assert (Hbg : sm_begin s = sm_begin (wb_sm w0)).
      { rewrite (range_cons b (b + 1)), (range_nil (b + 1) (b + 1)) in Es by lia. cbn [sm_inc_loop] in Es.
        destruct (sm_max (wb_sm w0) <=? sm_counts (wb_sm w0) b); injection Es as <- <-; auto. }
      apply (sm_inc_loop_spec n max) in Es; auto; try lia. destruct Es as [I' Hs].
      assert (Hcn : forall x, k <= x -> sm_counts s x = 0).
      { intros x Hx. destruct Hs as [(_ & _ & Hs)|(_ & sat & Hsat & _ & _ & Hs)]; rewrite Hs.
        - destruct (N.leb_spec b x), (N.ltb_spec x (b + 1)); cbn [andb]; auto; lia.
        - destruct (N.leb_spec b x), (N.ltb_spec x sat); cbn [andb]; auto; lia. }
      split; auto. exists k. unfold contiguous. cbn [set_sm wb_sm wb_allocs]. rewrite Hbg. conj; auto.
    + destruct H0 as (I & k & (Hk & Ha & Ho) & Hb). unfold wb_dec. destruct (sm_dec (wb_sm w0) b) as [s r] eqn:Es. cbn [fst].
      assert (HS : sm_inv n max s /\ sm_begin s = sm_begin (wb_sm w0) /\ forall x, k <= x -> sm_counts s x = 0).
      { unfold sm_dec in Es. rewrite (sm_get_spec n max) in Es by auto. destruct (N.ltb_spec b n) as [Hbn|]; [|injection Es as <- <-; auto].
        destruct (N.eqb_spec (sm_counts (wb_sm w0) b) 0) as [|E0]; [injection Es as <- <-; auto|].
        assert (Hb1 : forall s1 r1, sm_set (wb_sm w0) b (sm_counts (wb_sm w0) b - 1) = (s1, r1) -> sm_begin s1 = sm_begin (wb_sm w0)).
        { unfold sm_set. intros s1 r1 H1. destruct (_ <=? _); [injection H1 as <- <-; auto|]. destruct (_ <? _); injection H1 as <- <-; auto. }
        destruct (sm_set (wb_sm w0) b (sm_counts (wb_sm w0) b - 1)) as [s1 r1] eqn:E1. pose proof (Hb1 _ _ eq_refl) as Hb2. clear Hb1.
        apply (sm_set_spec n max) in E1; auto. destruct E1 as [I' Hcs].
        assert (s = s1) as -> by (destruct r1; injection Es as <- <-; auto). conj; auto.
        intros x Hx. destruct Hcs as [(_ & _ & _ & Hcs)|(_ & _ & ->)]; [|auto]. rewrite Hcs, upd_spec.
        destruct (N.eqb_spec x b) as [->|]; auto. exfalso. auto. }
      destruct HS as (I' & Hbg & Hcn). split; auto. exists k. unfold contiguous. cbn [set_sm wb_sm wb_allocs]. rewrite Hbg. conj; auto.
Qed.

Lemma ex_junk : bytes (repeat 0 4096) /\ nlen (repeat 0 4096) = 4096.
Proof.
  split; [|vm_compute; reflexivity]. unfold bytes. apply Forall_forall. intros x Hx. apply repeat_spec in Hx. rewrite Hx. reflexivity.
Qed.
(** Blocks that were not allocated through the batcher must not be in use before one that
    was: the entries are written for recorded blocks only, and the bitmaps are numbered by
    how many were written so far.  Here block 1 is in use but not recorded; its entry on the
    device says that it is free. *)
Definition ex_h : wb := mkwb (fun _ => repeat 0 4096) [] (fun _ => true)
  (mksm 20 255 2 1 (fun b => if b <? 2 then 1 else 0)) 8 [] [0] (fun _ => repeat 0 4096).
Theorem C17_unrecorded_block_refuted :
  match write_metadata_sm ex_h with
  | (w', Ok r) =>
      match load_metadata_index (mkblock (sr_bitmap_root r) (wb_disk w' (sr_bitmap_root r))) 20 with
      | Ok m => match mi_indexes m with
                | [ie] => (sm_counts (wb_sm w') 1, entry_count 5 (wb_disk w') (sr_ref_count_root r) (wb_disk w' (ie_blocknr ie)) 1) = (1, Ok (Some 0))
                | _ => False
                end
      | _ => False
      end
  | _ => False
  end.
Proof. vm_compute. reflexivity. Qed.

(** ** The hypotheses can be met *)
Definition ex_sm : core_sm := mksm 30 255 4 0 (fun b => if b =? 1 then 1 else if b =? 2 then 2 else if b =? 3 then 200 else if b =? 29 then 3 else 0).
(** The counts of [bs] as a reader gets them after [sm] has been written. *)
Definition written_counts (sm : core_sm) (w : wb) (bs : list N) : list (res (option N)) :=
  match write_disk_sm sm w with (w', Ok r) => map (disk_count 5 (wb_disk w') r) bs | _ => [] end.
Example C16_example : usable 16 255 ex_w /\ sm_nr ex_sm < 2 ^ 64 /\ (forall b, b < sm_nr ex_sm -> sm_counts ex_sm b < 2 ^ 32) /\
  sm_nalloc ex_sm = nr_used (sm_nr ex_sm) (sm_counts ex_sm) /\
  written_counts ex_sm ex_w [0; 1; 2; 3; 4; 29; 30] =
    [Ok (Some 0); Ok (Some 1); Ok (Some 2); Ok (Some 200); Ok (Some 0); Ok (Some 3); Err].
Proof.
  split; [exact ex_w_usable|]. split; [reflexivity|]. split; [|split; vm_compute; reflexivity].
  intros b _. unfold ex_sm. cbn [sm_counts]. destruct (b =? 1), (b =? 2), (b =? 3), (b =? 29); lia.
Qed.
Definition ex_uses : list use := [UBatch BAlloc; UBatch BAlloc; UBatch BAlloc; UInc 1; UInc 1; UInc 1; UDec 2].
Definition ex_m0 : wb := wb_new (fun _ => repeat 0 4096) (fun _ => true) (sm_new 40 255) 8 (fun _ => repeat 0 4096).
Definition ex_m : wb := fold_left use_step ex_uses ex_m0.
(** nr_allocated, the counts in core, the index and the counts read from the device. *)
Definition meta_written (w : wb) (n : N) (bs : list N) : option (N * list N * list index_entry * list (res (option N))) :=
  match write_metadata_sm w with
  | (w', Ok r) =>
      match load_metadata_index (mkblock (sr_bitmap_root r) (wb_disk w' (sr_bitmap_root r))) n with
      | Ok m => Some (sr_nr_allocated r, map (sm_counts (wb_sm w')) bs, mi_indexes m,
                 match mi_indexes m with
                 | [ie] => map (entry_count 5 (wb_disk w') (sr_ref_count_root r) (wb_disk w' (ie_blocknr ie))) bs
                 | _ => []
                 end)
      | _ => None
      end
  | _ => None
  end.
Example C17_example : uses_ok ex_m0 ex_uses /\
  meta_written ex_m 40 (range 0 8) =
    Some (5, [1; 4; 0; 1; 1; 1; 0; 0], [mkie 3 16315 2], map (fun c => Ok (Some c)) [1; 4; 0; 1; 1; 1; 0; 0]).
Proof. split; [|vm_compute; reflexivity]. unfold ex_uses. cbn [uses_ok use_ok]. vm_compute. intuition discriminate. Qed.
Example C17_example_usable : usable 40 255 ex_m /\ contiguous 40 3 ex_m /\ 0 < sm_counts (wb_sm ex_m) 0.
Proof.
  unfold usable. split; [|split].
  - split; [reflexivity|]. split; [reflexivity|]. split; [reflexivity|]. split; [lia|]. split; [vm_compute; reflexivity|].
    split; [vm_compute; discriminate|]. split.
    + intros b _. change (sm_counts (wb_sm ex_m)) with (upd (upd (upd (upd (upd (upd (upd (fun _ => 0) 0 1) 1 1) 2 1) 1 2) 1 3) 1 4) 2 0).
      rewrite !upd_spec. destruct (b =? 2), (b =? 1), (b =? 0); lia.
    + split; [constructor|]. split; [auto|]. intros ?. exact ex_junk.
  - unfold contiguous. split; [lia|]. split.
    + intros b. change (wb_allocs ex_m) with [2; 1; 0]. cbn [In]. lia.
    + intros b Hb. change (sm_counts (wb_sm ex_m)) with (upd (upd (upd (upd (upd (upd (upd (fun _ => 0) 0 1) 1 1) 2 1) 1 2) 1 3) 1 4) 2 0).
      rewrite !upd_spec. destruct (N.eqb_spec b 2), (N.eqb_spec b 1), (N.eqb_spec b 0); lia.
  - vm_compute. reflexivity.
Qed.

Print Assumptions C16_write_disk_sm.
Print Assumptions C16_nr_allocated.
Print Assumptions C17_write_metadata_sm.
Print Assumptions C17_counts_read_back.
Print Assumptions C17_contiguous.
Print Assumptions C17_unrecorded_block_refuted.
