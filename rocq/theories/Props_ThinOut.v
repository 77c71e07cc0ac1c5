(** Properties of the tools that print thin mappings: C23, C26, C27, C46, C47. *)
From Coq Require Import Permutation Sorted.
From Verif Require Import Base Csum_Model Codec_Model SpaceMap_Model Batcher_Model Builder_Model
  Builder_Spec ThinOut_Model ThinOut_Spec ThinOut_Proofs ThinOut2_Proofs.

(** ** C23 *)

(** The runs emitted for a sequence of readable leaves, expanded, are exactly the
    entries of the leaves in order; no run is empty; no two neighbours could have
    been one run (also not across a leaf boundary). *)
Theorem C23_runs_expand : forall eng ls kvss,
  Forall2 (leaf_is eng) ls kvss -> mappings_ok (concat kvss) ->
  exists runs, emit_leaves eng ls = (map EvMap runs, Ok tt) /\
    flat_map expand runs = concat kvss /\
    Forall (fun m => 1 <= m_len m) runs /\
    consecutive (fun a b => ~ mergeable a b) runs.
Proof.
  intros eng ls kvss HF [Hi Hb]. unfold emit_leaves. rewrite (emit_leaves_runs _ _ _ HF).
  exists (runs_of None (concat kvss)).
  destruct (runs_of_spec (concat kvss) None) as (R1 & R2 & R3 & _); cbn; auto.
  { eapply Forall_impl; [|apply Hb]. cbv beta. intros; lia. }
  { apply increasing_no_wrap; auto. discriminate. }
  split; [reflexivity|]. rewrite flat_map_concat_map. auto.
Qed.

(** The same for a device or definition made of leaves and references: the
    events stand for what the entries stand for, whatever the references mean. *)
Theorem C23_entries_denote : forall eng leaf resolve es evs,
  (forall b, In (EnLeaf b) es -> leaf_is eng b (leaf b) /\
     Forall (fun kv => fst kv < 2 ^ 64 - 1 /\ bt_block (snd kv) < 2 ^ 40) (leaf b)) ->
  emit_entries eng es = (evs, Ok tt) ->
  flat_map (denote resolve) evs = flat_map (denote_entry leaf resolve) es.
Proof.
  intros eng leaf resolve es evs H E. apply (emit_entries_denote eng leaf resolve es [] evs) in E; auto.
  intros b [Hb|[]]. auto.
Qed.

(** A leaf that cannot be read, or is not a leaf, makes the dump fail. *)
Theorem C23_bad_leaf_fails : forall eng ls b,
  In b ls -> (forall kvs, ~ leaf_is eng b kvs) -> snd (emit_leaves eng ls) <> Ok tt.
Proof.
  intros eng ls b Hin Hbad. unfold emit_leaves.
  assert (HG: forall run, snd (emit_leaves_ eng run ls) <> Ok tt).
  { induction ls as [|x r IH]; [destruct Hin|]. intros run. cbn [emit_leaves_].
    destruct (eng x) as [data|] eqn:Ee; [|discriminate].
    destruct (dump_leaf data) as [kvs| |] eqn:Ed; [|discriminate|discriminate].
    destruct Hin as [->|Hin].
    - exfalso. unfold dump_leaf in Ed. destruct (metadata_block_type data) eqn:Et; try discriminate.
      destruct (unpack_node_raw bt_codec data true true) as [[|h ks vs]| |] eqn:Eu; try discriminate.
      cbn [bind] in Ed. injection Ed as <-. apply (Hbad (combine ks vs)). exists data, h, ks, vs. auto.
    - destruct (mv_visit run kvs) as [run' out]. specialize (IH Hin run').
      destruct (emit_leaves_ eng run' r) as [out' x']. auto. }
  specialize (HG None). destruct (emit_leaves_ eng None ls). auto.
Qed.

Definition bt (b t : N) := mkbt b t.
(** Two leaves' worth of mappings, with a run across the boundary. *)
Example C23_example :
  runs_of None ([(0, bt 10 1); (1, bt 11 1); (2, bt 12 2)] ++ [(3, bt 13 2); (7, bt 14 2)]) =
  [mkmap 0 10 1 2; mkmap 2 12 2 2; mkmap 7 14 2 1].
Proof. reflexivity. Qed.
Example C23_example_hyps : mappings_ok [(0, bt 10 1); (1, bt 11 1); (2, bt 12 2); (3, bt 13 2); (7, bt 14 2)].
Proof. split; [cbn; lia|]. repeat constructor. Qed.

(** ** C26 *)

(** The elements written for two devices: every thin block is reported with
    exactly the kind it has, at most once, and neighbours are merged. *)
Theorem C26_delta_classifies : forall left right, mappings_ok left -> mappings_ok right ->
  exists ds, thin_delta left right = Ok ds /\
    let es := map simple_elem ds in
    (forall t k, covers es k t <-> classify left right t = Some k) /\
    in_order 0 es /\ consecutive not_mergeable es.
Proof.
  intros L R HL HR. unfold thin_delta. destruct (dump_delta_spec L R HL HR) as (ds & -> & I1 & I2 & I3).
  cbn [bind]. eexists. split; [reflexivity|]. cbv zeta.
  destruct (delta_runs_spec ds None 0 I1 I2) as (D1 & D2 & D3 & _).
  conj; auto. intros t k. unfold delta_runs. rewrite (first_cover_spec _ 0 D1), D2, first_claim_cover, I3.
  unfold truth. destruct (classify L R t); cbn; split; auto; discriminate.
Qed.

(** Before neighbouring ranges are merged, every range also carries the right
    data blocks of both devices. *)
Theorem C26_unmerged_data_blocks : forall left right, mappings_ok left -> mappings_ok right ->
  exists ds, dump_delta_mappings (record_mappings left) (record_mappings right) = Ok ds /\
    forall t, first_claim ds t = truth left right t.
Proof. intros L R HL HR. destruct (dump_delta_spec L R HL HR) as (ds & E & _ & _ & H). eauto. Qed.

(** With --verbose the merged ranges do not: ranges are merged although their
    data blocks are not contiguous, so thin block 1 (data block 20) is printed
    as part of a range starting at data block 10, that is as data block 11. *)
Theorem C26_verbose_data_blocks_refuted :
  let left := [(0, bt 10 0); (1, bt 20 0)] in
  mappings_ok left /\
  thin_delta left left = Ok [Same (mkdm 0 10 2)] /\
  first_claim [Same (mkdm 0 10 2)] 1 = Some (KSame, Some 11, Some 11) /\
  truth left left 1 = Some (KSame, Some 20, Some 20).
Proof. cbv zeta. split; [|vm_compute; auto]. split; [cbn; lia|]. repeat constructor. Qed.

Example C26_example :
  match thin_delta [(0, bt 5 0); (1, bt 6 0); (2, bt 7 0); (9, bt 1 0)] [(1, bt 6 3); (2, bt 8 0); (3, bt 2 0)] with
  | Ok ds => map simple_elem ds = [(KLeft, 0, 1); (KSame, 1, 1); (KDiffer, 2, 1); (KRight, 3, 1); (KLeft, 9, 1)]
  | _ => False
  end.
Proof. vm_compute. reflexivity. Qed.

(** ** C27 *)

(** Whatever the bitmaps contain and whether or not discards fail: only bytes of
    data blocks below [nr] that the bitmaps say are free are discarded; if the
    command succeeds every free block is inside one discard; it succeeds if all
    discards do and the bitmaps cover the pool. *)
Theorem C27_trim_discards_free_blocks : forall fuel ioctl data_block_size nr file_size bitmaps ds x,
  let bs := data_block_size * 512 in
  Forall (fun b => bytes b /\ nlen b = 4096) bitmaps ->
  0 < bs -> bs < 2 ^ 64 -> nr * bs < 2 ^ 64 -> (N.to_nat nr < fuel)%nat ->
  trim_data_device fuel ioctl data_block_size nr file_size bitmaps = (ds, x) ->
  x <> Panic /\
  (forall d, In d ds -> fst d + snd d <= file_size) /\
  (forall d b, In d ds -> discards bs d b -> b < nr /\ in_use bitmaps b = false) /\
  (x = Ok tt -> forall b, b < nr -> in_use bitmaps b = false ->
     exists d, In d ds /\ fst d <= b * bs /\ (b + 1) * bs <= fst d + snd d) /\
  (nr * bs <= file_size -> bitmaps <> [] -> nr <= nlen bitmaps * 16320 -> (forall d, ioctl d = true) -> x = Ok tt).
Proof.
  intros fuel ioctl dbs nr fs bitmaps ds x bs HF Hbs0 Hbs1 Hnb Hfuel E.
  unfold trim_data_device in E.
  assert (Ebs: wmul dbs 512 = bs) by (apply wmul_small; auto). rewrite Ebs in E.
  rewrite (wmul_small nr bs Hnb) in E.
  destruct (N.ltb_spec fs (nr * bs)) as [Hs|Hs].
  { injection E as <- <-. conj; [discriminate|intros ? []|intros ? ? []|discriminate|intros; lia]. }
  destruct bitmaps as [|b0 br] eqn:Eb.
  { cbn in E. injection E as <- <-. conj; [discriminate|intros ? []|intros ? ? []|discriminate|intros; tauto]. }
  rewrite <- Eb in *. unfold ri_new in E. rewrite Eb in E at 1. unfold ENTRIES_PER_BITMAP in E.
  destruct (N.ltb_spec (nlen bitmaps * 16320) nr) as [Hc|Hc].
  { injection E as <- <-. conj; [discriminate|intros ? []|intros ? ? []|discriminate|intros; lia]. }
  assert (Hb0: is_block b0) by (rewrite Eb in HF; inversion HF; auto).
  destruct (ents_ok b0 Hb0) as [Eu _]. rewrite Eu in E. cbn [bind] in E.
  assert (Hinv: ri_inv bitmaps nr (mkri 0 (ents b0) 0)).
  { split; cbn [ri_current ri_index ri_bitmap]; [lia|]. intros _. split; [reflexivity|].
    exists b0. rewrite Eb. auto. }
  pose proof (trim_loop_spec bitmaps nr HF Hc ioctl bs fuel Hnb _ Hinv) as HT.
  cbn [ri_current] in HT. rewrite E in HT. destruct HT as (T1 & T2 & T3 & T4); [lia|].
  rewrite Forall_forall in T2. conj; auto.
  - intros d Hd. destruct (T2 d Hd) as (a & n & -> & _ & _ & Hle & _). cbn [fst snd]. nia.
  - intros d b Hd [D1 D2]. destruct (T2 d Hd) as (a & n & -> & _ & Hn & Hle & Hfree). cbn [fst snd] in *.
    assert (a <= b < a + n) by nia. split; [lia|]. auto.
  - intros Hx b Hb Hu. destruct (T4 Hx b) as (a & n & Hin & Ha); auto; [lia|].
    exists (a * bs, n * bs). split; auto. cbn [fst snd]. nia.
Qed.

(** The bitmaps are taken in the order of their keys in the index tree; when the
    keys are 0, 1, 2, ... bitmap number [i] is the block that entry [i] names. *)
Theorem C27_bitmap_order : forall eng entries bitmaps,
  read_bitmaps eng entries = Ok bitmaps -> map fst entries = range 0 (nlen entries) ->
  forall i ie, In (i, ie) entries -> exists data,
    eng (ie_blocknr ie) = Some data /\ nth_error bitmaps (N.to_nat i) = Some data.
Proof.
  intros eng entries bitmaps E Hk.
  assert (HG: forall l k bms, read_bitmaps eng l = Ok bms -> map fst l = nseq k (length l) ->
     forall i ie, In (i, ie) l -> exists data, eng (ie_blocknr ie) = Some data /\ nth_error bms (N.to_nat (i - k)) = Some data /\ k <= i).
  { induction l as [|[j je] r IH]; intros k bms Er Hl i ie Hin; [destruct Hin|].
    cbn [read_bitmaps] in Er. destruct (eng (ie_blocknr je)) as [d|] eqn:Ed; [|discriminate].
    destruct (read_bitmaps eng r) as [bs| |] eqn:Eb; try discriminate. cbn [bind] in Er. injection Er as <-.
    cbn [map fst length nseq] in Hl. injection Hl as -> Hl. destruct Hin as [Hin|Hin].
    - injection Hin as -> ->. exists d. rewrite N.sub_diag. conj; auto. lia.
    - destruct (IH (k + 1) bs eq_refl Hl i ie Hin) as (d' & D1 & D2 & D3). exists d'. conj; auto; [|lia].
      replace (N.to_nat (i - k)) with (S (N.to_nat (i - (k + 1)))) by lia. auto. }
  intros i ie Hin. unfold range in Hk. rewrite N.sub_0_r in Hk. unfold nlen in Hk. rewrite Nat2N.id in Hk.
  destruct (HG entries 0 bitmaps E Hk i ie Hin) as (d & ? & ? & _). rewrite N.sub_0_r in *. eauto.
Qed.

(** An index tree that lacks an entry shifts the following bitmaps: block 0 is
    judged by the bitmap of block 16320. *)
Theorem C27_sparse_index_refuted : forall eng b data,
  eng b = Some data ->
  read_bitmaps eng [(1, mkie b 0 0)] = Ok [data].
Proof. intros. cbn. rewrite H. reflexivity. Qed.

(** Block 0 of 5 is in use (bits 10 in the bitmap's first word). *)
Definition ex_bitmap : list N := repeat 0 16 ++ [2] ++ repeat 0 (N.to_nat 4079).
Example C27_example :
  Forall (fun b => bytes b /\ nlen b = 4096) [ex_bitmap] /\
  trim_data_device 6 (fun _ => true) 128 5 1000000 [ex_bitmap] = ([(65536, 262144)], Ok tt).
Proof.
  split.
  - constructor; [|constructor]. split.
    + unfold bytes, ex_bitmap. rewrite !Forall_app. conj.
      * apply Forall_forall. intros x Hx. apply repeat_spec in Hx. subst. reflexivity.
      * repeat constructor.
      * apply Forall_forall. intros x Hx. apply repeat_spec in Hx. subst. reflexivity.
    + reflexivity.
  - vm_compute. reflexivity.
Qed.

(** ** C46 *)

(** The regions printed stand for exactly the (data block, device, thin block)
    triples with the data block in an asked region; they are ordered by data
    block, none is empty, and none could be extended by another. *)
Theorem C46_rmap_exact : forall regions devs,
  increasing (map fst devs) -> Forall (fun d => fst d < 2 ^ 32 /\ mappings_ok (snd d)) devs ->
  let out := thin_rmap regions devs in
  Permutation (flat_map rr_triples out)
    (flat_map (fun d => map (fun kv => (bt_block (snd kv), fst d, fst kv))
                            (filter (fun kv => in_regions regions (bt_block (snd kv))) (snd d))) devs) /\
  StronglySorted rr_before out /\
  Forall (fun r => rr_begin r < rr_end r) out /\
  (forall a b, In a out -> In b out ->
     ~ (rr_dev b = rr_dev a /\ rr_begin b = rr_end a /\ rr_thin b = rr_thin a + (rr_end a - rr_begin a))).
Proof.
  intros regions devs Hdi Hdevs out. unfold out, thin_rmap.
  pose proof (rmap_devices_runs regions devs (mkrr 0 0 0 0)) as HR.
  destruct (rmap_devices regions (mkrr 0 0 0 0) devs) as [c o]. rewrite HR.
  set (S := flat_map (fun d => dev_triples regions (fst d mod 2 ^ 32) (snd d)) devs).
  assert (ES: S = flat_map (fun d => map (fun kv => (bt_block (snd kv), fst d, fst kv))
                            (filter (fun kv => in_regions regions (bt_block (snd kv))) (snd d))) devs).
  { unfold S. clear - Hdevs. induction Hdevs as [|d r [Hd _] _ IH]; [reflexivity|]. cbn [flat_map]. rewrite IH. f_equal.
    unfold dev_triples. rewrite N.mod_small by auto. reflexivity. }
  assert (HB: Forall (fun x => let '(data, dev, thin) := x in data < 2 ^ 40 /\ thin < 2 ^ 64 - 1) S).
  { rewrite Forall_forall. intros [[da de] th] Hin. rewrite ES in Hin. apply in_flat_map in Hin as (d & Hd & Hx).
    apply in_map_iff in Hx as (kv & [= <- <- <-] & Hf). apply filter_In in Hf as [Hf _].
    rewrite Forall_forall in Hdevs. destruct (Hdevs d Hd) as [_ [_ Hm]]. rewrite Forall_forall in Hm. specialize (Hm kv Hf). lia. }
  destruct (rruns_spec S HB (mkrr 0 0 0 0)) as (R1 & R2 & R3 & _).
  { right. cbn. split; reflexivity. }
  assert (Hlex: StronglySorted lex S).
  { rewrite ES. clear - Hdi Hdevs. induction devs as [|d r IH]; [constructor|].
    inversion Hdevs as [|? ? [Hd1 [Hi _]] Hr]; subst. cbn [map] in Hdi. apply increasing_strong in Hdi as [Hlt Hdi].
    specialize (IH Hdi Hr). cbn [flat_map].
    assert (HG: forall l rest, increasing (map fst l) -> StronglySorted lex rest ->
       (forall x, In x rest -> let '(_, de, _) := x in fst d < de) ->
       StronglySorted lex (map (fun kv : N * block_time => (bt_block (snd kv), fst d, fst kv)) (filter (fun kv => in_regions regions (bt_block (snd kv))) l) ++ rest)).
    { induction l as [|kv l IHl]; intros rest Hl Hs Hx; [auto|]. cbn [map] in Hl. apply increasing_strong in Hl as [Hl1 Hl2].
      cbn [filter]. destruct (in_regions _ _); [|auto]. cbn [map app]. constructor; [auto|].
      rewrite Forall_app. split.
      - rewrite Forall_map, Forall_forall. intros kv' Hkv. apply filter_In in Hkv as [Hkv _]. cbn. right. split; auto.
        apply Hl1. apply in_map; auto.
      - rewrite Forall_forall. intros [[? ?] ?] Hin. cbn. left. apply (Hx _ Hin). }
    apply HG; auto. intros [[? de] ?] Hin. apply in_flat_map in Hin as (d' & Hd' & Hx).
    apply in_map_iff in Hx as (kv & [= <- <- <-] & _). apply Hlt. apply in_map; auto. }
  conj.
  - rewrite (Permutation_flat_map rr_triples (rr_sort_perm _)). rewrite R1, <- ES. reflexivity.
  - apply rr_sort_sorted.
  - rewrite Forall_forall in *. intros r Hr. apply (Permutation_in _ (rr_sort_perm _)) in Hr. destruct (R2 r Hr); auto.
  - intros a b Ha Hb Hadj. apply (Permutation_in _ (rr_sort_perm _)) in Ha, Hb.
    refine (rr_no_adj _ R2 _ R3 a b Ha Hb Hadj). rewrite R1. exact Hlex.
Qed.

Example C46_example :
  thin_rmap [(0, 100)] [(1, [(0, bt 7 0); (1, bt 8 0); (2, bt 200 0)]); (4, [(0, bt 3 0); (5, bt 8 0)])] =
  [mkrr 3 4 4 0; mkrr 7 9 1 0; mkrr 8 9 4 5].
Proof. vm_compute. reflexivity. Qed.

(** ** C47 *)

(** The chunks of a device cover the bytes from 0 to the end of the last mapped
    block without gap or overlap; the copy chunks are exactly the mapped blocks,
    the skip chunks the others; kinds alternate. *)
Theorem C47_stream_covers : forall bs ks, 0 < bs -> increasing ks -> (forall k, In k ks -> (k + 1) * bs < 2 ^ 64) ->
  let upto := match ks with [] => 0 | _ => (last ks 0 + 1) * bs end in
  exists cs, thin_chunks bs ks = Ok cs /\ contiguous 0 cs upto /\
    (forall byte, copies cs Copy byte <-> In (byte / bs) ks) /\
    (forall byte, copies cs Skip byte <-> byte < upto /\ ~ In (byte / bs) ks) /\
    consecutive (fun a b => ck_contents a <> ck_contents b) cs.
Proof.
  intros bs ks Hbs Hi Hk upto. unfold thin_chunks.
  destruct ks as [|k r].
  - exists []. conj; cbn; auto; intros.
    + split; [|tauto]. intros (? & [] & _).
    + unfold upto. split; [|lia]. intros (? & [] & _).
  - destruct (thin_stream_spec bs Hbs (S (S (2 * length (k :: r)))) 0 (k :: r) Hi) as (cs & E & I1 & I2 & I3 & I4 & _).
    + intros. split; [lia|auto].
    + lia.
    + destruct (k =? 0); cbn [length]; lia.
    + exists cs. conj; auto. intros. rewrite I3. fold upto. split; intros (? & ?); [tauto|]. conj; auto. lia.
Qed.

Example C47_example : thin_chunks 8 [0; 1; 4] = Ok [mkchunk 0 16 Copy; mkchunk 16 16 Skip; mkchunk 32 8 Copy].
Proof. vm_compute. reflexivity. Qed.

Print Assumptions C23_runs_expand.
Print Assumptions C23_entries_denote.
Print Assumptions C23_bad_leaf_fails.
Print Assumptions C26_delta_classifies.
Print Assumptions C26_unmerged_data_blocks.
Print Assumptions C26_verbose_data_blocks_refuted.
Print Assumptions C27_trim_discards_free_blocks.
Print Assumptions C27_bitmap_order.
Print Assumptions C46_rmap_exact.
Print Assumptions C47_stream_covers.
