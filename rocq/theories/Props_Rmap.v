(** Property C46 for the command thin_rmap. *)
From Coq Require Import Permutation Sorting.Sorted.
From Verif Require Import Base Utils_Proofs Csum_Model Codec_Model Codec_Spec SpaceMap_Model SpaceMap_Spec Batcher_Model Builder_Model Builder_Spec BtreeRead_Proofs Walker_Model Walker_Spec Walker_Proofs
  Props_Walker ThinOut_Model ThinOut_Spec Props_ThinOut Restore_Model Repair_Model RestoreDoc_Spec Rmap_Model Dump_Model Dump_Spec Props_Dump Props_DumpEx.

Definition tree_of_device (t : dtree) : N * list (N * block_time) := (dv_id (dt_dev t), dv_maps (dt_dev t)).

Lemma loop_unshared D eng regions : forall trees (s : wst block_time) cur,
  Forall (fun t => tree bt_codec D true (dt_depth t) (dt_root t) (dv_maps (dt_dev t)) (dt_foot t) /\ increasing (map fst (dv_maps (dt_dev t)))) trees ->
  NoDup (flat_map dt_foot trees) -> map_ok (w_sm s) ->
  (forall b, In b (flat_map dt_foot trees) -> b < wsm_nr (w_sm s) /\ wcount (w_sm s) b = 0 /\ eng b = Some (D b)) ->
  rmap_loop eng regions (map (fun t => (dv_id (dt_dev t), dt_root t)) trees) s cur = Ok (rmap_devices regions cur (map tree_of_device trees)).
Proof.
  induction trees as [|t trees IH]; intros s cur HT HN HM Hf; [reflexivity|]. apply Forall_cons_iff in HT as [[Ht Hi] HT]. cbn [flat_map] in HN, Hf.
  apply NoDup_app_iff_local in HN as (N1 & N2 & N3). cbn [map rmap_loop rmap_devices tree_of_device].
  destruct (undamaged_walk_sm bt_codec false eng D (dt_depth t) (dt_root t) _ _ [] s Ht N1 Hi HM) as (s' & calls & E & L & K & _ & _ & _ & (WK & WV) & C).
  { intros b Hb. apply Hf. apply in_or_app. auto. }
  unfold accept_all in E. rewrite E, L. rewrite skipn_app, skipn_all, Nat.sub_diag. cbn [skipn app]. 
  assert (ER : rmap_entries (calls ++ [CEnd]) = dv_maps (dt_dev t)).
  { unfold rmap_entries. rewrite flat_map_app. cbn [flat_map]. rewrite app_nil_r. rewrite <- K. apply flat_map_ext. intros []; reflexivity. }
  rewrite ER. destruct (rmap_visit regions (dv_id (dt_dev t) mod 2 ^ 32) cur (dv_maps (dt_dev t))) as [c1 o1]. rewrite IH; auto.
  - cbn [bind]. destruct (rmap_devices regions c1 (map tree_of_device trees)). reflexivity.
  - intros b Hb. destruct (Hf b) as (B1 & B2 & B3); [apply in_or_app; auto|]. destruct WK as (W1 & W2 & W3). conj; auto; [congruence|].
    rewrite C by auto. rewrite B2. destruct (in_dec N.eq_dec b (dt_foot t)) as [Hin|]; [exfalso; apply (N3 b Hin Hb)|reflexivity].
Qed.

(** For every pool whose devices share no block of their trees: thin_rmap succeeds and prints
    regions that stand for exactly the mappings of the devices into the asked ranges of data
    blocks, in order of the data blocks, none empty and none that could be joined to another. *)
Theorem C46_command : forall D nr eng regions sb trees depth fm,
  nr < 2 ^ 64 -> read_sb eng 0 = Ok sb ->
  tree u64_codec D true depth (ts_mapping_root sb) (map (fun t => (dv_id (dt_dev t), dt_root t)) trees) fm -> NoDup fm ->
  increasing (map (fun t => dv_id (dt_dev t)) trees) -> Forall (fun t => dv_id (dt_dev t) < 2 ^ 32) trees ->
  Forall (fun t => tree bt_codec D true (dt_depth t) (dt_root t) (dv_maps (dt_dev t)) (dt_foot t) /\ mappings_ok (dv_maps (dt_dev t))) trees ->
  NoDup (flat_map dt_foot trees) -> (forall b, In b (fm ++ flat_map dt_foot trees) -> b < nr /\ eng b = Some (D b)) ->
  exists out, rmap_cmd nr eng regions = Ok out /\
    (forall data dev thin, In (data, dev, thin) (flat_map rr_triples out) <->
       exists t r bt, In t trees /\ dv_id (dt_dev t) = dev /\ In (thin, bt) (dv_maps (dt_dev t)) /\ bt_block bt = data /\ In r regions /\ fst r <= data < snd r) /\
    NoDup (flat_map rr_triples out) /\
    StronglySorted rr_before out /\ Forall (fun r => rr_begin r < rr_end r) out /\
    (forall a b, In a out -> In b out -> ~ (rr_dev b = rr_dev a /\ rr_begin b = rr_end a /\ rr_thin b = rr_thin a + (rr_end a - rr_begin a))).
Proof.
  intros D nr eng regions sb trees depth fm Hnr Es Tm Nm Hinc Hid HT HN Hb.
  assert (Hloop : rmap_loop eng regions (map (fun t => (dv_id (dt_dev t), dt_root t)) trees) (walker_new nr) (mkrr 0 0 0 0) = Ok (rmap_devices regions (mkrr 0 0 0 0) (map tree_of_device trees))).
  { apply (loop_unshared D); auto.
    - eapply Forall_impl; [|exact HT]. cbv beta. unfold mappings_ok. tauto.
    - unfold map_ok, walker_new, rsm_new. cbn [w_sm wsm_nr wmax wcount r_nr r_bits]. split; [auto|split; [lia|intros; lia]].
    - intros b Hin. cbn. destruct (Hb b); [apply in_or_app; auto|]. auto. }
  assert (Hi2 : increasing (map fst (map tree_of_device trees))) by (rewrite map_map; exact Hinc).
  destruct (C46_rmap_exact regions (map tree_of_device trees) Hi2) as (A & B & C & E).
  { rewrite Forall_map. rewrite Forall_forall in *. intros t Ht. cbn [tree_of_device fst snd]. split; auto. apply HT. auto. }
  exists (thin_rmap regions (map tree_of_device trees)). conj; auto.
  - unfold rmap_cmd. rewrite Es. cbn [bind]. 
    erewrite (C54_btree_to_map u64_codec false eng D); [|exact Tm|exact Nm|rewrite map_map; exact Hinc|exact Hnr|intros b Hin; apply Hb; apply in_or_app; auto]. cbn [bind].
    rewrite Hloop. cbn [bind]. unfold thin_rmap. destruct (rmap_devices regions (mkrr 0 0 0 0) (map tree_of_device trees)). reflexivity.
  - intros data dev thin. split.
    + intros Hin. apply (Permutation_in _ A) in Hin. apply in_flat_map in Hin as (d & Hd & Hx). apply in_map_iff in Hd as (t & <- & Ht). cbn [tree_of_device fst snd] in Hx.
      apply in_map_iff in Hx as ([k v] & [= <- <- <-] & Hkv). apply filter_In in Hkv as [Hkv Hr]. cbn [fst snd] in *. unfold in_regions in Hr. apply existsb_exists in Hr as (r & Hr & Hin).
      apply andb_prop in Hin as [H1 H2]. apply N.leb_le in H1. apply N.ltb_lt in H2. exists t, r, v. conj; auto.
    + intros (t & r & v & Ht & <- & Hkv & <- & Hr & H12). apply (Permutation_in _ (Permutation_sym A)). apply in_flat_map. exists (tree_of_device t). split; [apply in_map; auto|].
      cbn [tree_of_device fst snd]. apply in_map_iff. exists (thin, v). split; [reflexivity|]. apply filter_In. split; auto. unfold in_regions. apply existsb_exists. exists r. split; auto.
      cbn [snd]. apply andb_true_intro. split; [apply N.leb_le|apply N.ltb_lt]; tauto.
  - eapply (Permutation_NoDup (Permutation_sym A)). clear - Hinc HT. induction HT as [|t trees [_ [Hm _]] HT IH]; [constructor|]. cbn [map flat_map tree_of_device fst snd].
    cbn [map] in Hinc. apply increasing_strong in Hinc as [Hlt Hinc]. apply NoDup_app_iff_local. conj; auto.
    + apply increasing_NoDup in Hm. clear - Hm. induction (dv_maps (dt_dev t)) as [|[k v] l IHl]; [constructor|]. cbn [map fst] in Hm. inversion Hm as [|? ? M1 M2]; subst. cbn [filter].
      destruct (in_regions _ _); [|auto]. cbn [map]. constructor; [|auto]. intros Hin. apply in_map_iff in Hin as ([k' v'] & [= _ ->] & Hin). apply filter_In in Hin as [Hin _].
      apply M1. change k with (fst (k, v')). apply in_map. auto.
    + intros x Hx Hy. apply in_map_iff in Hx as (kv & <- & _). apply in_flat_map in Hy as (d & Hd & Hy). apply in_map_iff in Hd as (t' & <- & Ht'). apply in_map_iff in Hy as (kv' & [= _ Ei _] & _).
      cbn [tree_of_device fst] in Ei. assert (dv_id (dt_dev t) < dv_id (dt_dev t')) by (apply Hlt; apply (in_map (fun t => dv_id (dt_dev t))); auto). lia.
Qed.
Print Assumptions C46_command.

(** Without the hypothesis that nothing is shared the claim is false: in the restored pool of
    Props_DumpEx devices 1 and 2 have the same two mappings (0 to 4 and 1 to 5) in a shared tree, and
    only device 1 is reported, while the dump gives them for both. *)
Theorem C46_shared_refuted : exists D,
  rmap_cmd 20 (reading 20 D) [(0, 10)] = Ok [mkrr 4 6 1 0] /\
  snd (ex_dump D) = Ok tt /\ filter (fun e => match e with EvDevB d => id_dev d <? 3 | EvRef _ | EvMap _ => true | _ => false end) (fst (ex_dump D)) =
    [EvMap (mkmap 0 4 0 2); EvDevB (mkirdev 1 2 0 0 0); EvRef 2; EvDevB (mkirdev 2 2 0 0 0); EvRef 2; EvRef 3; EvRef 3].
Proof. exists (ex_disk ex_doc). conj; vm_compute; reflexivity. Qed.
Print Assumptions C46_shared_refuted.
