(** C45, continued: what is found, and the rebuilt superblock. *)
From Coq Require Import Permutation.
From Verif Require Import Base Csum_Model Codec_Model Codec_Spec Codec_Proofs NodeCodec_Proofs Pack_Proofs SpaceMap_Model Walker_Model
  Restore_Model RestoreFin_Proofs Repair_Model Repair_Spec RepairOrd_Proofs RepairInfo_Proofs RepairRef_Proofs Props_Repair.

(** ** What the collector knows *)
(** What is recorded of a block is true of the tree stored there: its keys are strictly
    increasing across all its leaves, and the numbers, the age, the highest block and the
    table of times are those of its entries. *)
Theorem C45_infos_true : forall nr eng s, collect_infos nr eng = Ok s -> forall b,
  match k_infos s b with
  | Some (NMap i) => b < nr /\ claims eng b (mi_b i) /\ exists kvs, stored bt_codec eng b kvs /\ map_sum i kvs
  | Some (NDev i) => b < nr /\ claims eng b (di_b i) /\ exists devs, stored_devices eng b devs /\ dev_sum i devs
  | Some (NDet i) => b < nr /\ claims eng b (ti_b i) /\ exists kvs, stored dd_codec eng b kvs /\ det_sum i kvs
  | None => True
  end.
Proof.
  intros nr eng s E b. pose proof (collect_sound nr eng s E b) as H. destruct (k_infos s b) as [i|]; [|auto].
  specialize (H i eq_refl). destruct i; destruct H as [Hb H]; split; auto.
Qed.
(** The candidate roots are the valid nodes that no valid node points to. *)
Theorem C45_candidates : forall nr eng s devs dets, collect_infos nr eng = Ok s -> gather_roots nr s = (devs, dets) ->
  let orphan b := forall p, k_infos s p <> None -> ~ child_of eng p b in
  (forall i, In i devs <-> exists b, k_infos s b = Some (NDev i) /\ orphan b) /\
  (forall i, In i dets <-> exists b, k_infos s b = Some (NDet i) /\ orphan b).
Proof.
  intros nr eng s devs dets E G orphan. pose proof (collect_sound nr eng s E) as T. pose proof (collect_ref nr eng s E) as R.
  assert (O : forall b, k_referenced s b = false <-> orphan b).
  { intros b. unfold orphan. split.
    - intros H p Hp Hc. assert (k_referenced s b = true) by (apply R; left; exists p; auto). congruence.
    - intros H. destruct (k_referenced s b) eqn:Er; auto. apply R in Er. destruct Er as [(p & P1 & P2)|[]]. destruct (H p P1 P2). }
  unfold gather_roots in G.
  set (os := flat_map _ (range 0 nr)) in G.
  assert (Hos : forall n, In n os <-> exists b, k_infos s b = Some n /\ orphan b).
  { intros n. unfold os. rewrite in_flat_map. split.
    - intros (b & Hb & Hn). destruct (k_referenced s b) eqn:Er; [destruct Hn|]. apply O in Er. exists b.
      destruct (k_infos s b) as [m|] eqn:Ek; [|destruct Hn]. destruct Hn as [->|[]]. auto.
    - intros (b & Hb & Ho). exists b. apply O in Ho. rewrite Ho, Hb. split; [|left; auto]. apply in_range.
      destruct (T b n Hb) as [Hbn _]. lia. }
  assert (devs = flat_map (fun n => match n with NDev i => [i] | _ => [] end) os) as -> by congruence.
  assert (dets = flat_map (fun n => match n with NDet i => [i] | _ => [] end) os) as -> by congruence.
  split; intros i; rewrite in_flat_map; split.
  - intros (n & Hn & Hi). destruct n; try destruct Hi as []. 
    + destruct H. apply Hos in Hn. auto.
    + destruct H.
  - intros H. exists (NDev i). split; [apply Hos; auto|left; auto].
  - intros (n & Hn & Hi). destruct n; try destruct Hi as [].
    + destruct H. apply Hos in Hn. auto.
    + destruct H.
  - intros H. exists (NDet i). split; [apply Hos; auto|left; auto].
Qed.

(** ** Ranges *)
Lemma stored_all {V} (c : codec V) eng (P : N * V -> Prop) :
  (forall b h ks vs, node_in c eng b (Leaf h ks vs) -> Forall P (combine ks vs)) ->
  forall b kvs, stored c eng b kvs -> Forall P kvs.
Proof.
  intros HL. fix IH 3. intros b kvs [b' h ks vs H|b' h ks bs kvss H Hne F].
  - eapply HL; eauto.
  - clear Hne H. induction F as [|x y bs kvss Hx F IHF]; cbn [concat]; [constructor|]. apply Forall_app. split; [|exact IHF].
    eapply IH; eauto.
Qed.
Lemma stored_range {V} (c : codec V) range eng : lossless c range -> N.of_nat (csize c) + 8 < 2 ^ 32 -> device eng ->
  forall b kvs, stored c eng b kvs -> Forall (fun kv => range (snd kv)) kvs.
Proof.
  intros L Hc Hd. apply stored_all. intros b h ks vs (data & D1 & D2 & D3). destruct (Hd _ _ D1) as [B1 B2].
  destruct (unpack_node_sound c range data true true _ L Hc B1 B2 D3) as [Hl _].
  unfold node_layout in Hl. cbn [get_header get_keys] in Hl. destruct Hl as (_ & _ & _ & _ & _ & _ & _ & _ & Hv & _ & _ & Hr).
  apply Forall_forall. intros [k v] Hkv. apply in_combine_r in Hkv. cbn [snd]. apply In_nth_error in Hkv. destruct Hkv as [i Hi].
  apply (Hr (N.of_nat i)); [|rewrite Nat2N.id; auto].
  rewrite <- Hv. unfold nlen. assert (nth_error vs i <> None) as Hn by congruence. apply nth_error_Some in Hn. lia.
Qed.
Lemma devices_range eng b devs : device eng -> stored_devices eng b devs -> forall bt, In bt (all_mappings devs) -> bt_range bt.
Proof.
  intros Hd (roots & _ & F) bt Hbt. unfold all_mappings in Hbt. apply in_flat_map in Hbt. destruct Hbt as (d & Hdv & Hm).
  apply in_map_iff in Hm. destruct Hm as (kv & <- & Hkv).
  assert (exists root, stored bt_codec eng root (snd d)) as (root & S0).
  { clear - F Hdv. induction F as [|r d' rs ds [_ Hs] F IH]; [destruct Hdv|]. destruct Hdv as [->|Hdv]; [eauto|auto]. }
  pose proof (stored_range bt_codec bt_range eng bt_lossless ltac:(cbn; lia) Hd _ _ S0) as R. rewrite Forall_forall in R. apply R. auto.
Qed.

(** ** What is found *)
Section Found.
Context (nr : N) (eng : N -> option (list N)) (sd : list dev_info -> list dev_info) (sm : list det_info -> list det_info).
Hypothesis Hsd : is_sort dev_le sd.
Hypothesis Hsm : is_sort det_le sm.
Hypothesis Hdev : device eng.

(** A pair of roots: the trees it stands for, and what it asks of the superblock. *)
Definition found_pair (r : found_roots) (m t : N) : Prop :=
  exists bm bt devs dets highest maxtid,
    claims eng bm m /\ stored_devices eng bm devs /\ increasing (map fst devs) /\
    claims eng bt t /\ stored dd_codec eng bt dets /\ increasing (map fst dets) /\
    nlen (all_mappings devs) mod 2 ^ 64 = total_mapped dets mod 2 ^ 64 /\
    (exists ids, btree_to_key_set u64_codec nr eng true m = Ok ids /\ btree_to_key_set dd_codec nr eng true t = Ok ids) /\
    greatest (map bt_time (all_mappings devs) ++ detail_times dets) (fr_time r) /\
    greatest (map bt_block (all_mappings devs)) highest /\ fr_nr_data r = highest + 1 /\
    greatest (map (fun kd => dd_tid (snd kd)) dets) maxtid /\ fr_tid r = (maxtid + 1) mod 2 ^ 64.
(** A mapping tree on its own: details are made up for its devices. *)
Definition found_alone (r : found_roots) (devs0 : list (N * (N * N))) : Prop :=
  exists bm m devs highest age,
    claims eng bm m /\ stored_devices eng bm devs /\ increasing (map fst devs) /\
    btree_to_map u64_codec nr eng true m = Ok (map (fun d => (fst d, fst (snd d))) devs0) /\
    Forall (fun d => exists kvs, stored bt_codec eng (fst (snd d)) kvs /\ snd (snd d) = nlen kvs mod 2 ^ 64) devs0 /\
    greatest (map bt_time (all_mappings devs)) age /\ fr_time r = age + 1 /\
    greatest (map bt_block (all_mappings devs)) highest /\ fr_nr_data r = highest + 1 /\ fr_tid r = 1.

Lemma list_eqb_eq a : forall b, list_eqb a b = true -> a = b.
Proof using.
  induction a as [|x a IH]; intros [|y b] H; cbn [list_eqb] in H; try discriminate; auto.
  apply Bool.andb_true_iff in H. destruct H as [H1 H2]. apply N.eqb_eq in H1. f_equal; auto.
Qed.
Lemma greatest_lt l x n : greatest l x -> 0 < n -> (forall y, In y l -> y < n) -> x < n.
Proof using. intros [_ [H|[_ ->]]] Hn Hl; auto. Qed.

Theorem C45_found : forall found, find_roots nr eng sd sm = Ok found -> found <> [] /\
  forall r, In r found -> match fr_devices r with TOnDisk m t => found_pair r m t | TInCore devs => found_alone r devs end.
Proof using Hsd Hsm Hdev.
  intros found E. unfold find_roots in E. inv_bind E. rename a into s.
  destruct (gather_roots nr s) as [devs dets] eqn:Eg. pose proof (C45_candidates nr eng s devs dets E0 Eg) as [Cd Ct].
  destruct (find_root_pairs nr eng sd sm devs dets) as [devs' pairs] eqn:Ep.
  destruct (C45_pairs nr eng sd sm Hsd Hsm devs dets devs' pairs Ep) as (P1 & _ & P3).
  pose proof (C45_infos_true nr eng s E0) as T.
  assert (Hhigh : forall b dv i, stored_devices eng b dv -> dev_sum i dv -> add64 (di_highest i) 1 = di_highest i + 1).
  { intros b dv i S0 D. unfold add64. apply N.mod_small.
    assert (di_highest i < 2 ^ 40); [|change W64 with 18446744073709551616; change (2 ^ 40) with 1099511627776 in *; lia].
    eapply greatest_lt; [apply (ds_high _ _ D)|reflexivity|]. intros y Hy. apply in_map_iff in Hy. destruct Hy as (bt & <- & Hbt).
    apply (devices_range eng b dv Hdev S0 bt Hbt). }
  destruct pairs as [|p0 pairs0] eqn:Epp.
  - destruct devs' as [|dev0 devs0] eqn:Ed; [discriminate|]. assert (Hne : devs' <> []) by congruence. rewrite <- Ed in *. clear dev0 devs0 Ed.
    assert (M : forall l fs, mapM_res (to_partial_found_roots nr eng s) l = Ok fs -> Forall2 (fun d f => to_partial_found_roots nr eng s d = Ok f) l fs).
    { clear. induction l as [|x l IH]; intros fs H; cbn [mapM_res] in H; [okinj H; constructor|].
      inv_bind H. inv_bind H. okinj H. constructor; auto. }
    apply M in E. split.
    { intros ->. inversion E. congruence. }
    intros r Hr.
    assert (exists dev, In dev devs' /\ to_partial_found_roots nr eng s dev = Ok r) as (dev & Hdv & Et).
    { clear - E Hr. induction E as [|d f ds fs Hd E IH]; [destruct Hr|]. destruct Hr as [->|Hr]; [exists d; split; [left; auto|auto]|].
      destruct (IH Hr) as (dev & ? & ?). exists dev. split; [right; auto|auto]. }
    apply (Permutation_in _ (Permutation_sym P3)) in Hdv. apply Cd in Hdv. destruct Hdv as (bm & Hk & _).
    specialize (T bm) as Tm. rewrite Hk in Tm. destruct Tm as (_ & C1 & dv & S1 & S2).
    unfold to_partial_found_roots in Et. inv_bind Et. inv_bind Et. okinj Et. cbn [fr_devices].
    exists bm, (di_b dev), dv, (di_highest dev), (di_age dev). cbn [fr_time fr_nr_data fr_tid].
    assert (Hpd : forall rs ds, partial_devices s rs = Ok ds -> map (fun d => (fst d, fst (snd d))) ds = rs /\
      Forall (fun d => exists kvs, stored bt_codec eng (fst (snd d)) kvs /\ snd (snd d) = nlen kvs mod 2 ^ 64) ds).
    { induction rs as [|[id root] rs IH]; intros ds H; cbn [partial_devices] in H; [okinj H; split; [auto|constructor]|].
      specialize (T root). destruct (k_infos s root) as [[| i |]|]; try discriminate. inv_bind H. okinj H.
      destruct (IH _ eq_refl) as [I1 I2] || destruct (IH _ E3) as [I1 I2]. destruct T as (_ & _ & kvs & K1 & K2).
      split; [cbn [map fst snd]; rewrite I1; auto|]. constructor; [|auto]. cbn [fst snd]. exists kvs. split; [auto|apply (ms_nr _ _ K2)]. }
    destruct (Hpd _ _ E2) as [Q1 Q2]. rewrite Q1.
    assert (Hage : di_age dev < 2 ^ 24).
    { eapply greatest_lt; [apply (ds_age _ _ S2)|reflexivity|]. intros y Hy. apply in_map_iff in Hy. destruct Hy as (bt & <- & Hbt).
      apply (devices_range eng bm dv Hdev S1 bt Hbt). }
    conj; auto; try apply S2.
    + unfold add_u32. apply N.mod_small. change W32 with 4294967296. change (2 ^ 24) with 16777216 in Hage. lia.
    + eapply Hhigh; eauto.
  - assert (Hpn : pairs <> []) by congruence. rewrite <- Epp in *. clear p0 pairs0 Epp.
    assert (found = map (fun p => to_found_roots (fst p) (snd p)) pairs) by (destruct pairs; congruence). subst found.
    split; [destruct pairs; [congruence|discriminate]|]. intros r Hr. apply in_map_iff in Hr. destruct Hr as ([dev det] & <- & Hin).
    cbn [fst snd]. apply P1 in Hin. destruct Hin as (D1 & D2 & D3 & _ & D5). cbn [to_found_roots fr_devices].
    apply Cd in D1. destruct D1 as (bm & Hm & _). apply Ct in D2. destruct D2 as (bt & Ht & _).
    pose proof (T bm) as Tm. rewrite Hm in Tm. destruct Tm as (_ & C1 & dv & S1 & S2).
    pose proof (T bt) as Tt. rewrite Ht in Tt. destruct Tt as (_ & C2 & dd & R1 & R2).
    exists bm, bt, dv, dd, (di_highest dev), (ti_max_tid det). cbn [to_found_roots fr_time fr_nr_data fr_tid].
    conj; auto; try apply S2; try apply R2.
    + rewrite <- (ds_nr _ _ S2), <- (ts_nr _ _ R2). auto.
    + unfold devices_identical in D5. destruct (btree_to_key_set u64_codec _ _ _ _) as [a1| |]; try discriminate.
      destruct (btree_to_key_set dd_codec _ _ _ _) as [a2| |]; try discriminate. apply list_eqb_eq in D5. subst a2. exists a1. auto.
    + apply greatest_app; [apply S2|apply R2].
    + eapply Hhigh; eauto.
Qed.

(** The first of the pairs is one whose mapping tree is the most recent. *)
Theorem C45_best_first : forall r rest m t, find_roots nr eng sd sm = Ok (r :: rest) -> fr_devices r = TOnDisk m t ->
  exists s devs dets dev det, collect_infos nr eng = Ok s /\ gather_roots nr s = (devs, dets) /\
    let compatible dev det := In dev devs /\ In det dets /\ di_nr_mappings dev = ti_nr_mappings det /\
      (exists dev', In dev' devs /\ di_nr_devices dev' = ti_nr_devices det) /\
      devices_identical nr eng true (di_b dev) (ti_b det) = true in
    compatible dev det /\ di_b dev = m /\ ti_b det = t /\
    forall dev' det', compatible dev' det' -> compare_time_counts (di_tc dev) (di_tc dev') <> Gt.
Proof using Hsd Hsm.
  intros r rest m t E Er. unfold find_roots in E. inv_bind E. rename a into s.
  destruct (gather_roots nr s) as [devs dets] eqn:Eg.
  destruct (find_root_pairs nr eng sd sm devs dets) as [devs' pairs] eqn:Ep.
  destruct (C45_pairs nr eng sd sm Hsd Hsm devs dets devs' pairs Ep) as (P1 & P2 & _).
  destruct pairs as [|[dev det] pairs0].
  { destruct devs' as [|d0 ds]; [discriminate|]. cbn [mapM_res] in E. inv_bind E. inv_bind E. assert (a = r) by congruence. subst a.
    unfold to_partial_found_roots in E1. inv_bind E1. inv_bind E1. okinj E1. discriminate. }
  cbn [map fst snd] in E. assert (to_found_roots dev det = r) by congruence. subst r. cbn [to_found_roots fr_devices] in *.
  exists s, devs, dets, dev, det. cbv zeta.
  assert (HC := proj1 (P1 dev det) (or_introl eq_refl)). conj; [auto|auto|apply HC|apply HC|apply HC|apply HC|apply HC|congruence|congruence|].
  intros dev' det' H. apply P1 in H. apply In_nth_error in H. destruct H as [[|i] Hi].
  - cbn [nth_error] in Hi. assert (dev' = dev) by congruence. subst dev'.
    destruct C45_compare_total_order as (_ & O2 & _). rewrite (proj2 (O2 _ _) eq_refl). discriminate.
  - apply (P2 0%nat (S i) (dev, det) (dev', det')); auto. lia.
Qed.
End Found.

(** ** The rebuilt superblock *)
(** The value asked for: the user's, else the old superblock's, else nothing. *)
Definition wanted (user old : option N) : N :=
  match user with Some n => n | None => match old with Some n => n | None => 0 end end.
Definition old_nr_data (ref : option thin_sb) : option N :=
  match ref with
  | Some sb => match smroot_unpack (ts_data_sm_root sb) with Ok (r, _) => Some (sr_nr_blocks r) | _ => None end
  | None => None
  end.
Lemma at_least_max user old least : at_least (or_else user old) least = N.max (wanted user old) least.
Proof.
  unfold at_least, or_else, wanted. destruct user as [n|]; [|destruct old as [n|]]; [destruct (N.ltb_spec least n); lia|destruct (N.ltb_spec least n); lia|lia].
Qed.

Theorem C45_rebuild : forall r ref o res, rebuild_superblock r ref o = Ok res ->
  wanted (ov_nr_data_blocks o) (old_nr_data ref) < 2 ^ 64 -> fr_nr_data r < 2 ^ 64 ->
  let tid := N.max (wanted (ov_transaction_id o) (option_map ts_transaction_id ref)) (fr_tid r) in
  let nr_data := N.max (wanted (ov_nr_data_blocks o) (old_nr_data ref)) (fr_nr_data r) in
  let time := N.max (match ref with Some sb => ts_time sb | None => 0 end) (fr_time r) in
  exists bs, (ov_data_block_size o = Some bs \/ ov_data_block_size o = None /\ option_map ts_data_block_size ref = Some bs) /\
    128 <= bs <= 2097152 /\ bs mod 128 = 0 /\
    match res with
    | OnDisk sb =>
        fr_devices r = TOnDisk (ts_mapping_root sb) (ts_details_root sb) /\ ts_transaction_id sb = tid /\ ts_time sb = time /\
        ts_data_block_size sb = bs /\ ts_needs_check sb = false /\ ts_metadata_snap sb = 0 /\ ts_version sb = 2 /\
        exists rest, smroot_unpack (ts_data_sm_root sb) = Ok (mksmroot nr_data 0 0 0, rest)
    | InCore sb =>
        exists devs, fr_devices r = TInCore devs /\ co_tid sb = tid /\ co_time sb = time /\ co_block_size sb = bs /\
          co_needs_check sb = false /\ co_version sb = 2 /\ co_nr_data_blocks sb = nr_data /\
          co_devices sb = map (fun d => (fst d, (fst (snd d), mkdd (snd (snd d)) (tid - 1) (fr_time r) (fr_time r)))) devs
    end.
Proof.
  intros r ref o res E Hw Hf tid nr_data time. unfold rebuild_superblock in E. inv_bind E. rename a into bs. exists bs.
  assert (Hbs : (ov_data_block_size o = Some bs \/ ov_data_block_size o = None /\ option_map ts_data_block_size ref = Some bs) /\
    128 <= bs <= 2097152 /\ bs mod 128 = 0).
  { unfold or_else in E0.
    assert (C : forall x, check_data_block_size x = Ok bs -> x = bs /\ 128 <= bs <= 2097152 /\ bs mod 128 = 0).
    { intros x H. unfold check_data_block_size in H. destruct (_ || _) eqn:Eo; [discriminate|]. okinj H.
      apply Bool.orb_false_iff in Eo. destruct Eo as [E1 E2]. apply Bool.negb_false_iff in E1, E2.
      apply Bool.andb_true_iff in E1. destruct E1 as [E1 E3]. apply N.leb_le in E1, E3. apply N.eqb_eq in E2.
      conj; auto. change 127 with (N.ones 7) in E2. rewrite N.land_ones in E2. exact E2. }
    destruct (ov_data_block_size o) as [x|].
    - destruct (C x E0) as (-> & ? & ?). auto.
    - destruct (option_map ts_data_block_size ref) as [x|]; [|discriminate]. destruct (C x E0) as (-> & ? & ?). auto. }
  conj; try apply Hbs.
  fold (old_nr_data ref) in E. rewrite !at_least_max in E.
  assert (Etime : match ref with Some sb => N.max (ts_time sb) (fr_time r) | None => fr_time r end = time).
  { unfold time. destruct ref; lia. }
  rewrite Etime in E. fold tid nr_data in E.
  destruct (pack_root_reads 0 0 eq_refl eq_refl (mksmroot nr_data 0 0 0)) as (p & Ep & _ & _ & rest & Eu).
  { unfold smroot_range. cbn [sr_nr_blocks sr_nr_allocated sr_bitmap_root sr_ref_count_root]. conj; try reflexivity. unfold nr_data. lia. }
  rewrite Ep in E. cbn [bind] in E. destruct (fr_devices r) as [m t|devs]; okinj E.
  - cbn [ts_mapping_root ts_details_root ts_transaction_id ts_time ts_data_block_size ts_needs_check ts_metadata_snap ts_version ts_data_sm_root].
    conj; auto. exists rest. auto.
  - exists devs. cbn [co_tid co_time co_block_size co_needs_check co_version co_nr_data_blocks co_devices]. conj; auto.
Qed.

Section Rebuilt.
Context (nr : N) (eng : N -> option (list N)) (sd : list dev_info -> list dev_info) (sm : list det_info -> list det_info).
Hypothesis Hsd : is_sort dev_le sd.
Hypothesis Hsm : is_sort det_le sm.
Hypothesis Hdev : device eng.

Lemma found_small found r : find_roots nr eng sd sm = Ok found -> In r found -> fr_nr_data r < 2 ^ 64.
Proof using Hsd Hsm Hdev.
  intros E Hr. destruct (C45_found nr eng sd sm Hsd Hsm Hdev found E) as [_ H]. specialize (H r Hr).
  assert (B : forall b devs highest, stored_devices eng b devs -> greatest (map bt_block (all_mappings devs)) highest -> highest + 1 < 2 ^ 64).
  { intros b devs h S0 G. assert (h < 2 ^ 40); [|change (2 ^ 40) with 1099511627776 in *; change (2 ^ 64) with 18446744073709551616; lia].
    eapply greatest_lt; [exact G|reflexivity|]. intros y Hy. apply in_map_iff in Hy. destruct Hy as (bt & <- & Hbt).
    apply (devices_range eng b devs Hdev S0 bt Hbt). }
  destruct (fr_devices r) as [m t|devs0].
  - destruct H as (bm & bt & devs & dets & hi & mt & _ & S1 & _ & _ & _ & _ & _ & _ & _ & G & -> & _). eauto.
  - destruct H as (bm & m & devs & hi & age & _ & S1 & _ & _ & _ & _ & _ & G & -> & _). eauto.
Qed.

(** The superblock rebuilt from a pair of roots: its trees are the ones found, its data
    device covers every mapped block, its time is not before that of any mapping or
    device, and its transaction is after every device's. *)
Theorem C45_rebuilt_covers : forall found r ref o sb, homed eng ->
  find_roots nr eng sd sm = Ok found -> In r found -> rebuild_superblock r ref o = Ok (OnDisk sb) ->
  wanted (ov_nr_data_blocks o) (old_nr_data ref) < 2 ^ 64 ->
  exists devs dets root rest, stored_devices eng (ts_mapping_root sb) devs /\ stored dd_codec eng (ts_details_root sb) dets /\
    smroot_unpack (ts_data_sm_root sb) = Ok (root, rest) /\
    (forall bt, In bt (all_mappings devs) -> bt_block bt < sr_nr_blocks root /\ bt_time bt <= ts_time sb) /\
    (forall id dd, In (id, dd) dets -> dd_ctime dd <= ts_time sb /\ dd_stime dd <= ts_time sb) /\
    ((forall id dd, In (id, dd) dets -> dd_tid dd < 2 ^ 64 - 1) ->
     forall id dd, In (id, dd) dets -> dd_tid dd < ts_transaction_id sb) /\
    wanted (ov_nr_data_blocks o) None <= sr_nr_blocks root /\ wanted (ov_transaction_id o) None <= ts_transaction_id sb.
Proof using Hsd Hsm Hdev.
  intros found r ref o sb Hh E Hr Eb Hw. pose proof (found_small found r E Hr) as Hs.
  destruct (C45_found nr eng sd sm Hsd Hsm Hdev found E) as [_ H]. specialize (H r Hr).
  destruct (C45_rebuild r ref o _ Eb Hw Hs) as (bs & _ & _ & _ & F1 & F2 & F3 & _ & _ & _ & _ & rest & F4). rewrite F1 in H.
  destruct H as (bm & bt & devs & dets & hi & mt & C1 & S1 & _ & C2 & S2 & _ & _ & _ & G1 & G2 & G3 & G4 & G5).
  apply Hh in C1, C2. subst bm bt. exists devs, dets. eexists. exists rest. cbv zeta in F2, F3, F4. conj; [auto|auto|exact F4| | | | |]; cbn [sr_nr_blocks].
  - intros b Hb. split.
    + destruct G2 as [G2 _]. specialize (G2 (bt_block b) ltac:(apply in_map; auto)). lia.
    + destruct G1 as [G1 _]. specialize (G1 (bt_time b) ltac:(apply in_app_iff; left; apply in_map; auto)). lia.
  - intros id dd Hd. destruct G1 as [G1 _]. split.
    + specialize (G1 (dd_ctime dd)). rewrite F3. apply N.max_le_iff. right. apply G1. apply in_app_iff. right. apply in_flat_map. exists (id, dd). cbn. auto.
    + specialize (G1 (dd_stime dd)). rewrite F3. apply N.max_le_iff. right. apply G1. apply in_app_iff. right. apply in_flat_map. exists (id, dd). cbn. auto.
  - intros Hm id dd Hd.
    assert (Hmt : mt < 2 ^ 64 - 1).
    { eapply greatest_lt; [exact G4|reflexivity|]. intros y Hy. apply in_map_iff in Hy. destruct Hy as ([i x] & <- & Hi). apply (Hm i x Hi). }
    rewrite N.mod_small in G5 by (change (2 ^ 64) with 18446744073709551616 in *; lia).
    destruct G4 as [G4 _]. specialize (G4 (dd_tid dd) ltac:(apply in_map_iff; exists (id, dd); auto)). lia.
  - unfold wanted in *. destruct (ov_nr_data_blocks o); lia.
  - rewrite F2. unfold wanted. destruct (ov_transaction_id o); lia.
Qed.

(** When the details are lost: every device gets details dated after all the mappings. *)
Theorem C45_rebuilt_without_details : forall found r ref o sb, homed eng ->
  find_roots nr eng sd sm = Ok found -> In r found -> rebuild_superblock r ref o = Ok (InCore sb) ->
  wanted (ov_nr_data_blocks o) (old_nr_data ref) < 2 ^ 64 ->
  exists m devs, stored_devices eng m devs /\
    btree_to_map u64_codec nr eng true m = Ok (map (fun d => (fst d, fst (snd d))) (co_devices sb)) /\
    (forall bt, In bt (all_mappings devs) -> bt_block bt < co_nr_data_blocks sb /\ bt_time bt < co_time sb) /\
    forall id root dd, In (id, (root, dd)) (co_devices sb) ->
      (exists kvs, stored bt_codec eng root kvs /\ dd_mapped dd = nlen kvs mod 2 ^ 64) /\
      dd_tid dd < co_tid sb /\ dd_ctime dd = dd_stime dd /\ dd_stime dd <= co_time sb /\
      (forall bt, In bt (all_mappings devs) -> bt_time bt < dd_stime dd).
Proof using Hsd Hsm Hdev.
  intros found r ref o sb Hh E Hr Eb Hw. pose proof (found_small found r E Hr) as Hs.
  destruct (C45_found nr eng sd sm Hsd Hsm Hdev found E) as [_ H]. specialize (H r Hr).
  destruct (C45_rebuild r ref o _ Eb Hw Hs) as (bs & _ & _ & _ & devs0 & F1 & F2 & F3 & _ & _ & _ & F4 & F5). rewrite F1 in H.
  destruct H as (bm & m & devs & hi & age & C1 & S1 & _ & M1 & M2 & G1 & G2 & G3 & G4 & G5).
  apply Hh in C1. subst bm. exists m, devs. cbv zeta in F2, F3, F4, F5.
  assert (HT : forall bt, In bt (all_mappings devs) -> bt_time bt < fr_time r).
  { intros b Hb. destruct G1 as [G1 _]. specialize (G1 (bt_time b) ltac:(apply in_map; auto)). lia. }
  conj; [auto| | |].
  - rewrite F5, map_map. cbn [fst snd]. auto.
  - intros b Hb. specialize (HT b Hb). destruct G3 as [G3 _]. specialize (G3 (bt_block b) ltac:(apply in_map; auto)). lia.
  - intros id root dd Hd. rewrite F5 in Hd. apply in_map_iff in Hd. destruct Hd as ([id0 [root0 n]] & Ed & Hd).
    cbn [fst snd] in Ed. injection Ed as <- <- <-. cbn [dd_mapped dd_tid dd_ctime dd_stime].
    rewrite Forall_forall in M2. specialize (M2 _ Hd). cbn [fst snd] in M2. conj; auto; try lia.
Qed.

(** ** The whole: either the superblock agrees with what was found and is kept, with the
    overrides, or it is rebuilt from the best of what was found. *)
Theorem C45_read_or_rebuild : forall loc o res, read_or_rebuild_superblock nr eng sd sm loc o = Ok res ->
  exists r rest, find_roots nr eng sd sm = Ok (r :: rest) /\
  ((exists sb sb' root, read_sb eng loc = Ok sb /\ res = OnDisk sb' /\
     In root (r :: rest) /\ fr_devices root = TOnDisk (ts_mapping_root sb) (ts_details_root sb) /\
     ts_mapping_root sb' = ts_mapping_root sb /\ ts_details_root sb' = ts_details_root sb /\ ts_time sb' = ts_time sb /\
     ts_transaction_id sb' = N.max (wanted (ov_transaction_id o) None) (ts_transaction_id sb) /\
     ts_data_block_size sb' = wanted (ov_data_block_size o) (Some (ts_data_block_size sb)) /\
     match ov_nr_data_blocks o with
     | None => ts_data_sm_root sb' = ts_data_sm_root sb
     | Some n => exists old r1, smroot_unpack (ts_data_sm_root sb) = Ok (old, r1) /\
         pack_root (mksmroot (N.max n (sr_nr_blocks old)) (sr_nr_allocated old) (sr_bitmap_root old) (sr_ref_count_root old))
           SPACE_MAP_ROOT_SIZE = Ok (ts_data_sm_root sb')
     end) \/
   (exists ref, rebuild_superblock r ref o = Ok res /\
     match ref with
     | Some sb => read_sb eng loc = Ok sb /\
         forall root, In root (r :: rest) -> fr_devices root <> TOnDisk (ts_mapping_root sb) (ts_details_root sb)
     | None => read_sb eng loc = Err \/ exists sb, read_sb eng loc = Ok sb /\ override_sb o sb = Err
     end)).
Proof using Hsd Hsm Hdev.
  intros loc o res E. unfold read_or_rebuild_superblock in E. inv_bind E. rename a into found.
  destruct (C45_found nr eng sd sm Hsd Hsm Hdev found E0) as [Hne _].
  destruct found as [|r rest]; [congruence|]. exists r, rest. split; [auto|].
  destruct (read_sb eng loc) as [sb| |] eqn:Er; [|right; exists None; auto|discriminate].
  destruct (superblock_consistent sb (r :: rest)) eqn:Ec.
  - destruct (override_sb o sb) as [sb'| |] eqn:Eo; [left|right; exists None; split; [auto|eauto]|discriminate].
    unfold superblock_consistent in Ec. apply existsb_exists in Ec. destruct Ec as (root & Hin & Hroot).
    exists sb, sb', root. assert (res = OnDisk sb') by congruence. subst res.
    assert (Hd : fr_devices root = TOnDisk (ts_mapping_root sb) (ts_details_root sb)).
    { destruct (fr_devices root) as [m t|]; [|discriminate]. apply Bool.andb_true_iff in Hroot. destruct Hroot as [H1 H2].
      apply N.eqb_eq in H1, H2. subst. auto. }
    unfold override_sb in Eo. inv_bind Eo. okinj Eo.
    cbn [ts_mapping_root ts_details_root ts_time ts_transaction_id ts_data_block_size ts_data_sm_root]. conj; auto.
    + unfold wanted. destruct (ov_transaction_id o); lia.
    + destruct (ov_nr_data_blocks o); [|okinj E1; auto]. inv_bind E1. destruct a0 as [old r1]. exists old, r1. auto.
  - right. exists (Some sb). split; [auto|]. split; [auto|]. intros root Hin Hd. unfold superblock_consistent in Ec.
    assert (existsb (fun r0 => match fr_devices r0 with TOnDisk m d => (ts_mapping_root sb =? m) && (ts_details_root sb =? d) | TInCore _ => false end) (r :: rest) = true).
    { apply existsb_exists. exists root. split; [auto|]. rewrite Hd, !N.eqb_refl. auto. }
    congruence.
Qed.
End Rebuilt.
