(** Property C57: what thin_ls reports. *)
From Coq Require Import Permutation.
From Verif Require Import Base Csum_Model Codec_Model Codec_Spec Codec_Proofs Pack_Proofs SpaceMap_Model Utils_Model Utils_Proofs Builder_Spec Builder_Proofs BtreeRead_Proofs Walker_Model Walker_Spec Walker_Proofs WalkTree_Proofs Props_Walker
  Repair_Model Writeback_Model RestoreDoc_Spec ThinCheck_Model ThinCheck_Spec Dump_Model Dump_Spec Dump_Proofs Ls_Model Ls_Spec LsAlg_Proofs LsRead_Proofs LsSum_Proofs.

(** The two trees of the superblock list the devices of the pool: ids with details, and the
    roots of the mapping trees; they have the same ids. *)
Definition devices_listed (nr : N) (eng : N -> option (list N)) (sb : thin_sb) (pool : list pool_dev) : Prop :=
  btree_to_map dd_codec nr eng false (ts_details_root sb) = Ok (map (fun p => (pd_id p, pd_detail p)) pool) /\
  btree_to_value_vec u64_codec nr eng false (ts_mapping_root sb) = Ok (map pd_root pool) /\
  devices_identical nr eng false (ts_mapping_root sb) (ts_details_root sb) = true.

Lemma good_sums_all ss pool : Forall (fun p => pd_root p < W32) pool ->
  (forall p, In p pool -> exists s, ss (pd_root p) = Some s /\ ls_errors s = 0) -> nlen (good_sums ss (map pd_root pool)) = nlen pool /\
  forall q, (forall p s, In p pool -> ss (pd_root p) = Some s -> q p = mkrow (pd_id p) (pd_detail p) (ls_nr s) (ls_shared s) (ls_high s)) ->
  map (fun x => mkrow (fst (fst x)) (snd (fst x)) (ls_nr (snd x)) (ls_shared (snd x)) (ls_high (snd x))) (combine (map (fun p => (pd_id p, pd_detail p)) pool) (good_sums ss (map pd_root pool))) = map q pool.
Proof.
  intros HF H. induction HF as [|p pool Hp HF IH]; [split; [reflexivity|]; intros; reflexivity|]. destruct (H p (or_introl eq_refl)) as (s & Es & Ee).
  destruct IH as [I1 I2]; [intros; apply H; right; auto|]. cbn [map good_sums]. rewrite N.mod_small by exact Hp. rewrite Es, Ee, N.eqb_refl. split.
  - unfold nlen in *. cbn [length]. lia.
  - intros q Hq. cbn [combine map fst snd]. rewrite (I2 q) by (intros; apply Hq; [right|]; auto). rewrite (Hq p s); auto. left. auto.
Qed.
Lemma pool_small nr eng nd pool : device_of nr eng -> thin_pool eng nd pool -> Forall (fun p => pd_root p < W32) pool.
Proof.
  intros Hd [Ht _ _]. rewrite Forall_forall in *. intros p Hp. destruct (Ht p Hp) as (d & H). pose proof (tree_lt nr eng Hd _ _ _ _ (thin_mapping _ _ _ _ _ H)). pose proof (proj1 Hd). unfold W32. lia.
Qed.

(** For metadata that can be read, whose trees may share nodes in any way, and any order in
    which the threads deliver the leaves: every device is listed with the number of its
    mappings, the number of those whose data block something else is mapped to as well, and its
    highest mapped block.  [fuel] bounds the recursion in the model. *)
Theorem C57_counts : forall nr eng fuel order1 order2 (use_snap : bool) fs live sb pool r rest mr mrest,
  device_of nr eng -> nr <= N.of_nat fuel -> (forall l, Permutation (order1 l) l) -> (forall l, Permutation (order2 l) l) ->
  read_sb eng 0 = Ok live -> (if use_snap then read_sb_snap eng else read_sb eng 0) = Ok sb -> devices_listed nr eng sb pool ->
  smroot_unpack (ts_data_sm_root live) = Ok (r, rest) -> smroot_unpack (ts_metadata_sm_root live) = Ok (mr, mrest) ->
  thin_pool eng (sr_nr_blocks r) pool -> counting fs = true ->
  thin_ls nr eng fuel order1 order2 use_snap fs = Ok (ts_data_block_size sb, map (right_row pool) pool).
Proof.
  intros nr eng fuel o1 o2 snap fs live sb pool r rest mr mrest Hd Hf P1 P2 E0 Es (D1 & D2 & D3) Er Em Hp Hc.
  unfold thin_ls. rewrite Es. cbn [bind]. rewrite D3. cbn [negb]. rewrite D1. cbn [bind]. rewrite Hc, E0. cbn [bind]. unfold count_data_mappings. rewrite D2. cbn [bind]. rewrite Er. cbn [bind]. rewrite Em. cbn [bind].
  destruct (mappings_counted nr eng (sr_nr_blocks r) pool fuel o1 o2 Hd Hp Hf P1 P2) as (ss & A & B). rewrite A. cbn [bind].
  destruct (good_sums_all ss pool (pool_small _ _ _ _ Hd Hp)) as [G1 G2].
  { intros p Hi. destruct (B p Hi) as (s & H1 & _ & _ & _ & H2). eauto. }
  replace (nlen (map pd_root pool)) with (nlen pool) by (unfold nlen; rewrite map_length; reflexivity). rewrite G1, N.eqb_refl. cbn [bind]. f_equal. f_equal. apply G2.
  intros p s Hi Hs. destruct (B p Hi) as (s' & H1 & H2 & H3 & H4 & _). assert (s' = s) by congruence. subst s'. unfold right_row. rewrite H2, H3, H4. reflexivity.
Qed.
Print Assumptions C57_counts.

(** Without a column that needs them the mappings are not looked at. *)
Theorem C57_no_counting : forall nr eng fuel order1 order2 (use_snap : bool) fs sb pool,
  (if use_snap then read_sb_snap eng else read_sb eng 0) = Ok sb -> devices_listed nr eng sb pool -> counting fs = false ->
  thin_ls nr eng fuel order1 order2 use_snap fs = Ok (ts_data_block_size sb, map (fun p => mkrow (pd_id p) (pd_detail p) 0 0 0) pool) /\
  forall f bs p, In f fs -> cell bs (mkrow (pd_id p) (pd_detail p) 0 0 0) f = cell bs (right_row pool p) f.
Proof.
  intros nr eng fuel o1 o2 snap fs sb pool Es (D1 & D2 & D3) Hc. split.
  - unfold thin_ls. rewrite Es. cbn [bind]. rewrite D3. cbn [negb]. rewrite D1. cbn [bind]. rewrite Hc. rewrite map_map. reflexivity.
  - intros f bs p Hf. unfold counting in Hc. destruct f; try reflexivity. exfalso. assert (existsb (fun f => match f with FAmount _ _ => true | _ => false end) fs = true); [|congruence].
    apply existsb_exists. eexists. split; [exact Hf|reflexivity].
Qed.

(** ** The columns *)
Lemma uses_pos pool p kv : In p pool -> In kv (pd_maps p) -> 1 <= uses pool (bt_block (snd kv)).
Proof.
  intros Hp Hk. unfold uses. assert (H : In kv (filter (fun x => bt_block (snd x) =? bt_block (snd kv)) (flat_map pd_maps pool))).
  { apply filter_In. split; [apply in_flat_map; eauto|apply N.eqb_refl]. }
  destruct (filter _ _); [destruct H|]. unfold nlen. cbn [length]. lia.
Qed.
(** a mapping is exclusive or shared *)
Lemma exclusive_shared pool p : In p pool -> nlen (pd_maps p) = nlen (exclusive_to pool p) + nlen (shared_of pool p).
Proof.
  intros Hp. unfold exclusive_to, shared_of. assert (H : forall kv, In kv (pd_maps p) -> 1 <= uses pool (bt_block (snd kv))) by (intros; eapply uses_pos; eauto).
  revert H. generalize (pd_maps p). intros l H. induction l as [|kv l IH]; [reflexivity|]. specialize (IH ltac:(intros; apply H; right; auto)). specialize (H kv (or_introl eq_refl)).
  cbn [filter]. unfold nlen in *. destruct (N.eqb_spec (uses pool (bt_block (snd kv))) 1), (N.leb_spec 2 (uses pool (bt_block (snd kv)))); cbn [length]; lia.
Qed.
(** What a column shows: a number of blocks, of sectors or of bytes.  For the highest block it is
    the last sector or byte of it.  The numbers must fit in 64 bits. *)
Definition in_unit (bs n : N) (u : unit_of) : N := match u with UBlocks => n | USectors => n * bs | UBytes => n * bs * 512 end.
Definition shown (pool : list pool_dev) (p : pool_dev) (a : amount) (bs : N) (u : unit_of) : N :=
  match a, u with
  | AMapped, _ => in_unit bs (nlen (pd_maps p)) u
  | AExclusive, _ => in_unit bs (nlen (exclusive_to pool p)) u
  | AShared, _ => in_unit bs (nlen (shared_of pool p)) u
  | AHighest, UBlocks => highest p
  | AHighest, _ => in_unit bs (highest p + 1) u - 1
  end.
Theorem C57_columns : forall pool p bs a u, In p pool -> 0 < bs -> nlen (pd_maps p) * bs * 512 < 2 ^ 64 -> (highest p + 1) * bs * 512 < 2 ^ 64 ->
  cell bs (right_row pool p) (FAmount a u) = shown pool p a bs u.
Proof.
  intros pool p bs a u Hp Hb H1 H2. pose proof (exclusive_shared pool p Hp) as Hs.
  assert (Hm : nlen (pd_maps p) < W64) by (change W64 with (2 ^ 64); nia).
  assert (Ex : sub64 (nlen (pd_maps p)) (nlen (shared_of pool p)) = nlen (exclusive_to pool p)).
  { unfold sub64. rewrite (N.mod_small (nlen (shared_of pool p))) by lia. replace (nlen (pd_maps p) + (W64 - nlen (shared_of pool p))) with (nlen (exclusive_to pool p) + 1 * W64) by lia.
    rewrite N.mod_add by (unfold W64; lia). apply N.mod_small. lia. }
  assert (Hsec : forall n, n <= nlen (pd_maps p) -> (n * bs) mod W64 = n * bs) by (intros n Hn; apply N.mod_small; change W64 with (2 ^ 64); nia).
  assert (Hby : forall n, n <= nlen (pd_maps p) -> shl9 ((n * bs) mod W64) = n * bs * 512) by (intros n Hn; rewrite Hsec by auto; unfold shl9; apply N.mod_small; change W64 with (2 ^ 64); nia).
  assert (Hh : (highest p + 1) mod W64 = highest p + 1) by (apply N.mod_small; change W64 with (2 ^ 64); nia).
  assert (Hh1 : ((highest p + 1) * bs) mod W64 = (highest p + 1) * bs) by (apply N.mod_small; change W64 with (2 ^ 64); nia).
  assert (Hs1 : forall x, 0 < x -> x < W64 -> sub64 x 1 = x - 1).
  { intros x Hx Hx2. unfold sub64. rewrite (N.mod_small 1) by (unfold W64; lia). replace (x + (W64 - 1)) with (x - 1 + 1 * W64) by (unfold W64 in *; lia). rewrite N.mod_add by (unfold W64; lia). apply N.mod_small. lia. }
  destruct a; unfold cell, shown, right_row, in_unit; cbn [rw_mapped rw_shared rw_highest]; destruct u; rewrite ?Ex, ?Hh, ?Hh1; auto; try (apply Hsec; lia); try (apply Hby; lia).
  - apply Hs1; [nia|change W64 with (2 ^ 64); nia].
  - unfold shl9. rewrite (N.mod_small ((highest p + 1) * bs * 512)) by (change W64 with (2 ^ 64); nia). apply Hs1; [nia|change W64 with (2 ^ 64); nia].
Qed.
Print Assumptions C57_columns.

(** A device without mappings is reported with the same highest block as one that has block 0
    mapped and nothing else. *)
Theorem C57_highest_of_empty : forall id root detail v pool bs u,
  cell bs (right_row pool (mkpd id root detail [])) (FAmount AHighest u) = cell bs (right_row pool (mkpd id root detail [(0, v)])) (FAmount AHighest u).
Proof. reflexivity. Qed.

(** ** Mappings past the end of the data device *)
Lemma two_get_in s b : t_nr s <= b -> two_inc s b = Panic.
Proof. intros H. unfold two_inc. destruct (N.ltb_spec b (t_nr s)); [lia|reflexivity]. Qed.
Lemma two_inc_nr s b s' : two_inc s b = Ok s' -> t_nr s' = t_nr s.
Proof.
  unfold two_inc. destruct (b <? t_nr s); [|discriminate]. intros H. apply Ok_inj in H. subst s'. unfold tsm_inc1. destruct (_ =? 2); [auto|]. destruct (_ =? 1); reflexivity.
Qed.
Lemma two_inc_res s b : (exists s', two_inc s b = Ok s') \/ two_inc s b = Panic.
Proof. unfold two_inc. destruct (b <? t_nr s); eauto. Qed.
Lemma inc_data_bad : forall vs dsm, ls_inc_data vs dsm = Panic \/ exists dsm', ls_inc_data vs dsm = Ok dsm' /\ t_nr dsm' = t_nr dsm /\ Forall (fun v => bt_block v < t_nr dsm) vs.
Proof.
  induction vs as [|v vs IH]; intros dsm; cbn [ls_inc_data]; [right; exists dsm; auto|]. destruct (N.lt_ge_cases (bt_block v) (t_nr dsm)) as [L|L].
  - destruct (two_inc_res dsm (bt_block v)) as [(d & E)|E]; rewrite E; cbn [bind]; [|auto]. pose proof (two_inc_nr _ _ _ E) as En. destruct (IH d) as [Z|(d' & Z1 & Z2 & Z3)]; [auto|].
    right. exists d'. rewrite Z1, Z2, <- En. conj; auto. constructor; auto. lia.
  - rewrite two_get_in by auto. auto.
Qed.
Lemma leaves_panic eng msm nodes : forall order dsm ss,
  (forall b, In b order -> leafish eng b) -> (exists b d, In b order /\ In d (targ eng b) /\ t_nr dsm <= d) -> ls_leaves (ls_leaf eng false msm) order (nodes, dsm, ss) = Panic.
Proof.
  induction order as [|b order IH]; intros dsm ss Hl (x & d & Hx & Hd & Hn); [destruct Hx|]. cbn [ls_leaves].
  destruct (Hl b (or_introl eq_refl)) as (r & kvs & h & ks & vs & Hnode & _). destruct (full_read _ _ _ _ Hnode) as (data & E1 & E2 & _). unfold ls_leaf at 1. rewrite E1, E2.
  destruct (inc_data_bad vs dsm) as [Z|(d' & Z1 & Z2 & Z3)]; [rewrite Z; reflexivity|]. rewrite Z1. cbn [bind]. apply IH; [intros; apply Hl; right; auto|].
  exists x, d. destruct Hx as [<-|Hx]; [|rewrite Z2; auto]. exfalso. rewrite (proj2 (kids_leaf _ _ _ _ _ _ (proj1 Hnode))) in Hd. apply in_map_iff in Hd as (v & <- & Hv). rewrite Forall_forall in Z3. specialize (Z3 v Hv). lia.
Qed.
(** If the trees are there but some mapping is past the end of the data device, thin_ls does not
    report anything, it panics. *)
Theorem C57_past_the_end : forall nr eng fuel order1 order2 (use_snap : bool) fs live sb pool r rest mr mrest p kv,
  device_of nr eng -> (forall l, Permutation (order1 l) l) ->
  read_sb eng 0 = Ok live -> (if use_snap then read_sb_snap eng else read_sb eng 0) = Ok sb -> devices_listed nr eng sb pool ->
  smroot_unpack (ts_data_sm_root live) = Ok (r, rest) -> smroot_unpack (ts_metadata_sm_root live) = Ok (mr, mrest) ->
  Forall (fun p => exists depth, thin_tree eng true depth (pd_root p) (pd_maps p)) pool -> counting fs = true ->
  In p pool -> In kv (pd_maps p) -> sr_nr_blocks r <= bt_block (snd kv) ->
  thin_ls nr eng fuel order1 order2 use_snap fs = Panic.
Proof.
  intros nr eng fuel o1 o2 snap fs live sb pool r rest mr mrest p kv Hd P1 E0 Es (D1 & D2 & D3) Er Em Hp Hc Hi Hkv Hbad.
  unfold thin_ls. rewrite Es. cbn [bind]. rewrite D3. cbn [negb]. rewrite D1. cbn [bind]. rewrite Hc, E0. cbn [bind]. unfold count_data_mappings. rewrite D2. cbn [bind]. rewrite Er. cbn [bind]. rewrite Em. cbn [bind].
  destruct (root_depths eng pool Hp) as (depth & Hpool). destruct (collect_ok nr eng Hd pool depth Hpool) as (msm & nodes & E & A & HE & [HL1 HL2] & _).
  unfold count_data_mappings_. unfold roots in A. rewrite A. cbn [bind]. rewrite leaves_panic; [reflexivity| |].
  - intros b Hb. apply (Permutation_in b (P1 _)) in Hb. apply HL2 in Hb. tauto.
  - assert (Hu : In (bt_block (snd kv)) (flat_map (targ eng) (unfolded eng pool depth))).
    { apply occ_in. rewrite (uses_unfolded eng pool depth Hpool). pose proof (uses_pos pool p kv Hi Hkv). lia. }
    apply in_flat_map in Hu as (b & Hb & Ht). exists b, (bt_block (snd kv)). conj; auto. eapply Permutation_in; [symmetry; apply P1|]. apply HL2. split; auto.
    destruct (unfolded_tree _ _ _ Hpool b Hb) as (r' & [|d'] & kvs' & H'); [exists r', kvs'; exact H'|]. destruct H' as (h & ks & bs & subs & (Hn & _) & _).
    rewrite (proj2 (kids_internal _ _ _ _ _ _ Hn)) in Ht. destruct Ht.
Qed.
Print Assumptions C57_past_the_end.

(** thin_ls lists nothing when the two top-level trees disagree about the devices. *)
Theorem C57_same_devices : forall nr eng fuel order1 order2 (use_snap : bool) fs x,
  thin_ls nr eng fuel order1 order2 use_snap fs = Ok x ->
  exists sb ids, (if use_snap then read_sb_snap eng else read_sb eng 0) = Ok sb /\
    btree_to_key_set u64_codec nr eng false (ts_mapping_root sb) = Ok ids /\ btree_to_key_set dd_codec nr eng false (ts_details_root sb) = Ok ids.
Proof.
  intros nr eng fuel o1 o2 snap fs x H. unfold thin_ls in H. apply res_bind_ok in H as (sb & Es & H). exists sb.
  destruct (devices_identical nr eng false (ts_mapping_root sb) (ts_details_root sb)) eqn:D; [|discriminate H]. unfold devices_identical in D.
  destruct (btree_to_key_set u64_codec _ _ _ _) as [a1| |]; try discriminate. destruct (btree_to_key_set dd_codec _ _ _ _) as [a2| |]; try discriminate.
  exists a1. conj; auto. f_equal. symmetry. clear - D. revert a2 D. induction a1 as [|x a IH]; intros [|y b] D; cbn [list_eqb] in D; try discriminate; auto.
  apply Bool.andb_true_iff in D as [D1 D2]. apply N.eqb_eq in D1. f_equal; auto.
Qed.
Print Assumptions C57_same_devices.
