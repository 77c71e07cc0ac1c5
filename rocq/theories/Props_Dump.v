(** Property C24: what thin_dump writes, and restoring it. *)
From Coq Require Import Permutation.
From Verif Require Import Base Csum_Model Codec_Model Codec_Spec Codec_Proofs SpaceMap_Model SpaceMap_Spec Batcher_Model Builder_Model Builder_Spec Utils_Proofs Walker_Model ThinOut_Model Restore_Model
  Repair_Model RestoreDoc_Spec Props_Btree Props_Walker Props_RestoreDoc ThinCheck_Spec Dump_Model Dump_Spec Dump_Proofs DumpDoc_Proofs DumpTop_Proofs.

(** The two trees of the superblock list the devices of the pool: ids with details, and ids
    with roots of mapping trees.  (C54_btree_to_map says when reading a tree gives its entries.) *)
Definition devices_read (nr : N) (eng : N -> option (list N)) (sb : thin_sb) (pool : list pool_dev) : Prop :=
  btree_to_map dd_codec nr eng true (ts_details_root sb) = Ok (map (fun p => (pd_id p, pd_detail p)) pool) /\
  btree_to_map u64_codec nr eng true (ts_mapping_root sb) = Ok (map (fun p => (pd_id p, pd_root p)) pool).
(** --dev-id: all devices, or those listed. *)
Definition picked (sel : option (list N)) (p : pool_dev) : bool :=
  match sel with None => true | Some l => if in_dec N.eq_dec (pd_id p) l then true else false end.
(** The attributes of the superblock in the output. *)
Definition header (sb : thin_sb) (nr_data : N) : ir_sb :=
  mkirsb (ts_time sb) (ts_transaction_id sb) (if ts_needs_check sb then Some 1 else None) (Some (ts_version sb)) (ts_data_block_size sb) nr_data None.

(** The sections describe these devices in this order, and every definition is a part of one. *)
Definition describes (secs : list sect) (pool : list pool_dev) : Prop :=
  sections [] secs (map as_device pool) /\
  forall name ms, In (SDef name ms) secs -> exists p, In p pool /\ incl (flat_map map_entries ms) (pd_maps p).

Lemma selected_pool sel pool : selected sel (map pd_tuple pool) = map pd_tuple (filter (picked sel) pool).
Proof.
  destruct sel as [l|]; cbn [selected].
  - induction pool as [|p pool IH]; [reflexivity|]. cbn [map filter]. rewrite IH. change (fst (pd_tuple p)) with (pd_id p).
    destruct (picked (Some l) p) eqn:Ep; unfold picked in Ep; destruct (in_dec N.eq_dec (pd_id p) l) as [Hi|Hi]; try discriminate Ep.
    + replace (existsb (N.eqb (pd_id p)) l) with true; [reflexivity|]. symmetry. apply existsb_exists. exists (pd_id p). split; auto. apply N.eqb_refl.
    + replace (existsb (N.eqb (pd_id p)) l) with false; [reflexivity|]. symmetry. destruct (existsb _ l) eqn:E; auto. apply existsb_exists in E as (x & Hx & Ex).
      apply N.eqb_eq in Ex. subst x. contradiction.
  - replace (filter (picked None) pool) with pool; [reflexivity|]. induction pool as [|p pool IH]; [reflexivity|]. cbn. f_equal. exact IH.
Qed.
Lemma devices_pool nr eng sb pool : devices_read nr eng sb pool -> devices_iter nr eng sb = Ok (map pd_tuple pool).
Proof.
  intros [H1 H2]. unfold devices_iter. rewrite H1, H2. cbn [bind]. f_equal. rewrite map_map. clear.
  induction pool as [|p pool IH]; [reflexivity|]. cbn [map combine fst snd]. f_equal. exact IH.
Qed.

Lemma dump_devices nr eng sel sb devs pool : device_of nr eng -> 
  match sb with OnDisk sb => devices_iter nr eng sb | InCore sb => Ok (co_devices sb) end = Ok devs -> devs = map pd_tuple pool ->
  pool_ok eng (filter (picked sel) pool) -> forall ir, to_superblock_ir sb = Ok ir ->
  exists secs, dump_from nr eng false sel sb = (doc_events ir secs ++ [EvEof], Ok tt) /\ describes secs (filter (picked sel) pool).
Proof.
  intros Hd E -> Hp ir Eir. destruct (dump_pool nr eng Hd sb ir _ Eir Hp) as (secs & A & B). exists secs. split; auto.
  unfold dump_from, build_metadata_with_dev. rewrite E. cbn [bind]. rewrite selected_pool. exact A.
Qed.

(** Dumping metadata that can be read (the superblock, the two trees listing the devices, and
    the mapping tree of every device dumped; trees may share nodes in any way): the output is a
    document that describes exactly the devices dumped, with their details and mappings. *)
Theorem C24_dump : forall sort_devs sort_details nr eng o sel sb0 sb pool r rest,
  device_of nr eng -> read_sb eng 0 = Ok sb0 -> override_sb o sb0 = Ok sb -> devices_read nr eng sb pool ->
  smroot_unpack (ts_data_sm_root sb) = Ok (r, rest) -> pool_ok eng (filter (picked sel) pool) ->
  exists secs, thin_dump sort_devs sort_details nr eng false false false o sel = (doc_events (header sb (sr_nr_blocks r)) secs ++ [EvEof], Ok tt) /\
    describes secs (filter (picked sel) pool).
Proof.
  intros sd sdt nr eng o sel sb0 sb pool r rest Hd Er Eo Hr Es Hp. unfold thin_dump. rewrite Er. cbn [bind]. rewrite Eo. cbn [bind].
  eapply dump_devices; eauto; [apply devices_pool; eauto|]. unfold to_superblock_ir. rewrite Es. reflexivity.
Qed.
Print Assumptions C24_dump.

(** The same for --metadata-snap: the devices are those of the superblock the snapshot refers
    to; overrides are not applied. *)
Theorem C24_dump_snap : forall sort_devs sort_details nr eng o sel live sb pool r rest,
  device_of nr eng -> read_sb eng 0 = Ok live -> ts_metadata_snap live <> 0 -> read_sb eng (ts_metadata_snap live) = Ok sb -> devices_read nr eng sb pool ->
  smroot_unpack (ts_data_sm_root sb) = Ok (r, rest) -> pool_ok eng (filter (picked sel) pool) ->
  exists secs, thin_dump sort_devs sort_details nr eng false true false o sel = (doc_events (header sb (sr_nr_blocks r)) secs ++ [EvEof], Ok tt) /\
    describes secs (filter (picked sel) pool).
Proof.
  intros sd sdt nr eng o sel live sb pool r rest Hd Er Hne Er2 Hr Es Hp. unfold thin_dump, read_sb_snap. rewrite Er. cbn [bind].
  destruct (N.eqb_spec (ts_metadata_snap live) 0); [contradiction|]. rewrite Er2. cbn [bind].
  eapply dump_devices; eauto; [apply devices_pool; eauto|]. unfold to_superblock_ir. rewrite Es. reflexivity.
Qed.

(** And for --repair when the superblock had to be rebuilt (C45 says with which devices). *)
Theorem C24_dump_repaired : forall sort_devs sort_details nr eng use_snap o sel core pool,
  device_of nr eng -> read_or_rebuild_superblock nr eng sort_devs sort_details 0 o = Ok (InCore core) ->
  co_devices core = map (fun p => (pd_id p, (pd_root p, pd_detail p))) pool -> pool_ok eng (filter (picked sel) pool) ->
  exists secs, thin_dump sort_devs sort_details nr eng true use_snap false o sel =
      (doc_events (mkirsb (co_time core) (co_tid core) (if co_needs_check core then Some 1 else None) (Some (co_version core)) (co_block_size core) (co_nr_data_blocks core) None) secs ++ [EvEof], Ok tt) /\
    describes secs (filter (picked sel) pool).
Proof.
  intros sd sdt nr eng us o sel core pool Hd Er Hc Hp. unfold thin_dump. rewrite Er. eapply dump_devices; [exact Hd|reflexivity|exact Hc|exact Hp|reflexivity].
Qed.

(** --skip-mappings: all devices with their details, and no mappings; --dev-id has no effect. *)
Theorem C24_dump_no_mappings : forall sort_devs sort_details nr eng o sel sb0 sb details r rest,
  read_sb eng 0 = Ok sb0 -> override_sb o sb0 = Ok sb -> btree_to_map dd_codec nr eng true (ts_details_root sb) = Ok details ->
  smroot_unpack (ts_data_sm_root sb) = Ok (r, rest) -> Forall (fun d => fst d < 2 ^ 32) details ->
  thin_dump sort_devs sort_details nr eng false false true o sel =
    (EvSbB (header sb (sr_nr_blocks r)) ::
     flat_map (fun d => [EvDevB (mkirdev (fst d) (dd_mapped (snd d)) (dd_tid (snd d)) (dd_ctime (snd d)) (dd_stime (snd d))); EvDevE]) details ++ [EvSbE; EvEof], Ok tt).
Proof.
  intros sd sdt nr eng o sel sb0 sb details r rest Er Eo Ed Es HF. unfold thin_dump. rewrite Er. cbn [bind]. rewrite Eo. cbn [bind].
  unfold dump_from, build_metadata_without_mappings. rewrite Ed. cbn [bind]. unfold dump_metadata, to_superblock_ir. rewrite Es. cbn [bind mt_defs mt_devs dump_sections].
  assert (E : dump_sections eng (fun d => EvDevB (dev_ir d)) md_entries EvDevE (map (fun d => mkmd (fst d mod W32) (snd d) []) details) ([EvSbE; EvEof], Ok tt) =
    (flat_map (fun d : N * device_detail => [EvDevB (mkirdev (fst d) (dd_mapped (snd d)) (dd_tid (snd d)) (dd_ctime (snd d)) (dd_stime (snd d))); EvDevE]) details ++ [EvSbE; EvEof], Ok tt)).
  { clear - HF. induction HF as [|d details Hd HF IH]; [reflexivity|]. cbn [map dump_sections flat_map md_entries emit_entries emit_entries_].
    unfold emit_entries. cbn [emit_entries_]. rewrite IH. cbn [app]. unfold dev_ir. cbn [md_id md_detail]. rewrite N.mod_small by exact Hd. reflexivity. }
  rewrite E. reflexivity.
Qed.

(** ** Dump and restore *)
Lemma doc_values_in secs pool v : describes secs pool -> In v (doc_values secs (map as_device pool)) -> exists p, In p pool /\ In v (map snd (pd_maps p)).
Proof.
  intros [_ Hd] Hv. unfold doc_values in Hv. apply in_app_or in Hv as [Hv|Hv].
  - apply in_flat_map in Hv as ([name ms|d its] & Hx & Hv); [|destruct Hv]. destruct (Hd name ms Hx) as (p & Hp & Hi). exists p. split; auto.
    apply in_map_iff in Hv as (kv & <- & Hkv). apply in_map. apply Hi. exact Hkv.
  - apply in_flat_map in Hv as (d & Hd' & Hv). apply in_map_iff in Hd' as (p & <- & Hp). exists p. auto.
Qed.

(** A device of [nr] blocks with these contents. *)
Definition reading (nr : N) (D : disk) (b : N) : option (list N) := if b <? nr then Some (D b) else None.

Lemma restored_pool D n nr hdr pool : n <= nr -> nr < 2 ^ 32 -> (forall b, b < nr -> length (D b) = 4096%nat /\ bytes (D b)) ->
  restored D n hdr (map as_device pool) -> increasing (map pd_id pool) -> Forall (fun p => pd_id p < 2 ^ 32) pool ->
  Forall (fun p => dd_range (pd_detail p)) pool -> Forall (fun p => Forall (fun kv => fst kv < 2 ^ 64 - 1) (pd_maps p)) pool ->
  Forall (fun p => increasing (map fst (pd_maps p))) pool ->
  exists s pool2 r rest, read_sb (reading nr D) 0 = Ok s /\ devices_read nr (reading nr D) s pool2 /\ pool_ok (reading nr D) pool2 /\ map as_device pool2 = map as_device pool /\
    smroot_unpack (ts_data_sm_root s) = Ok (r, rest) /\ header s (sr_nr_blocks r) = mkirsb (is_time hdr) (is_transaction hdr) None (Some 2) (is_data_block_size hdr) (is_nr_data_blocks hdr) None.
Proof.
  intros Hn Hnr HD (s & trees & fd & fm & Es & HO & (r & rest & L & enough & Er & En & _) & (mr & mrest & mi & en2 & sms & _ & _ & _ & _ & HN & _ & HF & _)) Hinc Hid Hdd Hk Hmi.
  destruct HO as (O1 & O2 & O3 & O4 & O5 & O6 & HP & Hti & (dd & Td) & (dm & Tm) & Tt).
  assert (H0 : 0 < n) by (inversion HF; auto). apply Forall_cons_iff in HF as [_ HF]. apply Forall_app in HF as [Fd HF]. apply Forall_app in HF as [Fm HF]. apply Forall_app in HF as [_ Ft].
  assert (Hrd : forall b, b < n -> reading nr D b = Some (D b)) by (intros b Hb; unfold reading; destruct (N.ltb_spec b nr); [auto|lia]).
  apply NoDup_cons_iff in HN as [_ HN]. apply NoDup_app_iff_local in HN as (Nd & HN & _). apply NoDup_app_iff_local in HN as (Nm & _ & _).
  rewrite Forall_forall in Fd, Fm, Ft.
  set (mk := fun t => mkpd (dv_id (dt_dev t)) (dt_root t) (dv_details (dt_dev t)) (dv_maps (dt_dev t))).
  assert (Edev : map as_device (map mk trees) = map as_device pool).
  { replace (map as_device (map mk trees)) with (map dt_dev trees).
    - apply (sorted_perm dv_id); [exact HP|rewrite map_map; exact Hti|rewrite map_map; exact Hinc].
    - rewrite map_map. apply map_ext. intros t. unfold mk, as_device. cbn. destruct (dt_dev t); reflexivity. }
  assert (HQ : forall Q : device -> Prop, Forall (fun p => Q (as_device p)) pool -> Forall (fun p => Q (as_device p)) (map mk trees)).
  { intros Q H. apply (proj1 (Forall_map as_device Q (map mk trees))). rewrite Edev. apply (proj2 (Forall_map as_device Q pool)). exact H. }
  exists s, (map mk trees), r, rest. conj; auto.
  - unfold read_sb. rewrite Hrd by exact H0. unfold thin_read_superblock in *. exact Es.
  - split.
    + rewrite map_map. eapply (C54_btree_to_map dd_codec true (reading nr D) D); [exact Td|exact Nd|rewrite map_map; exact Hti|lia|].
      intros b Hb. specialize (Fd b Hb). split; [lia|]. apply Hrd. auto.
    + rewrite map_map. eapply (C54_btree_to_map u64_codec true (reading nr D) D); [exact Tm|exact Nm|rewrite map_map; exact Hti|lia|].
      intros b Hb. specialize (Fm b Hb). split; [lia|]. apply Hrd. auto.
  - constructor.
    + pose proof (HQ (fun d => increasing (map fst (dv_maps d))) Hmi) as Hi2. rewrite Forall_forall in *. intros p Hp. pose proof (Hi2 p Hp) as Hi3. apply in_map_iff in Hp as (t & <- & Ht).
      exists (dt_depth t). eapply tree_mapping; [apply Tt; exact Ht|exact Hi3|]. intros x Hx. apply Hrd. apply Ft. apply in_flat_map. eauto.
    + split; [rewrite map_map; exact Hti|]. apply (HQ (fun d => dv_id d < 2 ^ 32)). exact Hid.
    + apply (HQ (fun d => dd_range (dv_details d))). exact Hdd.
    + apply (HQ (fun d => Forall (fun kv => fst kv < 2 ^ 64 - 1) (dv_maps d))). exact Hk.
  - unfold header. rewrite O1, O2, O3, O4, O6, En. reflexivity.
Qed.

(** Restoring the output of a dump, onto any device whose blocks can be written, with any batch
    size and previous contents.  If restore succeeds, superblock, details, mappings and both
    space maps are those of the pool dumped ([restored], which gives the tree of every device,
    hence by C09 the result of every lookup), and dumping the restored metadata gives again a
    document that describes the same devices in the same order, under the same superblock
    attributes except that the needs_check flag is cleared and the version is 2.  If restore
    fails, the metadata device is too small, a mapping of the pool is beyond the end of its
    data device, or more than 2^32 - 1 mappings refer to one data block.  It never panics. *)
Theorem C24_round_trip : forall sort_devs sort_details nr eng sb pool r rest d good junk nr' batch s out,
  device_of nr eng -> read_sb eng 0 = Ok sb -> devices_read nr eng sb pool ->
  smroot_unpack (ts_data_sm_root sb) = Ok (r, rest) -> pool_ok eng pool ->
  let hdr := header sb (sr_nr_blocks r) in sb_fits hdr ->
  let n := N.min nr' (255 * 16320) in
  (forall b, b < n -> good b = true) -> (forall b, bytes (junk b) /\ nlen (junk b) = 4096) ->
  restore d good junk nr' batch no_overrides (fst (thin_dump sort_devs sort_details nr eng false false false no_overrides None)) = (s, out) ->
  match out with
  | Ok _ =>
      restored (wb_disk (r_w s)) n hdr (map as_device pool) /\
      (nr' < 2 ^ 32 -> (forall b, b < nr' -> length (wb_disk (r_w s) b) = 4096%nat /\ bytes (wb_disk (r_w s) b)) ->
       exists pool2 secs,
         thin_dump sort_devs sort_details nr' (reading nr' (wb_disk (r_w s))) false false false no_overrides None =
           (doc_events (mkirsb (ts_time sb) (ts_transaction_id sb) None (Some 2) (ts_data_block_size sb) (sr_nr_blocks r) None) secs ++ [EvEof], Ok tt) /\
         describes secs pool2 /\ map as_device pool2 = map as_device pool)
  | Err => exhausted n (W32 - 1) (r_w s) \/
           (exists p v, In p pool /\ In v (map snd (pd_maps p)) /\ sr_nr_blocks r <= bt_block v) \/
           (exists secs b, describes secs pool /\ W32 <= occ b (map bt_block (doc_values secs (map as_device pool))))
  | Panic => False
  end.
Proof.
  intros sd sdt nr eng sb pool r rest d good junk nr' batch s out Hd Er Hr Es Hp hdr Hfit n Hg Hj E.
  assert (Eo : override_sb no_overrides sb = Ok sb) by (unfold override_sb; cbn; destruct sb; reflexivity).
  assert (Ef : filter (picked None) pool = pool) by (clear; induction pool as [|p pool IH]; [reflexivity|cbn; f_equal; exact IH]).
  destruct (C24_dump sd sdt nr eng no_overrides None sb sb pool r rest Hd Er Eo Hr Es) as (secs & Ed & Hs & Hdef); [rewrite Ef; exact Hp|]. rewrite Ef in Hs, Hdef. fold hdr in Ed.
  rewrite Ed in E. cbn [fst] in E.
  pose proof (C22_restore d good junk nr' batch None None hdr secs (map as_device pool) s out Hg Hj Hfit ltac:(discriminate) ltac:(discriminate) Hs E) as HC.
  change (overridden None None hdr) with hdr in HC. fold n in HC. destruct out as [u| |]; [|destruct HC as [HC|[(v & Hv & Hb)|(b & Hb)]]|exact HC].
  - destruct HC as [HR _]. split; [exact HR|]. intros Hnr HD. destruct Hp as [Ht [Hinc Hid] Hdd Hk].
    destruct (restored_pool (wb_disk (r_w s)) n nr' hdr pool) as (s2 & pool2 & r2 & rest2 & A & B & C & F & G & H); auto; [unfold n; lia|eapply Forall_impl; [|exact Ht]; intros p (dp & Hp); eapply tree_increasing; exact Hp|].
    assert (Eo2 : override_sb no_overrides s2 = Ok s2) by (unfold override_sb; cbn; destruct s2; reflexivity).
    assert (Ef2 : filter (picked None) pool2 = pool2) by (clear; induction pool2 as [|p pool IH]; [reflexivity|cbn; f_equal; exact IH]).
    assert (Hdev2 : device_of nr' (reading nr' (wb_disk (r_w s)))).
    { split; [exact Hnr|]. intros b data Hb. unfold reading in Hb. destruct (N.ltb_spec b nr') as [Hlt|]; [|discriminate]. injection Hb as <-. destruct (HD b Hlt). auto. }
    destruct (C24_dump sd sdt nr' _ no_overrides None s2 s2 pool2 r2 rest2 Hdev2 A Eo2 B G) as (secs2 & Ed2 & Hs2 & Hdef2); [rewrite Ef2; exact C|]. rewrite Ef2 in Hs2, Hdef2. rewrite H in Ed2.
    exists pool2, secs2. conj; auto. split; auto.
  - left. exact HC.
  - right; left. destruct (doc_values_in secs pool v (conj Hs Hdef) Hv) as (p & Hp1 & Hp2). exists p, v. auto.
  - right; right. exists secs, b. split; [split; auto|exact Hb].
Qed.
Print Assumptions C24_round_trip.

(** What the kernel, or any reader, finds in restored metadata: for every device its details,
    a mapping tree, and in that tree for every thin block exactly the mapping given; no other
    device. *)
Theorem C24_lookup : forall D n hdr devs, restored D n hdr devs -> Forall (fun d => increasing (map fst (dv_maps d))) devs ->
  exists s enough, thin_read_superblock D 0 = Ok s /\ forall fuel, (enough <= fuel)%nat ->
    (forall d, In d devs ->
       btree_lookup fuel dd_codec D true (ts_details_root s) (dv_id d) = Ok (Some (dv_details d)) /\
       exists root, btree_lookup fuel u64_codec D true (ts_mapping_root s) (dv_id d) = Ok (Some root) /\
         forall k, btree_lookup fuel bt_codec D true root k = Ok (assoc (dv_maps d) k)) /\
    (forall id, ~ In id (map dv_id devs) ->
       btree_lookup fuel dd_codec D true (ts_details_root s) id = Ok None /\ btree_lookup fuel u64_codec D true (ts_mapping_root s) id = Ok None).
Proof.
  intros D n hdr devs (s & trees & fd & fm & Es & HO & _) Hm.
  destruct HO as (_ & _ & _ & _ & _ & _ & HP & Hti & (dd & Td) & (dm & Tm) & Tt).
  exists s, (S (dd + dm + list_sum (map dt_depth trees))). split; [exact Es|]. intros fuel Hf.
  assert (Hi1 : increasing (map fst (map (fun t => (dv_id (dt_dev t), dv_details (dt_dev t))) trees))) by (rewrite map_map; exact Hti).
  assert (Hi2 : increasing (map fst (map (fun t => (dv_id (dt_dev t), dt_root t)) trees))) by (rewrite map_map; exact Hti).
  pose proof (proj1 (C12_built_trees_readable _ _ _ _ _ _ _ _ Td Hi1) fuel) as L1. pose proof (proj1 (C12_built_trees_readable _ _ _ _ _ _ _ _ Tm Hi2) fuel) as L2. split.
  - intros d Hd. apply (Permutation_in _ (Permutation_sym HP)) in Hd as Ht. apply in_map_iff in Ht as (t & Et & Ht). split.
    + rewrite L1 by lia. f_equal. apply (C11_assoc_is_membership _ _ _ Hi1). apply in_map_iff. exists t. rewrite Et. auto.
    + exists (dt_root t). split.
      * rewrite L2 by lia. f_equal. apply (C11_assoc_is_membership _ _ _ Hi2). apply in_map_iff. exists t. rewrite Et. auto.
      * intros k. rewrite Forall_forall in Tt, Hm. pose proof (Tt t Ht) as T. rewrite Et in T.
        apply (proj1 (C12_built_trees_readable _ _ _ _ _ _ _ _ T (Hm d Hd))).
        assert (dt_depth t <= list_sum (map dt_depth trees))%nat; [|lia]. clear - Ht. induction trees as [|x l IH]; [destruct Ht|]. cbn [map list_sum fold_right]. destruct Ht as [->|Ht]; [|specialize (IH Ht)]; unfold list_sum in *; lia.
  - intros id Hid. assert (Hno : forall V (f : dtree -> V), assoc (map (fun t => (dv_id (dt_dev t), f t)) trees) id = None).
    { intros V f. assert (Hid' : ~ In id (map (fun t => dv_id (dt_dev t)) trees)).
      { intros Hi. apply Hid. rewrite <- map_map in Hi. eapply Permutation_in; [apply Permutation_map; exact HP|exact Hi]. }
      clear - Hid'. induction trees as [|t l IH]; [reflexivity|]. cbn [map assoc]. cbn [map] in Hid'. destruct (N.eqb_spec id (dv_id (dt_dev t))); [exfalso; apply Hid'; left; auto|]. apply IH. intros H. apply Hid'. right; auto. }
    split; [rewrite L1 by lia|rewrite L2 by lia]; f_equal; apply Hno.
Qed.
Print Assumptions C24_lookup.
