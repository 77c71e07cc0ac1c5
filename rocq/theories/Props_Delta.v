(** Property C26 for the command thin_delta. *)
From Verif Require Import Base Utils_Proofs Csum_Model Codec_Model Codec_Spec SpaceMap_Model SpaceMap_Spec Batcher_Model Builder_Model Builder_Spec BtreeRead_Proofs Walker_Model Walker_Spec Walker_Proofs
  Props_Btree Props_Walker ThinOut_Model ThinOut_Spec Props_ThinOut Restore_Model Repair_Model RestoreDoc_Spec Rmap_Model Dump_Model Dump_Spec Delta_Model Props_Dump Props_DumpEx Props_Rmap Props_LsRestore.

(** The superblock asked for: the live one, or the one of the metadata snapshot. *)
Definition superblock_for (eng : N -> option (list N)) (use_snap : bool) (sb : thin_sb) : Prop :=
  if use_snap then exists live, read_sb eng 0 = Ok live /\ ts_metadata_snap live <> 0 /\ read_sb eng (ts_metadata_snap live) = Ok sb
  else read_sb eng 0 = Ok sb.
(** The pool of a superblock: the ids of the devices with the roots of their trees, and with
    their details, are in its two trees, which can be read. *)
Record pool_of (D : disk) (nr : N) (eng : N -> option (list N)) (sb : thin_sb) (roots : list (N * N)) (details : list (N * device_detail)) : Prop := {
  pl_roots : exists depth foot, tree u64_codec D true depth (ts_mapping_root sb) roots foot /\ NoDup foot /\ forall b, In b foot -> b < nr /\ eng b = Some (D b);
  pl_details : exists depth foot, tree dd_codec D true depth (ts_details_root sb) details foot /\ NoDup foot /\ forall b, In b foot -> b < nr /\ eng b = Some (D b);
  pl_order : increasing (map fst roots) /\ increasing (map fst details) }.
(** A side of the comparison has these mappings: a device by its id, or a tree by its root.  The tree can
    be read and does not contain a block twice; the two sides may share blocks. *)
Definition side (D : disk) (nr : N) (eng : N -> option (list N)) (roots : list (N * N)) (x : snap) (kvs : list (N * block_time)) : Prop :=
  exists root depth foot, (x = RootBlock root \/ exists id, x = DeviceId id /\ In (id, root) roots) /\
    tree bt_codec D true depth root kvs foot /\ NoDup foot /\ (forall b, In b foot -> b < nr /\ eng b = Some (D b)) /\ mappings_ok kvs.

Lemma superblock_for_read eng us sb : superblock_for eng us sb -> (if us then read_sb_snap eng else read_sb eng 0) = Ok sb.
Proof.
  destruct us; [|auto]. intros (live & E & Hne & E2). unfold read_sb_snap. rewrite E. cbn [bind]. destruct (N.eqb_spec (ts_metadata_snap live) 0); [contradiction|exact E2].
Qed.
Lemma map_get_in {A} (m : list (N * A)) : NoDup (map fst m) -> forall k v, In (k, v) m -> map_get m k = Some v.
Proof.
  induction m as [|[k' v'] m IH]; intros HN k v Hin; [destruct Hin|]. cbn [map fst] in HN. inversion HN as [|? ? N1 N2]; subst. cbn [map_get]. destruct (N.eqb_spec k k') as [->|Hne].
  - destruct Hin as [[= ->]|Hin]; [reflexivity|]. exfalso. apply N1. change k' with (fst (k', v)). apply in_map. auto.
  - destruct Hin as [[= -> ->]|Hin]; [congruence|auto].
Qed.
Lemma map_get_none {A} (m : list (N * A)) k : ~ In k (map fst m) -> map_get m k = None.
Proof. induction m as [|[k' v'] m IH]; intros H; [reflexivity|]. cbn [map_get map fst] in *. destruct (N.eqb_spec k k') as [->|]; [exfalso; apply H; left; auto|]. apply IH. intros H2. apply H. right; auto. Qed.
Lemma get_side D nr eng roots x kvs : nr < 2 ^ 64 -> NoDup (map fst roots) -> side D nr eng roots x kvs ->
  exists root, snap_root roots x = Ok root /\ get_mappings nr eng root = Ok (record_mappings kvs).
Proof.
  intros Hnr HN (root & depth & foot & Hx & HT & HF & Hb & Hm & _). exists root. split.
  - destruct Hx as [->|(id & -> & Hin)]; [reflexivity|]. cbn [snap_root]. rewrite (map_get_in _ HN _ _ Hin). reflexivity.
  - unfold get_mappings. destruct (C54_undamaged_tree bt_codec false eng D depth root kvs foot [] (walker_new nr) HT HF Hm) as (s' & calls & E & L & K & _ & _).
    + unfold map_ok, walker_new, rsm_new. cbn [w_sm wsm_nr wmax wcount r_nr r_bits]. split; [auto|split; [lia|intros; lia]].
    + intros b Hin. cbn. destruct (Hb b Hin). auto.
    + unfold accept_all in E. rewrite E, L. cbn [walker_new w_log app]. f_equal. f_equal. unfold rmap_entries. rewrite flat_map_app. cbn [flat_map]. rewrite app_nil_r, <- K.
      apply flat_map_ext. intros []; reflexivity.
Qed.
Lemma list_eqb_eq : forall a b, list_eqb a b = true <-> a = b.
Proof.
  induction a as [|x a IH]; intros [|y b]; cbn; split; intros H; try discriminate; auto.
  - apply andb_prop in H as [H1 H2]. apply N.eqb_eq in H1. apply IH in H2. congruence.
  - injection H as -> ->. rewrite N.eqb_refl. apply IH. reflexivity.
Qed.
Lemma pool_identical D nr eng sb roots details : nr < 2 ^ 64 -> pool_of D nr eng sb roots details ->
  btree_to_map u64_codec nr eng false (ts_mapping_root sb) = Ok roots /\
  devices_identical nr eng false (ts_mapping_root sb) (ts_details_root sb) = list_eqb (map fst roots) (map fst details).
Proof.
  intros Hnr [(d1 & f1 & T1 & N1 & B1) (d2 & f2 & T2 & N2 & B2) [I1 I2]]. split; [eapply C54_btree_to_map; eauto|].
  unfold devices_identical. rewrite (key_set_any u64_codec nr eng D d1 _ _ f1 false T1 N1 I1 Hnr B1), (key_set_any dd_codec nr eng D d2 _ _ f2 false T2 N2 I2 Hnr B2). reflexivity.
Qed.

(** For every pool whose two lists have the same devices and every two sides: thin_delta succeeds; it
    writes the attributes of the superblock (version always 2), and every thin block is reported
    with exactly the kind it has, at most once, in order, neighbours merged. *)
Theorem C26_command : forall D nr eng use_snap sb roots details r rest snap1 snap2 left right,
  nr < 2 ^ 64 -> superblock_for eng use_snap sb -> pool_of D nr eng sb roots details -> map fst roots = map fst details ->
  smroot_unpack (ts_data_sm_root sb) = Ok (r, rest) -> side D nr eng roots snap1 left -> side D nr eng roots snap2 right ->
  exists ds, delta_cmd nr eng use_snap snap1 snap2 =
      Ok (mkirsb (ts_time sb) (ts_transaction_id sb) (if ts_needs_check sb then Some 1 else None) (Some 2) (ts_data_block_size sb) (sr_nr_blocks r) None, ds) /\
    let es := map simple_elem ds in
    (forall t k, covers es k t <-> classify left right t = Some k) /\ in_order 0 es /\ consecutive not_mergeable es.
Proof.
  intros D nr eng us sb roots details r rest x1 x2 left right Hnr Hs Hp Hid Hr H1 H2.
  destruct (pool_identical D nr eng sb roots details Hnr Hp) as [E1 E2].
  assert (HN : NoDup (map fst roots)) by (apply increasing_NoDup; apply Hp).
  destruct (get_side D nr eng roots x1 left Hnr HN H1) as (r1 & A1 & B1). destruct (get_side D nr eng roots x2 right Hnr HN H2) as (r2 & A2 & B2).
  destruct H1 as (_ & _ & _ & _ & _ & _ & _ & M1), H2 as (_ & _ & _ & _ & _ & _ & _ & M2).
  destruct (C26_delta_classifies left right M1 M2) as (ds & Ed & Hd). exists ds. split; [|exact Hd].
  unfold delta_cmd. rewrite (superblock_for_read _ _ _ Hs). cbn [bind]. rewrite E2. rewrite (proj2 (list_eqb_eq _ _) Hid).
  unfold dump_diff. rewrite E1. cbn [bind]. rewrite A1. cbn [bind]. rewrite B1. cbn [bind]. rewrite A2. cbn [bind]. rewrite B2. cbn [bind]. rewrite Hr. cbn [bind].
  unfold thin_delta in Ed. destruct (dump_delta_mappings (record_mappings left) (record_mappings right)) as [ds0| |]; try discriminate Ed. cbn [bind] in *. injection Ed as <-. reflexivity.
Qed.
Print Assumptions C26_command.

(** A device that is not in the pool, on either side, is an error; so are two lists of devices
    that differ, whatever is asked. *)
Theorem C26_refused : forall D nr eng use_snap sb roots details snap1 snap2,
  nr < 2 ^ 64 -> superblock_for eng use_snap sb -> pool_of D nr eng sb roots details ->
  (exists id, (snap1 = DeviceId id \/ snap2 = DeviceId id) /\ ~ In id (map fst roots)) \/ map fst roots <> map fst details ->
  delta_cmd nr eng use_snap snap1 snap2 = Err.
Proof.
  intros D nr eng us sb roots details x1 x2 Hnr Hs Hp H. destruct (pool_identical D nr eng sb roots details Hnr Hp) as [E1 E2].
  unfold delta_cmd. rewrite (superblock_for_read _ _ _ Hs). cbn [bind]. rewrite E2. destruct (list_eqb (map fst roots) (map fst details)) eqn:El; [|reflexivity].
  destruct H as [(id & Hx & Hid)|H]; [|apply list_eqb_eq in El; contradiction].
  assert (HG : forall root, exists y, get_mappings nr eng root = y /\ y <> Panic).
  { intros root. unfold get_mappings. destruct (walk bt_codec false eng (fun _ _ => true) [] root (walker_new nr)) as [s [e|]]; eexists; (split; [reflexivity|discriminate]). }
  unfold dump_diff. rewrite E1. cbn [bind]. destruct Hx as [-> | ->].
  - cbn [snap_root]. rewrite (map_get_none _ _ Hid). reflexivity.
  - destruct (snap_root roots x1) as [r1| |] eqn:Er; [|reflexivity|].
    + cbn [bind]. destruct (HG r1) as (y & -> & Hy). destruct y; cbn [bind]; [|reflexivity|congruence]. cbn [snap_root]. rewrite (map_get_none _ _ Hid). reflexivity.
    + destruct x1 as [i|b]; cbn [snap_root] in Er; [destruct (map_get roots i); discriminate|discriminate].
Qed.
Print Assumptions C26_refused.
