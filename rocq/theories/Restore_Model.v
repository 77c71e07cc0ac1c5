(** Model of src/thin/restore.rs: the visitor that builds thin metadata from the calls of
    thin/ir.rs (as made by thin/xml.rs:257-321 or by the dump code in thin_repair). *)
From Verif Require Import Base Csum_Model Codec_Model SpaceMap_Model Batcher_Model Builder_Model Session_Model
  ThinOut_Model Walker_Model SmWrite_Model.

(** SuperblockOverrides (metadata_repair.rs:26-30) *)
Record overrides := mkov { ov_transaction_id : option N; ov_data_block_size : option N; ov_nr_data_blocks : option N }.
Definition no_overrides : overrides := mkov None None None.

(** Override for Superblock (metadata_repair.rs:944-964) *)
Definition override_sb (o : overrides) (s : thin_sb) : res thin_sb :=
  let tid := match ov_transaction_id o with Some t => N.max t (ts_transaction_id s) | None => ts_transaction_id s end in
  let bs := match ov_data_block_size o with Some b => b | None => ts_data_block_size s end in
  droot <- (match ov_nr_data_blocks o with
            | Some n =>
                ' (r, _) <- smroot_unpack (ts_data_sm_root s) ;;
                pack_root (mksmroot (N.max n (sr_nr_blocks r)) (sr_nr_allocated r) (sr_bitmap_root r) (sr_ref_count_root r))
                          SPACE_MAP_ROOT_SIZE
            | None => Ok (ts_data_sm_root s)
            end) ;;
  Ok (mktsb (ts_needs_check s) (ts_block s) (ts_version s) (ts_time s) tid (ts_metadata_snap s)
            droot (ts_metadata_sm_root s) (ts_mapping_root s) (ts_details_root s) bs (ts_nr_metadata_blocks s)).

(** MappedSection (restore.rs:46-49), Section (63-69) *)
Inductive msection := SecDef (name : N) | SecDev (id : N).
Inductive section := InNone | InSuperblock | InDevice | InDef | Finalized.
Definition is_def (m : msection) : bool := match m with SecDef _ => true | SecDev _ => false end.

(** Restorer (restore.rs:71-87).  The BTreeMaps are sorted association lists; report is
    left out, overrides is a parameter.  The data space map is shared between the field
    data_sm and the builder's MappingRC: while a section is open [nb_rc] is a stale copy and
    [r_dsm] is the one in force. *)
Record rstate := mkrs {
  r_w : wb; r_subs : list (N * list summary);
  r_cur : option (msection * nbuilder block_time core_sm);
  r_dev : option device_detail; r_sb : option ir_sb;
  r_devs : list (N * (device_detail * N)); r_dsm : option core_sm; r_sec : section }.

(** Restorer::new, new_with (restore.rs:90-122) *)
Definition restorer_new (w : wb) : rstate := mkrs w [] None None None [] None InNone.

Definition set_w w s := mkrs w (r_subs s) (r_cur s) (r_dev s) (r_sb s) (r_devs s) (r_dsm s) (r_sec s).
Definition set_subs x s := mkrs (r_w s) x (r_cur s) (r_dev s) (r_sb s) (r_devs s) (r_dsm s) (r_sec s).
Definition set_cur x s := mkrs (r_w s) (r_subs s) x (r_dev s) (r_sb s) (r_devs s) (r_dsm s) (r_sec s).
Definition set_dev x s := mkrs (r_w s) (r_subs s) (r_cur s) x (r_sb s) (r_devs s) (r_dsm s) (r_sec s).
Definition set_sb x s := mkrs (r_w s) (r_subs s) (r_cur s) (r_dev s) x (r_devs s) (r_dsm s) (r_sec s).
Definition set_devs x s := mkrs (r_w s) (r_subs s) (r_cur s) (r_dev s) (r_sb s) x (r_dsm s) (r_sec s).
Definition set_dsm x s := mkrs (r_w s) (r_subs s) (r_cur s) (r_dev s) (r_sb s) (r_devs s) x (r_sec s).
Definition set_sec x s := mkrs (r_w s) (r_subs s) (r_cur s) (r_dev s) (r_sb s) (r_devs s) (r_dsm s) x.

Definition get {A} (f : rstate -> A) : st rstate A := fun s => (s, Ok (f s)).
Definition modify (f : rstate -> rstate) : st rstate unit := fun s => (f s, Ok tt).
(** a call on self.w *)
Definition on_w {A} (m : st wb A) : st rstate A := fun s => let '(w, r) := m (r_w s) in (set_w w s, r).
(** a call on a builder [b] with self.w and the shared data space map;
    data_sm.as_ref().unwrap() panics when there is none *)
Definition on_builder {A} (b : nbuilder block_time core_sm) (m : st (wb * nbuilder block_time core_sm) A)
  : st rstate (A * nbuilder block_time core_sm) := fun s =>
  match r_dsm s with
  | None => (s, Panic)
  | Some dsm =>
      match m (r_w s, mknb (nb_values b) (nb_nodes b) (nb_last b) dsm) with
      | ((w, b'), Ok a) => (set_dsm (Some (nb_rc b')) (set_w w s), Ok (a, b'))
      | ((w, b'), Err) => (set_dsm (Some (nb_rc b')) (set_w w s), Err)
      | ((w, b'), Panic) => (set_dsm (Some (nb_rc b')) (set_w w s), Panic)
      end
  end.

(** begin_section (restore.rs:124-141) *)
Definition begin_section (sec : msection) : st rstate unit :=
  cur <~ get r_cur ;;
  match cur with
  | Some _ => fail
  | None =>
      dsm <~ get r_dsm ;;
      match dsm with
      | None => lift Panic
      | Some d => modify (set_cur (Some (sec, nb_new d)))
      end
  end.

(** end_section (restore.rs:143-153) *)
Definition end_section : st rstate (msection * list summary) :=
  cur <~ get r_cur ;;
  _ <~ modify (set_cur None) ;;
  match cur with
  | Some (sec, b) =>
      ' (ns, _) <~ on_builder b (nb_complete bt_codec (leaf_io block_time) (is_def sec) mapping_inc) ;;
      ret (sec, ns)
  | None => fail
  end.

(** build_device_details (restore.rs:156-171): two BTreeBuilders used alternately *)
Definition dst := ((wb * nbuilder device_detail unit) * nbuilder N unit)%type.
Definition on_details {A} (m : st (wb * nbuilder device_detail unit) A) : st dst A := fun s =>
  let '(wb1, b2) := s in let '(wb1, r) := m wb1 in ((wb1, b2), r).
Definition on_mapping {A} (m : st (wb * nbuilder N unit) A) : st dst A := fun s =>
  let '((w, b1), b2) := s in let '((w, b2), r) := m (w, b2) in (((w, b1), b2), r).
Fixpoint push_devices (devs : list (N * (device_detail * N))) : st dst unit :=
  match devs with
  | [] => ret tt
  | (id, (dd, root)) :: r =>
      _ <~ on_details (push_value dd_codec (leaf_io device_detail) false noop_inc id dd) ;;
      _ <~ on_mapping (push_value u64_codec (leaf_io N) false noop_inc id root) ;;
      push_devices r
  end.
Definition complete_tree {V} (c : codec V) : st (wb * nbuilder V unit) N :=
  ns <~ nb_complete c (leaf_io V) false noop_inc ;; onw (build_btree ns).
Definition build_device_details (devs : list (N * (device_detail * N))) : st wb (N * N) := fun w =>
  let '(((w, _), _), r) :=
    (_ <~ push_devices devs ;;
     details <~ on_details (complete_tree dd_codec) ;;
     mapping <~ on_mapping (complete_tree u64_codec) ;;
     ret (details, mapping)) ((w, nb_new tt), nb_new tt) in (w, r).

(** release_subtrees (restore.rs:173-183) *)
Definition release_subtrees : st rstate unit := fun s =>
  match r_dsm s with
  | None => (s, Panic)
  | Some dsm =>
      let '((w, dsm), r) := release_runs bt_codec mapping_dec (map snd (r_subs s)) (r_w s, dsm) in
      (set_dsm (Some dsm) (set_w w s), r)
  end.

(** superblock::write_superblock (thin/superblock.rs:142-157) on the batcher's engine: the
    block goes straight to the device, and a failure to write it is an error. *)
Definition wb_write_superblock (sb : thin_sb) : st wb unit :=
  b <~ lift (to_block (thin_sb_pack sb)) ;;
  data <~ lift (write_checksum b THIN_SUPERBLOCK) ;;
  fun w => if wb_good w 0
           then (mkwb (wb_base w) (wb_log w ++ [mkblock 0 data]) (wb_good w) (wb_sm w) (wb_batch w) (wb_queue w) (wb_allocs w) (wb_junk w), Ok tt)
           else (w, Err).

(** finalize (restore.rs:185-224), build_data_sm (355-360) *)
Definition finalize (o : overrides) : st rstate unit :=
  sb <~ get r_sb ;;
  _ <~ modify (set_sb None) ;;
  match sb with
  | None => fail
  | Some src =>
      devs <~ get r_devs ;;
      ' (details_root, mapping_root) <~ on_w (build_device_details devs) ;;
      _ <~ release_subtrees ;;
      dsm <~ get r_dsm ;;
      match dsm with
      | None => lift Panic
      | Some dsm =>
          droot <~ on_w (write_disk_sm dsm) ;;
          dpacked <~ lift (pack_root droot SPACE_MAP_ROOT_SIZE) ;;
          mroot <~ on_w write_metadata_sm ;;
          mpacked <~ lift (pack_root mroot SPACE_MAP_ROOT_SIZE) ;;
          sb <~ lift (override_sb o
                  (mktsb false 0 2 (is_time src) (is_transaction src) 0 dpacked mpacked
                         mapping_root details_root (is_data_block_size src) (sr_nr_blocks mroot))) ;;
          _ <~ on_w (wb_write_superblock sb) ;;
          modify (set_sec Finalized)
      end
  end.

Definition sec_eqb (a b : section) : bool :=
  match a, b with
  | InNone, InNone | InSuperblock, InSuperblock | InDevice, InDevice | InDef, InDef | Finalized, Finalized => true
  | _, _ => false
  end.
(** if self.in_section != sec { return Err } *)
Definition check_section (sec : section) : st rstate unit :=
  x <~ get r_sec ;; if sec_eqb x sec then ret tt else fail.

(** superblock_b (restore.rs:228-246); core_sm (space_map/base.rs:235-245) *)
Definition superblock_b (sb : ir_sb) : st rstate unit :=
  _ <~ check_section InNone ;;
  if negb ((128 <=? is_data_block_size sb) && (is_data_block_size sb <=? 2097152)) || negb (N.land (is_data_block_size sb) 127 =? 0)
  then fail else
  _ <~ modify (set_sb (Some sb)) ;;
  _ <~ modify (set_dsm (Some (core_sm_for (is_nr_data_blocks sb) (W32 - 1)))) ;;
  b <~ on_w wb_alloc ;;
  if negb (b_loc b =? 0) then fail else modify (set_sec InSuperblock).

(** def_shared_b, def_shared_e (restore.rs:253-269) *)
Definition def_shared_b (name : N) : st rstate unit :=
  _ <~ check_section InSuperblock ;;
  _ <~ modify (set_sec InDef) ;;
  begin_section (SecDef name).
Definition def_shared_e : st rstate unit :=
  ' (sec, ns) <~ end_section ;;
  match sec with
  | SecDef name =>
      _ <~ (fun s => (set_subs (bmap_insert name ns (r_subs s)) s, Ok tt)) ;;
      modify (set_sec InSuperblock)
  | SecDev _ => fail
  end.

(** device_b, device_e (restore.rs:271-300) *)
Definition device_b (d : ir_dev) : st rstate unit :=
  _ <~ check_section InSuperblock ;;
  _ <~ modify (set_dev (Some (mkdd (id_mapped d) (id_transaction d) (id_creation d) (id_snap d)))) ;;
  _ <~ modify (set_sec InDevice) ;;
  begin_section (SecDev (id_dev d)).
Definition device_e : st rstate unit :=
  dev <~ get r_dev ;;
  _ <~ modify (set_dev None) ;;
  match dev with
  | None => fail
  | Some dd =>
      ' (sec, ns) <~ end_section ;;
      match sec with
      | SecDev id =>
          root <~ on_w (build_btree ns) ;;
          _ <~ (fun s => (set_devs (bmap_insert id (dd, root) (r_devs s)) s, Ok tt)) ;;
          modify (set_sec InSuperblock)
      | SecDef _ => fail
      end
  end.

(** map (restore.rs:302-316); u64 additions wrap *)
Definition map_ops (m : ir_map) : list (@build_op block_time) :=
  map (fun i => PushValue (wadd (m_thin m) i) (mkbt (wadd (m_data m) i) (m_time m))) (range 0 (m_len m)).
Definition on_current (os : list (@build_op block_time)) : st rstate unit :=
  cur <~ get r_cur ;;
  match cur with
  | Some (sec, b) =>
      ' (_, b) <~ on_builder b (do_ops bt_codec (leaf_io block_time) (is_def sec) mapping_inc os) ;;
      modify (set_cur (Some (sec, b)))
  | None => fail
  end.
Definition restore_map (m : ir_map) : st rstate unit := on_current (map_ops m).

(** ref_shared (restore.rs:318-341) *)
Definition restore_ref (name : N) : st rstate unit :=
  dev <~ get r_dev ;;
  match dev with
  | None => fail
  | Some _ =>
      subs <~ get r_subs ;;
      match find (fun p => fst p =? name) subs with
      | Some (_, ns) => on_current [PushNodes ns]
      | None => fail
      end
  end.

(** eof (restore.rs:343-348) *)
Definition restore_eof : st rstate unit := check_section Finalized.

Definition visit (o : overrides) (e : event) : st rstate unit :=
  match e with
  | EvSbB sb => superblock_b sb
  | EvSbE => finalize o
  | EvDefB name => def_shared_b name
  | EvDefE => def_shared_e
  | EvDevB d => device_b d
  | EvDevE => device_e
  | EvMap m => restore_map m
  | EvRef name => restore_ref name
  | EvEof => restore_eof
  end.

(** xml::read (thin/xml.rs:308-321) stops at the first error. *)
Fixpoint visits (o : overrides) (es : list event) : st rstate unit :=
  match es with [] => ret tt | e :: r => _ <~ visit o e ;; visits o r end.

(** restore (restore.rs:390-405): a device [d] of [nr] blocks, those in [good] can be read
    and written. *)
Definition restore (d : disk) (good : N -> bool) (junk : N -> list N) (nr batch : N) (o : overrides) (es : list event)
  : rstate * res unit :=
  visits o es (restorer_new (wb_new d good (core_metadata_sm nr (W32 - 1)) batch junk)).
