(** cache/check.rs as a whole; the checks of the mappings are in CacheCheck_Model. *)
From Verif Require Import Base Csum_Model Codec_Model SpaceMap_Model Utils_Model Walker_Model Array_Model SmCheck_Model Repair_Model ThinCheck_Model CacheCheck_Model.

(** CacheCheckOptions (check.rs:239-250), without the paths. *)
Record cc_opts := mkcc {
  cc_sb_only : bool; cc_skip_mappings : bool; cc_skip_hints : bool; cc_skip_discards : bool;
  cc_ignore_non_fatal : bool; cc_auto_repair : bool; cc_clear_needs_check : bool }.
Definition cc_repairs (o : cc_opts) : bool := cc_auto_repair o || cc_clear_needs_check o.
Definition cc_skips (o : cc_opts) : bool := cc_skip_mappings o || cc_skip_hints o || cc_skip_discards o.
(** What the repair of leaks looks at, as for thin_check: check.rs:376-388 is the code of
    thin/check.rs with the same options. *)
Definition leak_opts (o : cc_opts) : check_opts :=
  mkco false false (cc_ignore_non_fatal o) (cc_auto_repair o) (cc_clear_needs_check o) false None None.

(** read_superblock (cache/superblock.rs:132-144) from the device *)
Definition read_csb (eng : N -> option (list N)) : res cache_sb :=
  match eng 0 with Some data => cache_read_superblock (fun _ => data) 0 | None => Err end.
(** check_superblock (check.rs:271-276) *)
Definition csb_ok (sb : cache_sb) : bool :=
  negb ((2 <=? cs_version sb) && (match cs_dirty_root sb with Some r => r | None => 0 end =? 0)).

Section Cmd.
Context (nr : N) (o : cc_opts).
(** The mappings (check.rs:289-334); the size of the origin is computed in any case. *)
Definition mappings_part (eng : N -> option (list N)) (sb : cache_sb) : res (wsm * list aerr) :=
  if cc_skip_mappings o then _ <- nr_origin_blocks sb ;; Ok (check_sm nr, [])
  else CacheCheck_Model.check_mappings eng nr (cc_ignore_non_fatal o) sb.
(** The hints (check.rs:223-235, 336-346) *)
Definition hints_part (eng : N -> option (list N)) (sb : cache_sb) (sm : wsm) : res (wsm * list aerr) :=
  if negb (cc_skip_hints o) && negb (cs_hint_root sb =? 0) && negb (cs_policy_hint_size sb =? 0) then
    if negb (cs_policy_hint_size sb =? 4) then Err
    else ' (sm, _, errs) <- array_walk_sm hint_codec (cc_ignore_non_fatal o) eng (fun s _ _ => (s, true)) sm (cs_hint_root sb) tt ;; Ok (sm, errs)
  else Ok (sm, []).
(** The discard bits (check.rs:348-361) *)
Definition discards_part (eng : N -> option (list N)) (sb : cache_sb) (sm : wsm) : res (wsm * list aerr) :=
  if negb (cc_skip_discards o) && negb (cs_discard_root sb =? 0) then
    ' (sm, _, errs) <- array_walk_sm u64_codec (cc_ignore_non_fatal o) eng (bv_visit (cs_discard_nr_blocks sb)) sm (cs_discard_root sb) (fun _ => None) ;; Ok (sm, errs)
  else Ok (sm, []).
Definition sections (eng : N -> option (list N)) (sb : cache_sb) : res (wsm * list aerr) :=
  ' (sm, e1) <- mappings_part eng sb ;;
  ' (sm, e2) <- hints_part eng sb sm ;;
  ' (sm, e3) <- discards_part eng sb sm ;;
  Ok (sm, e1 ++ e2 ++ e3).

(** The device: it is opened for writing only for a repair (mk_context, check.rs:258-268). *)
Context (readable writable : N -> bool).
Definition unflag (sb : cache_sb) : cache_sb :=
  mkcsb (cs_clean_shutdown sb) false (cs_block sb) (cs_version sb) (cs_policy_name sb) (cs_policy_version sb) (cs_policy_hint_size sb)
    (cs_metadata_sm_root sb) (cs_mapping_root sb) (cs_dirty_root sb) (cs_hint_root sb) (cs_discard_root sb) (cs_discard_block_size sb)
    (cs_discard_nr_blocks sb) (cs_data_block_size sb) (cs_cache_blocks sb) (cs_compat_flags sb) (cs_compat_ro_flags sb) (cs_incompat_flags sb)
    (cs_read_hits sb) (cs_read_misses sb) (cs_write_hits sb) (cs_write_misses sb).
(** clear_needs_check_flag (check.rs:401-408) *)
Definition clear_cache_flag (d : disk) : disk * res unit :=
  match read_csb (dev nr readable d) with
  | Ok sb =>
      if cs_needs_check sb then
        match cache_write_superblock d 0 (unflag sb) with
        | Ok d' => if can_write (leak_opts o) writable 0 then (d', Ok tt) else (d, Err)
        | Err => (d, Err)
        | Panic => (d, Panic)
        end
      else (d, Ok tt)
  | Err => (d, Err)
  | Panic => (d, Panic)
  end.
(** The end of check (check.rs:376-398) *)
Definition finish_cache (msm : core_sm) (lks : list leak) (d : disk) : disk * res unit :=
  match fix_leaks nr (leak_opts o) readable writable msm lks d with
  | (d, Ok _) => if cc_repairs o then clear_cache_flag d else (d, Ok tt)
  | x => x
  end.
(** check (check.rs:278-399).  Any error reported before the space map is looked at is fatal
    (nothing reports a non-fatal one there), :363-368. *)
Definition cache_check (d : disk) : disk * res unit :=
  let eng := dev nr readable d in
  match read_csb eng with
  | Ok sb =>
      if negb (csb_ok sb) then (d, Err)
      else if cc_sb_only o then (d, Ok tt)
      else
        match sections eng sb with
        | Ok (_, _ :: _) => (d, Err)
        | Ok (sm, []) =>
            if cc_skips o then (d, Ok tt)
            else
              match smroot_unpack (cs_metadata_sm_root sb) with
              | Ok (root, _) =>
                  match check_metadata_space_map nr eng (cc_ignore_non_fatal o) root (as_core sm) with
                  | (msm, Ok (_, lks)) => finish_cache msm lks d
                  | (_, r) => fails d r
                  end
              | r => fails d r
              end
        | r => fails d r
        end
  | r => fails d r
  end.
End Cmd.
