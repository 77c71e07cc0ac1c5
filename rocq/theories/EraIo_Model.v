(** era/restore.rs as a whole; the writesets are in Era_Model. *)
From Verif Require Import Base Csum_Model Codec_Model SpaceMap_Model Utils_Model Batcher_Model Builder_Model Walker_Model Array_Model SmWrite_Model Era_Model.

(** ** era/ir.rs *)
Record eir_sb := mkeirsb { ei_uuid : list N; ei_block_size : N; ei_nr_blocks : N; ei_current_era : N }.
(** The calls of MetadataVisitor (ir.rs:41-54). *)
Inductive eevent :=
  | ESbB (sb : eir_sb) | ESbE | EWsB (era nr_bits : N) | EWsE | EBlocks (begin len : N)
  | EEraB | EEraE | EEra (block era : N) | EEof.

(** ** era/restore.rs *)
(** Section (restore.rs:49-56), Restorer (:58-68) without the batcher.  writeset_builder,
    current_writeset, writeset_entry and entry_index are set together in writeset_b and used
    only while the first two are there: one field. *)
Inductive esection := ESNone | ESSuperblock | ESWriteset | ESEraArray | ESFinalized.
Definition esec_eqb (a b : esection) : bool :=
  match a, b with ESNone, ESNone | ESSuperblock, ESSuperblock | ESWriteset, ESWriteset | ESEraArray, ESEraArray | ESFinalized, ESFinalized => true | _, _ => false end.
Record erest := mker {
  er_sb : option eir_sb; er_sets : list (N * writeset); er_cur : option (N * N * wsst); er_eras : option (abuilder N); er_sec : esection }.
(** new (restore.rs:71-83) *)
Definition erest_new : erest := mker None [] None None ESNone.
Definition eunwrap {A} (o : option A) : st wb A := lift (match o with Some a => Ok a | None => Panic end).

(** write_superblock (era/superblock.rs:144-159) straight to the device *)
Definition wb_write_era_sb (sb : era_sb) : st wb unit :=
  b <~ lift (to_block (era_sb_pack sb)) ;;
  data <~ lift (write_checksum b ERA_SUPERBLOCK) ;;
  fun w => if wb_good w 0
           then (mkwb (wb_base w) (wb_log w ++ [mkblock 0 data]) (wb_good w) (wb_sm w) (wb_batch w) (wb_queue w) (wb_allocs w) (wb_junk w), Ok tt)
           else (w, Err).

(** finalize (restore.rs:85-134), build_metadata_sm (:288-293) *)
Definition era_finalize (r : erest) : st wb erest :=
  match er_sb r with
  | None => fail
  | Some src =>
      t <~ btree_build ws_codec noop_inc (map (fun kv => PushValue (fst kv) (snd kv)) (er_sets r)) tt ;;
      match er_eras r with
      | None => fail
      | Some b =>
          eroot <~ ab_complete u32_codec 0 b ;;
          sm <~ write_metadata_sm ;;
          packed <~ lift (pack_root sm SPACE_MAP_ROOT_SIZE) ;;
          _ <~ wb_write_era_sb (mkesb true 0 1 packed (ei_block_size src) (ei_nr_blocks src) (ei_current_era src)
                                      (mkws (ei_nr_blocks src) 0) (fst t) eroot 0) ;;
          ret (mker None [] (er_cur r) None ESFinalized)
      end
  end.

Definition in_esec (s : esection) (r : erest) (m : st wb erest) : st wb erest := if esec_eqb (er_sec r) s then m else fail.
Definition set_esec (s : esection) (r : erest) : erest := mker (er_sb r) (er_sets r) (er_cur r) (er_eras r) s.
(** The visitor (restore.rs:137-284) *)
Definition era_superblock_b (sb : eir_sb) (r : erest) : st wb erest :=
  in_esec ESNone r (
    b <~ wb_alloc ;;
    if negb (b_loc b =? 0) then fail
    else ret (mker (Some sb) (er_sets r) None (Some (abb_new u32_codec (ei_nr_blocks sb))) ESSuperblock)).
Definition era_writeset_e (r : erest) : st wb erest :=
  in_esec ESWriteset r (
    match er_cur r with
    | None => fail
    | Some (era, nr_bits, s) =>
        root <~ writeset_e s ;;
        ret (mker (er_sb r) (bmap_insert era (mkws nr_bits root) (er_sets r)) None (er_eras r) ESSuperblock)
    end).
Definition era_blocks (begin len : N) (r : erest) : st wb erest :=
  c <~ eunwrap (er_cur r) ;;
  s <~ writeset_blocks (begin, len) (snd c) ;;
  ret (mker (er_sb r) (er_sets r) (Some (fst c, s)) (er_eras r) (er_sec r)).
Definition era_era (block era : N) (r : erest) : st wb erest :=
  b <~ eunwrap (er_eras r) ;;
  b <~ abb_push u32_codec 0 block era b ;;
  ret (mker (er_sb r) (er_sets r) (er_cur r) (Some b) (er_sec r)).
Definition evisit (e : eevent) (r : erest) : st wb erest :=
  match e with
  | ESbB sb => era_superblock_b sb r
  | ESbE => era_finalize r
  | EWsB era nr_bits => in_esec ESSuperblock r (ret (mker (er_sb r) (er_sets r) (Some (era, nr_bits, writeset_b nr_bits)) (er_eras r) ESWriteset))
  | EWsE => era_writeset_e r
  | EBlocks b l => era_blocks b l r
  | EEraB => in_esec ESSuperblock r (ret (set_esec ESEraArray r))
  | EEraE => in_esec ESEraArray r (ret (set_esec ESSuperblock r))
  | EEra b e => era_era b e r
  | EEof => in_esec ESFinalized r (ret r)
  end.
Fixpoint evisits (es : list eevent) (r : erest) : st wb erest :=
  match es with
  | [] => ret r
  | e :: t => r' <~ evisit e r ;; evisits t r'
  end.
(** restore (restore.rs:297-314), given the calls xml::read makes: stops at the first error. *)
Definition era_restore (d : disk) (good : N -> bool) (junk : N -> list N) (nr batch : N) (es : list eevent) : wb * res erest :=
  evisits es erest_new (wb_new d good (core_metadata_sm nr (W32 - 1)) batch junk).
