(** cache/restore.rs and cache/dump.rs. *)
From Verif Require Import Base Csum_Model Codec_Model SpaceMap_Model Utils_Model Batcher_Model Builder_Model Walker_Model Array_Model SmWrite_Model Era_Model.

(** ** cache/ir.rs *)
(** Strings are lists of bytes. *)
Record cir_sb := mkcirsb { ci_uuid : list N; ci_block_size : N; ci_nr_cache_blocks : N; ci_policy : list N; ci_hint_width : N }.
Record cir_map := mkcmap { cm_cblock : N; cm_origin : N; cm_isdirty : bool }.
Record cir_hint := mkchint { ch_cblock : N; ch_data : list N }.
(** The calls of MetadataVisitor (ir.rs:43-60). *)
Inductive cevent :=
  | CSbB (sb : cir_sb) | CSbE | CMapsB | CMapsE | CMap (m : cir_map) | CHintsB | CHintsE | CHint (h : cir_hint)
  | CDiscardsB | CDiscardsE | CDiscard (b e : N) | CEof.

(** ** cache/restore.rs *)
(** Section (restore.rs:44-51), Restorer (:60-75) without the batcher, the version and the
    clean_shutdown flag.  mapping_root, dirty_root and hint_root are set and used in finalize
    only. *)
Inductive csection := CNone | CSuperblock | CMappings | CHints | CFinalized.
Record crest := mkcr {
  cr_sb : option cir_sb; cr_map : option (abuilder cmapping); cr_dirty : option (abuilder N); cr_hint : option (abuilder (list N));
  cr_discard : option N; cr_bits : N * N; cr_sec : csection }.
(** new (restore.rs:78-94) *)
Definition crest_new : crest := mkcr None None None None None (0, 0) CNone.
Definition csec_eqb (a b : csection) : bool :=
  match a, b with CNone, CNone | CSuperblock, CSuperblock | CMappings, CMappings | CHints, CHints | CFinalized, CFinalized => true | _, _ => false end.
(** Default: Mapping (mapping.rs:22-26), u64, Hint (hint.rs:12-15). *)
Definition no_mapping : cmapping := mkcm 0 0.
Definition no_hint : list N := [0; 0; 0; 0].
Definition unwrap {A} (o : option A) : st wb A := lift (match o with Some a => Ok a | None => Panic end).

(** set_dirty (restore.rs:104-121) *)
Definition set_dirty (cblock : N) (r : crest) : st wb crest :=
  let index := N.shiftr cblock 6 in
  let mask := N.shiftl 1 (N.land cblock 63) in
  if index =? fst (cr_bits r)
  then ret (mkcr (cr_sb r) (cr_map r) (cr_dirty r) (cr_hint r) (cr_discard r) (fst (cr_bits r), N.lor (snd (cr_bits r)) mask) (cr_sec r))
  else
    d <~ unwrap (cr_dirty r) ;;
    d <~ abb_push u64_codec 0 (fst (cr_bits r)) (snd (cr_bits r)) d ;;
    ret (mkcr (cr_sb r) (cr_map r) (Some d) (cr_hint r) (cr_discard r) (index, mask) (cr_sec r)).

(** write_superblock (cache/superblock.rs:206-221) straight to the device *)
Definition wb_write_cache_sb (sb : cache_sb) : st wb unit :=
  l <~ lift (cache_sb_pack sb) ;;
  b <~ lift (to_block l) ;;
  data <~ lift (write_checksum b CACHE_SUPERBLOCK) ;;
  fun w => if wb_good w 0
           then (mkwb (wb_base w) (wb_log w ++ [mkblock 0 data]) (wb_good w) (wb_sm w) (wb_batch w) (wb_queue w) (wb_allocs w) (wb_junk w), Ok tt)
           else (w, Err).

Definition complete_opt {V} (c : codec V) (dflt : V) (o : option (abuilder V)) : st wb (option N) :=
  match o with None => ret None | Some b => r <~ ab_complete c dflt b ;; ret (Some r) end.
(** finalize (restore.rs:123-184), build_metadata_sm (:301-306) *)
Definition cache_finalize (version : N) (clean : bool) (r : crest) : st wb crest :=
  match cr_sb r with
  | None => fail
  | Some src =>
      mroot <~ complete_opt cm_codec no_mapping (cr_map r) ;;
      droot <~ match cr_dirty r with
               | None => ret None
               | Some b => b <~ abb_push u64_codec 0 (fst (cr_bits r)) (snd (cr_bits r)) b ;; x <~ ab_complete u64_codec 0 b ;; ret (Some x)
               end ;;
      hroot <~ complete_opt hint_codec no_hint (cr_hint r) ;;
      sm <~ write_metadata_sm ;;
      packed <~ lift (pack_root sm SPACE_MAP_ROOT_SIZE) ;;
      mroot <~ unwrap mroot ;;
      hroot <~ unwrap hroot ;;
      discard <~ unwrap (cr_discard r) ;;
      _ <~ wb_write_cache_sb (mkcsb clean false 0 version (ci_policy src) [2; 0; 0] (ci_hint_width src) packed mroot droot hroot discard
                                    0 0 (ci_block_size src) (ci_nr_cache_blocks src) 0 0 0 0 9 0 0) ;;
      ret (mkcr None None None None (cr_discard r) (cr_bits r) CFinalized)
  end.

Definition in_csec (s : csection) (r : crest) (next : crest) : st wb crest := if csec_eqb (cr_sec r) s then ret next else fail.
Definition set_csec (s : csection) (r : crest) : crest := mkcr (cr_sb r) (cr_map r) (cr_dirty r) (cr_hint r) (cr_discard r) (cr_bits r) s.
(** The visitor (restore.rs:187-297) *)
Definition cache_superblock_b (version : N) (sb : cir_sb) (r : crest) : st wb crest :=
  if negb (csec_eqb (cr_sec r) CNone) then fail
  else
    b <~ wb_alloc ;;
    if negb (b_loc b =? 0) then fail
    else
      discard <~ ab_complete u64_codec 0 (abb_new u64_codec 0) ;;
      ret (mkcr (Some sb) (Some (abb_new cm_codec (ci_nr_cache_blocks sb)))
                (if 1 <? version then Some (abb_new u64_codec (div_up_u64 (ci_nr_cache_blocks sb) 64)) else cr_dirty r)
                (Some (abb_new hint_codec (ci_nr_cache_blocks sb))) (Some discard) (cr_bits r) CSuperblock).
Definition cache_mapping (version : N) (m : cir_map) (r : crest) : st wb crest :=
  r <~ (if cm_isdirty m && negb (version =? 1) then set_dirty (cm_cblock m) r else ret r) ;;
  b <~ unwrap (cr_map r) ;;
  b <~ abb_push cm_codec no_mapping (cm_cblock m) (mkcm (cm_origin m) (if cm_isdirty m && (version =? 1) then N.lor 1 2 else 1)) b ;;
  ret (mkcr (cr_sb r) (Some b) (cr_dirty r) (cr_hint r) (cr_discard r) (cr_bits r) (cr_sec r)).
Definition cache_hint (h : cir_hint) (r : crest) : st wb crest :=
  _ <~ unwrap (if (length (ch_data h) =? 4)%nat then Some tt else None) ;;
  b <~ unwrap (cr_hint r) ;;
  b <~ abb_push hint_codec no_hint (ch_cblock h) (ch_data h) b ;;
  ret (mkcr (cr_sb r) (cr_map r) (cr_dirty r) (Some b) (cr_discard r) (cr_bits r) (cr_sec r)).
Definition cvisit (version : N) (clean : bool) (e : cevent) (r : crest) : st wb crest :=
  match e with
  | CSbB sb => cache_superblock_b version sb r
  | CSbE => cache_finalize version clean r
  | CMapsB => in_csec CSuperblock r (set_csec CMappings r)
  | CMapsE => in_csec CMappings r (set_csec CSuperblock r)
  | CMap m => cache_mapping version m r
  | CHintsB => in_csec CSuperblock r (set_csec CHints r)
  | CHintsE => in_csec CHints r (set_csec CSuperblock r)
  | CHint h => cache_hint h r
  | CDiscardsB | CDiscardsE | CDiscard _ _ => ret r
  | CEof => in_csec CFinalized r r
  end.
Fixpoint cvisits (version : N) (clean : bool) (es : list cevent) (r : crest) : st wb crest :=
  match es with
  | [] => ret r
  | e :: t => r' <~ cvisit version clean e r ;; cvisits version clean t r'
  end.
(** restore (restore.rs:310-333), given the calls xml::read makes: stops at the first error. *)
Definition cache_restore (d : disk) (good : N -> bool) (junk : N -> list N) (nr batch version : N) (clean : bool) (es : list cevent) : wb * res crest :=
  cvisits version clean es crest_new (wb_new d good (core_metadata_sm nr (W32 - 1)) batch junk).

(** ** cache/dump.rs *)
Section Dump.
(** std::str::from_utf8 succeeds *)
Context (utf8 : list N -> bool).
(** walk_array_blocks (dump_utils.rs:35-68): the entries of the array blocks with the numbers
    the emitters give them (dump.rs:51-53, 106-108, 159-161: u32); stops at the first error. *)
Definition entry_numbers {V} (index : N) (a : array_block V) : list (N * V) :=
  let cbegin := mul32 (index mod W32) (ah_max (ab_hdr a)) in
  let cend := add32 cbegin (ah_nr (ab_hdr a)) in
  combine (range cbegin cend) (ab_values a).
Definition emitter (A V : Type) : Type := A -> N * V -> res (A * list cevent).
Fixpoint emit {A V} (f : emitter A V) (es : list (N * V)) (a : A) : list cevent * res A :=
  match es with
  | [] => ([], Ok a)
  | x :: r => match f a x with
              | Ok (a', ev) => let '(evs, out) := emit f r a' in (ev ++ evs, out)
              | Err => ([], Err)
              | Panic => ([], Panic)
              end
  end.
Fixpoint walk_blocks {A V} (c : codec V) (eng : N -> option (list N)) (f : emitter A V) (kvs : list (N * N)) (a : A) : list cevent * res A :=
  match kvs with
  | [] => ([], Ok a)
  | (i, b) :: r =>
      match eng b with
      | None => ([], Err)
      | Some data =>
          match metadata_block_type data with
          | ARRAY =>
              match unpack_array_block c data with
              | Ok blk =>
                  match emit f (entry_numbers i blk) a with
                  | (ev, Ok a') => let '(evs, out) := walk_blocks c eng f r a' in (ev ++ evs, out)
                  | (ev, out) => (ev, out)
                  end
              | Err => ([], Err)
              | Panic => ([], Panic)
              end
          | _ => ([], Err)
          end
      end
  end.

(** MappingEmitter::visit of both formats (dump.rs:50-71, 105-133): [dirty] gives the dirty
    state.  FixedBitSet::set panics beyond the end; the set is the list of its members. *)
Definition map_emitter (nr_entries : N) (dirty : N -> cmapping -> bool) : emitter (list N) cmapping := fun valid im =>
  let '(i, m) := im in
  if negb (cm_valid m) then Ok (valid, [])
  else if nr_entries <=? i then Panic
  else Ok (i :: valid, [CMap (mkcmap i (cm_oblock m) (dirty i m))]).
(** HintEmitter::visit (dump.rs:158-177) *)
Definition hint_emitter (valid : list N) : emitter unit (list N) := fun _ ih =>
  let '(i, h) := ih in
  Ok (tt, if existsb (N.eqb i) valid then [CHint (mkchint i h)] else []).

Definition walk_root {A V} (c : codec V) (eng : N -> option (list N)) (nr : N) (repair : bool) (root : N) (f : emitter A V) (a : A) : list cevent * res A :=
  match collect_array_blocks eng nr repair root with
  | Ok bs => walk_blocks c eng f bs a
  | Err => ([], Err)
  | Panic => ([], Panic)
  end.
(** dump_v1_mappings, dump_v2_mappings (dump.rs:182-227) *)
Definition dump_mappings (eng : N -> option (list N)) (nr : N) (repair : bool) (sb : cache_sb) : list cevent * res (list N) :=
  if cs_version sb =? 1 then walk_root cm_codec eng nr repair (cs_mapping_root sb) (map_emitter (cs_cache_blocks sb) (fun _ => cm_dirty)) []
  else if cs_version sb =? 2 then
    match cs_dirty_root sb with
    | None => ([], Err)
    | Some root =>
        let '(bits, errs) := read_bitset_checked eng nr root (cs_cache_blocks sb) repair in
        match errs, repair with
        | _ :: _, false => ([], Err)
        | _, _ => walk_root cm_codec eng nr repair (cs_mapping_root sb)
                    (map_emitter (cs_cache_blocks sb) (fun i _ => match bits i with Some b => b | None => true end)) []
        end
    end
  else ([], Err).
(** dump_metadata (dump.rs:324-369): the calls made, and the result. *)
Definition cache_dump (eng : N -> option (list N)) (nr : N) (repair : bool) (sb : cache_sb) : list cevent * res unit :=
  if negb (utf8 (cs_policy_name sb)) then ([], Err)
  else
    let head := [CSbB (mkcirsb [] (cs_data_block_size sb) (cs_cache_blocks sb) (cs_policy_name sb) (cs_policy_hint_size sb)); CMapsB] in
    match dump_mappings eng nr repair sb with
    | (ev1, Ok valid) =>
        match walk_root hint_codec eng nr repair (cs_hint_root sb) (hint_emitter valid) tt with
        | (ev2, Ok _) => (head ++ ev1 ++ [CMapsE; CHintsB] ++ ev2 ++ [CHintsE; CSbE; CEof], Ok tt)
        | (ev2, out) => (head ++ ev1 ++ [CMapsE; CHintsB] ++ ev2, out)
        end
    | (ev1, Err) => (head ++ ev1, Err)
    | (ev1, Panic) => (head ++ ev1, Panic)
    end.
End Dump.
