(** cache/check.rs: the checks of the mappings. *)
From Verif Require Import Base Csum_Model Codec_Model SpaceMap_Model Utils_Model Walker_Model Array_Model.

(** FixedBitSet as the checkers use it: its length, and the members. *)
Record fbits := mkfb { fb_len : N; fb_set : list N }.
Definition fb_contains (x : N) (s : fbits) : bool := (x <? fb_len s) && existsb (N.eqb x) (fb_set s).
Definition fb_grow (n : N) (s : fbits) : fbits := mkfb (N.max (fb_len s) n) (fb_set s).
Definition fb_insert (x : N) (s : fbits) : fbits := mkfb (fb_len s) (x :: fb_set s).

(** format1::check_flags (check.rs:56-69) and format2::check_flags (:156-169): accepted? *)
Definition check_flags1 (m : cmapping) : bool :=
  (N.land (cm_flags m) (N.lxor (W32 - 1) (N.lor 1 2)) =? 0) && negb (negb (cm_valid m) && cm_dirty m).
Definition check_flags2 (m : cmapping) (dirty_bit : option bool) : bool :=
  (N.land (cm_flags m) (N.lxor (W32 - 1) 1) =? 0) &&
  negb (negb (cm_valid m) && match dirty_bit with Some b => b | None => false end).

(** check_oblock, the same for both formats (check.rs:71-95, 171-194). *)
Definition check_oblock (nr_origin : N) (m : cmapping) (seen : fbits) : fbits * bool :=
  if negb (cm_valid m) then (seen, negb (0 <? cm_oblock m))
  else if nr_origin <=? cm_oblock m then (seen, false)
  else if fb_len seen <=? cm_oblock m then (fb_insert (cm_oblock m) (fb_grow (cm_oblock m + 1) seen), true)
  else if fb_contains (cm_oblock m) seen then (seen, false)
  else (fb_insert (cm_oblock m) seen, true).

(** visit (check.rs:99-117, 198-219): does it return no error?  All entries are looked at. *)
Fixpoint check_entries (nr_origin : N) (flags : N -> cmapping -> bool) (seen : fbits) (es : list (N * cmapping)) : fbits * bool :=
  match es with
  | [] => (seen, true)
  | (i, m) :: r =>
      let '(seen1, ok1) := check_oblock nr_origin m seen in
      let '(seen2, ok2) := check_entries nr_origin flags seen1 r in
      (seen2, flags i m && ok1 && ok2)
  end.
Definition mc1_visit (nr_origin : N) (seen : fbits) (index : N) (a : array_block cmapping) : fbits * bool :=
  check_entries nr_origin (fun _ => check_flags1) seen (map (fun m => (0, m)) (ab_values a)).
(** u32 arithmetic *)
Definition mc2_visit (nr_origin : N) (dirty : cbits) (seen : fbits) (index : N) (a : array_block cmapping) : fbits * bool :=
  let cbegin := (index * ah_max (ab_hdr a)) mod W32 in
  let cend := (cbegin + ah_nr (ab_hdr a)) mod W32 in
  check_entries nr_origin (fun i m => check_flags2 m (dirty i)) seen (combine (range cbegin cend) (ab_values a)).

(** The size of the origin as the discard bitset gives it (check.rs:289-296): u64, wraps; a
    division by zero panics.  MappingChecker::new (:45-54, 141-153). *)
Definition nr_origin_blocks (sb : cache_sb) : res (option N) :=
  if cs_clean_shutdown sb && (0 <? cs_discard_block_size sb) && (0 <? cs_discard_nr_blocks sb) then
    if cs_data_block_size sb =? 0 then Panic
    else Ok (Some ((cs_discard_block_size sb * cs_discard_nr_blocks sb) mod W64 / cs_data_block_size sb))
  else Ok None.
Definition MAX_ORIGIN_BLOCKS : N := 2 ^ 48.
Definition DEFAULT_OBLOCKS : N := 16777216.
Definition mc_new (nr : option N) : N * fbits :=
  match nr with Some n => (n, mkfb n []) | None => (MAX_ORIGIN_BLOCKS, mkfb DEFAULT_OBLOCKS []) end.

(** ArrayWalker::walk (array_walker.rs:162-184) on the space map of the whole check
    (new_with_sm, :147-160): what the btree walker finds counted there it does not visit.  The
    array blocks that are handed over without an error are counted (:113-117; a failed
    increment panics).  As in [array_walk] they are visited after the index tree. *)
Section Shared.
Context {V S : Type} (c : codec V) (inf : bool) (eng : N -> option (list N)) (visit : S -> N -> array_block V -> S * bool).
Fixpoint visit_and_count (sm : wsm) (s : S) (kvs : list (N * N)) : res (wsm * S * list aerr) :=
  match kvs with
  | [] => Ok (sm, s, [])
  | (i, b) :: r =>
      match visit_array_block c eng visit s i b with
      | (s1, Some e) => ' (sm', s', es) <- visit_and_count sm s1 r ;; Ok (sm', s', e :: es)
      | (s1, None) => match wsm_inc sm b 1 with (sm1, Ok _) => visit_and_count sm1 s1 r | _ => Panic end
      end
  end.
Definition array_walk_sm (sm : wsm) (root : N) (s : S) : res (wsm * S * list aerr) :=
  let '(w, r) := walk u64_codec inf eng av_accepts [0] root (mkwst sm (fun _ => None) []) in
  ' (sm', s', es) <- visit_and_count (w_sm w) s (accepted (w_log w)) ;;
  Ok (sm', s', es ++ match r with Some e => [ABtree e] | None => [] end).
End Shared.

(** The space map of the check, with the superblock counted (check.rs:281-282, inc_superblock). *)
Definition check_sm (nr : N) : wsm := WCore (fst (sm_inc (sm_new nr 255) 0 1)).

(** The part of check about mappings (check.rs:299-334): the space map afterwards, and the
    errors reported. *)
Definition check_mappings (eng : N -> option (list N)) (nr : N) (inf : bool) (sb : cache_sb) : res (wsm * list aerr) :=
  o <- nr_origin_blocks sb ;;
  let '(limit, seen) := mc_new o in
  if cs_version sb =? 1 then
    ' (sm, _, errs) <- array_walk_sm cm_codec inf eng (mc1_visit limit) (check_sm nr) (cs_mapping_root sb) seen ;; Ok (sm, errs)
  else if cs_version sb =? 2 then
    match cs_dirty_root sb with
    | None => Panic
    | Some root =>
        ' (sm, dirty, errs) <- array_walk_sm u64_codec inf eng (bv_visit (cs_cache_blocks sb)) (check_sm nr) root (fun _ => None) ;;
        ' (sm, _, errs2) <- array_walk_sm cm_codec inf eng (mc2_visit limit dirty) sm (cs_mapping_root sb) seen ;;
        Ok (sm, errs ++ errs2)
    end
  else Err.
