(** era/restore.rs (writesets), era/dump.rs and era/invalidate.rs. *)
From Verif Require Import Base Csum_Model Codec_Model SpaceMap_Model Utils_Model Batcher_Model Builder_Model Walker_Model
  ThinOut_Model Array_Model.

(** u32 arithmetic of a release build *)
Definition add32 (a b : N) : N := (a + b) mod W32.
Definition sub32 (a b : N) : N := (a + W32 - b) mod W32.
Definition mul32 (a b : N) : N := (a * b) mod W32.

(** ** The writesets of era/restore.rs *)
(** u64::MAX, and the state kept between writeset_b and writeset_e (restore.rs:60-68):
    the array builder, entry_index and writeset_entry. *)
Definition ones64 : N := W64 - 1.
Record wsst := mkwsst { w_builder : abuilder N; w_index : N; w_entry : N }.
(** writeset_b (restore.rs:160-170) *)
Definition writeset_b (nr_bits : N) : wsst := mkwsst (abb_new u64_codec (div_up_u64 nr_bits 64)) 0 0.
Definition ws_push (s : wsst) : st wb (abuilder N) := abb_push u64_codec 0 (w_index s) (w_entry s) (w_builder s).
(** 1 << bit, and all bits up to and including it: mask ^ mask.wrapping_sub(1) *)
Definition upto (bit : N) : N := N.lxor (N.shiftl 1 bit) (wsub (N.shiftl 1 bit) 1).
(** u64::MAX << bit *)
Definition from (bit : N) : N := N.shiftl ones64 bit mod W64.
(** while idx < last_idx { .. } (restore.rs:229-234): as often as words remain *)
Fixpoint fill (k : nat) (s : wsst) : st wb wsst :=
  match k with
  | O => ret s
  | S k => b <~ ws_push s ;; fill k (mkwsst b (add32 (w_index s) 1) ones64)
  end.
(** writeset_blocks (restore.rs:201-245); u32 arithmetic wraps in a release build *)
Definition writeset_blocks (r : N * N) (s : wsst) : st wb wsst :=
  let '(first, len) := r in
  let last := sub32 (add32 first len) 1 in
  let idx := N.shiftr first 6 in
  let last_idx := N.shiftr last 6 in
  s <~ (if w_index s <? idx then b <~ ws_push s ;; ret (mkwsst b idx 0) else ret s) ;;
  let bi_first := N.land first 63 in
  let bi_last := N.land last 63 in
  if idx =? last_idx then
    ret (mkwsst (w_builder s) (w_index s) (N.lor (w_entry s) (N.land (upto bi_last) (from bi_first))))
  else
    let s := mkwsst (w_builder s) (w_index s) (N.lor (w_entry s) (from bi_first)) in
    s <~ fill (N.to_nat (last_idx - idx)) s ;;
    b <~ ws_push s ;;
    ret (mkwsst b (add32 (w_index s) 1) (N.lor (w_entry s) (upto bi_last))).
Fixpoint writeset_all (rs : list (N * N)) (s : wsst) : st wb wsst :=
  match rs with
  | [] => ret s
  | r :: rs => s' <~ writeset_blocks r s ;; writeset_all rs s'
  end.
(** writeset_e (restore.rs:172-199): the root recorded for the writeset *)
Definition writeset_e (s : wsst) : st wb N :=
  b <~ ws_push s ;; ab_complete u64_codec 0 b.
(** One writeset of the input, from writeset_b to writeset_e. *)
Definition restore_writeset (nr_bits : N) (rs : list (N * N)) : st wb N :=
  s <~ writeset_all rs (writeset_b nr_bits) ;; writeset_e s.

(** ** Runs of set bits (era/dump.rs:229-281, era/invalidate.rs:164-206)
    The two loops are the same, with words of 32 and 64 bits. *)
(** trailing_zeros and trailing_ones *)
Fixpoint trailing_zeros (k : nat) (n : N) : N :=
  match k with
  | O => 0
  | S k => if N.testbit n 0 then 0 else 1 + trailing_zeros k (N.shiftr n 1)
  end.
Fixpoint trailing_ones (k : nat) (n : N) : N :=
  match k with
  | O => 0
  | S k => if N.testbit n 0 then 1 + trailing_ones k (N.shiftr n 1) else 0
  end.
Section Runs.
Context (K : nat) (nr_bits : N).
(** begin, end and the ranges emitted so far, as (begin, end) *)
Record rst := mkrst { r_begin : N; r_end : N; r_out : list (N * N) }.
Definition flush_range (s : rst) : list (N * N) :=
  if r_begin s <? r_end s then r_out s ++ [(r_begin s, r_end s)] else r_out s.
(** while n > 0 { .. } (dump.rs:240-259): each round takes at least one bit off *)
Fixpoint word_runs (fuel : nat) (n : N) (s : rst) : rst :=
  match fuel with
  | O => s
  | S fuel =>
      if 0 <? n then
        let zeros := trailing_zeros K n in
        let '(n, s) :=
          if 0 <? zeros
          then (N.shiftr n zeros, mkrst (add32 (r_end s) zeros) (add32 (r_end s) zeros) (flush_range s))
          else (n, s) in
        let ones := trailing_ones K n in
        word_runs fuel (N.shiftr n ones) (mkrst (r_begin s) (N.min (add32 (r_end s) ones) nr_bits) (r_out s))
      else s
  end.
(** one word (dump.rs:232-273) *)
Definition run_word (index n : N) (s : rst) : rst :=
  if n =? 2 ^ N.of_nat K - 1
  then mkrst (r_begin s) (N.min (add32 (r_end s) (N.of_nat K)) nr_bits) (r_out s)
  else
    let s := word_runs (S K) n s in
    let endpos := (index * N.of_nat K + N.of_nat K) mod W32 in
    if r_end s <? endpos then mkrst endpos endpos (flush_range s) else s.
Fixpoint run_words (index : N) (ws : list N) (s : rst) : rst :=
  match ws with
  | [] => s
  | w :: r => run_words (index + 1) r (run_word index w s)
  end.
Definition bit_runs (ws : list N) : list (N * N) := flush_range (run_words 0 ws (mkrst 0 0 [])).
End Runs.

(** ** era/dump.rs *)
(** dump_writeset (dump.rs:217-290): the marked ranges, as begin and len *)
Definition dump_ranges (nr_bits : N) (bs : list N) : list (N * N) :=
  map (fun r => (fst r, snd r - fst r)) (bit_runs 32 nr_bits bs).
Definition dump_writeset (eng : N -> option (list N)) (nr : N) (ws : writeset) (repair : bool) : res (list (N * N)) :=
  bs <- read_bitset eng nr (ws_root ws) (ws_nr_bits ws) repair ;;
  Ok (dump_ranges (ws_nr_bits ws) bs).

(** get_writesets_ordered (dump.rs:331-365).  BTreeMap as an association list. *)
Fixpoint has (m : list (N * writeset)) (k : N) : option writeset :=
  match m with [] => None | (k', v) :: r => if k =? k' then Some v else has r k end.
Fixpoint take_eras (m : list (N * writeset)) (es : list N) : res (list (N * writeset)) :=
  match es with
  | [] => Ok []
  | e :: r => match has m e with
              | Some ws => v <- take_eras m r ;; Ok ((e, ws) :: v)
              | None => Err
              end
  end.
Definition order_writesets (sb : era_sb) (m : list (N * writeset)) : res (list (N * writeset)) :=
  m <- (if ws_root (es_current_writeset sb) =? 0 then Ok m
        else match has m (es_current_era sb) with
             | Some _ => Err
             | None => Ok (m ++ [(es_current_era sb, es_current_writeset sb)])
             end) ;;
  match m with
  | [] => Ok []
  | _ => let era_begin := sub32 (es_current_era sb) ((nlen m - 1) mod W32) in
         take_eras m (range era_begin (es_current_era sb + 1))
  end.
Definition get_writesets_ordered (eng : N -> option (list N)) (nr : N) (sb : era_sb) (repair : bool) : res (list (N * writeset)) :=
  m <- btree_to_map ws_codec nr eng repair (es_writeset_tree_root sb) ;;
  order_writesets sb m.

(** EraArchive (dump.rs:50-101): deltas of 8, 16 or 32 bits *)
Record archive := mkarc { a_digested : N; a_width : N; a_deltas : list N }.
Definition new_era_archive (nr_blocks archived_begin nr_writesets : N) : archive :=
  let k := add32 nr_writesets 1 in
  mkarc (sub32 archived_begin 1) (if k <? 256 then 2 ^ 8 else if k <? 65536 then 2 ^ 16 else 2 ^ 32)
    (repeat 0 (N.to_nat nr_blocks)).
Definition archive_set (a : archive) (block delta : N) : res archive :=
  if a_width a <=? delta then Panic
  else d <- (match vec_set (a_deltas a) block delta with Ok d => Ok d | _ => Panic end) ;; Ok (mkarc (a_digested a) (a_width a) d).
Definition archive_get (a : archive) (block : N) : option N :=
  match nth_error (a_deltas a) (N.to_nat block) with
  | Some d => if d =? 0 then None else Some (add32 (a_digested a) d)
  | None => None
  end.
(** collate_writeset (dump.rs:367-384); [k] bits of the word are left *)
Fixpoint collate_word (k : nat) (n bi delta : N) (a : archive) : res archive :=
  match k with
  | O => Ok a
  | S k =>
      if 0 <? n then
        a <- (if N.testbit n 0 then archive_set a bi delta else Ok a) ;;
        collate_word k (N.shiftr n 1) (add32 bi 1) delta a
      else Ok a
  end.
Fixpoint collate_words (i : N) (ws : list N) (delta : N) (a : archive) : res archive :=
  match ws with
  | [] => Ok a
  | n :: r => a <- collate_word 32 n (N.shiftl i 5 mod W32) delta a ;; collate_words (i + 1) r delta a
  end.
(** collate_writesets (dump.rs:386-405) *)
Fixpoint collate_sets (eng : N -> option (list N)) (nr : N) (repair : bool) (index : N) (l : list (N * writeset)) (a : archive) : res archive :=
  match l with
  | [] => Ok a
  | (_, ws) :: r =>
      bs <- read_bitset eng nr (ws_root ws) (ws_nr_bits ws) repair ;;
      a <- collate_words 0 bs (add32 index 1) a ;;
      collate_sets eng nr repair (index + 1) r a
  end.
Definition collate_writesets (eng : N -> option (list N)) (nr : N) (sb : era_sb) (repair : bool) : res archive :=
  l <- get_writesets_ordered eng nr sb repair ;;
  let archived_begin := match l with [] => 0 | (e, _) :: _ => e end in
  collate_sets eng nr repair 0 l (new_era_archive (es_nr_blocks sb) archived_begin (nlen l mod W32)).

(** collect_array_blocks_with_path (pdata/array_walker.rs:192-254); the visitor panics on a
    leaf without keys.  The paths are left out. *)
Definition bpc_accepts (log : list (wcall N)) (x : wcall N) : bool :=
  match x with CVisit _ kr _ ks _ => keys_ok kr ks | _ => true end.
Definition empty_leaf (x : wcall N) : bool := match x with CVisit _ _ _ [] _ => true | _ => false end.
Definition collect_array_blocks (eng : N -> option (list N)) (nr : N) (inf : bool) (root : N) : res (list (N * N)) :=
  let '(w, r) := walk u64_codec inf eng bpc_accepts [0] root (walker_new nr) in
  if existsb empty_leaf (w_log w) then Panic
  else match r with None => Ok (accepted (w_log w)) | Some _ => Err end.
(** walk_array_blocks (dump_utils.rs:35-68) with EraEmitter or LogicalEraEmitter (dump.rs:36-48,
    129-151): the eras emitted; stops at the first error. *)
Section Emit.
Context (eng : N -> option (list N)) (era_of : N -> N -> N).
Definition emit_eras (index : N) (a : array_block N) : list (N * N) :=
  let begin := mul32 (index mod W32) (ah_max (ab_hdr a)) in
  let e := add32 begin (ah_nr (ab_hdr a)) in
  map (fun vb => (snd vb, era_of (snd vb) (fst vb))) (combine (ab_values a) (range begin e)).
Fixpoint walk_array_blocks (kvs : list (N * N)) : res (list (N * N)) :=
  match kvs with
  | [] => Ok []
  | (i, b) :: r =>
      match eng b with
      | None => Err
      | Some data =>
          match metadata_block_type data with
          | ARRAY => a <- unpack_array_block u32_codec data ;; out <- walk_array_blocks r ;; Ok (emit_eras i a ++ out)
          | _ => Err
          end
      end
  end.
End Emit.
(** dump_eras and dump_eras_logical (dump.rs:292-301, 407-417) *)
Definition dump_eras (eng : N -> option (list N)) (nr : N) (repair : bool) (root : N) (era_of : N -> N -> N) : res (list (N * N)) :=
  bs <- collect_array_blocks eng nr repair root ;; walk_array_blocks eng era_of bs.
Definition physical_era (_ v : N) : N := v.
Definition logical_era (a : archive) (b v : N) : N := match archive_get a b with Some e => e | None => v end.

(** The contents of a dump: the writesets with their ranges, and the eras
    (dump_metadata and dump_metadata_logical, dump.rs:303-329, 419-444; dump, dump.rs:448-467).
    The events of a failed dump, which were emitted before the failure, are left out. *)
Fixpoint dump_sets (eng : N -> option (list N)) (nr : N) (repair : bool) (l : list (N * writeset)) : res (list (N * list (N * N))) :=
  match l with
  | [] => Ok []
  | (e, ws) :: r => rs <- dump_writeset eng nr ws repair ;; out <- dump_sets eng nr repair r ;; Ok ((e, rs) :: out)
  end.
Definition dump_metadata (eng : N -> option (list N)) (nr : N) (sb : era_sb) (repair : bool) : res (list (N * list (N * N)) * list (N * N)) :=
  l <- get_writesets_ordered eng nr sb repair ;;
  sets <- dump_sets eng nr repair l ;;
  eras <- dump_eras eng nr repair (es_era_array_root sb) physical_era ;;
  Ok (sets, eras).
Definition dump_metadata_logical (eng : N -> option (list N)) (nr : N) (sb : era_sb) (repair : bool) : res (list (N * N)) :=
  a <- collate_writesets eng nr sb repair ;;
  dump_eras eng nr repair (es_era_array_root sb) (logical_era a).
Definition era_dump (eng : N -> option (list N)) (nr : N) (sb : era_sb) (logical repair : bool) : res (list (N * list (N * N)) * list (N * N)) :=
  l <- get_writesets_ordered eng nr sb repair ;;
  if logical && negb (match l with [] => true | _ => false end)
  then eras <- dump_metadata_logical eng nr sb repair ;; Ok ([], eras)
  else dump_metadata eng nr sb repair.

(** ** era/invalidate.rs *)
(** BitsetCollator::visit (invalidate.rs:36-46) *)
Fixpoint or_words (ws bits : list N) : list N :=
  match ws, bits with
  | w :: ws, b :: bits => N.lor b w :: or_words ws bits
  | _, _ => bits
  end.
Definition bcol_visit (bits : list N) (index : N) (a : array_block N) : list N * bool :=
  let idx := (index * ah_max (ab_hdr a)) mod W64 in
  (firstn (N.to_nat idx) bits ++ or_words (ab_values a) (skipn (N.to_nat idx) bits), true).
(** EraArrayCollator::visit (invalidate.rs:69-98): [i] is the index of the word that [buf]
    stands for; the word is written when the next one is needed, and at the end. *)
Fixpoint mark_eras (threshold : N) (vbs : list (N * N)) (idx buf : N) (bits : list N) : list N * bool :=
  match vbs with
  | [] => (match vec_set bits idx buf with Ok b => b | _ => bits end, true)
  | (era, blk) :: r =>
      if era <? threshold then mark_eras threshold r idx buf bits
      else
        let steps := N.shiftr blk 6 - idx in
        if 0 <? steps then
          let bits := match vec_set bits idx buf with Ok b => b | _ => bits end in
          match nth_error bits (N.to_nat (idx + steps)) with
          | Some w => mark_eras threshold r (idx + steps) (N.lor w (N.shiftl 1 (N.land blk 63))) bits
          | None => (bits, false)
          end
        else mark_eras threshold r idx (N.lor buf (N.shiftl 1 (N.land blk 63))) bits
  end.
Definition ecol_visit (threshold : N) (bits : list N) (index : N) (a : array_block N) : list N * bool :=
  let blk_begin := (index * ah_max (ab_hdr a)) mod W64 in
  match nth_error bits (N.to_nat (N.shiftr blk_begin 6)) with
  | Some w => mark_eras threshold (combine (ab_values a) (range blk_begin (blk_begin + ah_max (ab_hdr a))))
                (N.shiftr blk_begin 6) w bits
  | None => (bits, false)
  end.
(** collate_writeset, collate_era_array (invalidate.rs:103-124) *)
Definition inv_writeset (eng : N -> option (list N)) (nr root : N) (bits : list N) : res (list N) :=
  match array_walk u64_codec false eng bcol_visit nr root bits with (b, []) => Ok b | _ => Err end.
Definition inv_era_array (eng : N -> option (list N)) (nr root threshold : N) (bits : list N) : res (list N) :=
  match array_walk u32_codec false eng (ecol_visit threshold) nr root bits with (b, []) => Ok b | _ => Err end.
Fixpoint inv_sets (eng : N -> option (list N)) (nr threshold : N) (l : list (N * writeset)) (bits : list N) : res (list N) :=
  match l with
  | [] => Ok bits
  | (era, ws) :: r =>
      if era mod W32 <? threshold then inv_sets eng nr threshold r bits
      else bits <- inv_writeset eng nr (ws_root ws) bits ;; inv_sets eng nr threshold r bits
  end.
(** mark_blocks_since (invalidate.rs:126-151) *)
Definition mark_blocks_since (eng : N -> option (list N)) (nr : N) (sb : era_sb) (threshold : N) : res (list N) :=
  let bits := repeat 0 (N.to_nat (div_up (es_nr_blocks sb) 64)) in
  m <- btree_to_map ws_codec nr eng false (es_writeset_tree_root sb) ;;
  bits <- inv_sets eng nr threshold m bits ;;
  match m with
  | [] => Ok bits
  | (first, _) :: _ =>
      if threshold <? first mod W32 then inv_era_array eng nr (es_era_array_root sb) threshold bits else Ok bits
  end.
(** emit_range, emit_blocks and invalidate (invalidate.rs:153-257): what is reported, as
    (begin, end); a single block is written as <block>, anything longer as <range>. *)
Definition era_invalidate (eng : N -> option (list N)) (nr : N) (sb : era_sb) (threshold : N) : res (list (N * N)) :=
  bits <- mark_blocks_since eng nr sb threshold ;; Ok (bit_runs 64 (es_nr_blocks sb) bits).
