(** thin_shrink: where the data blocks above the new end of the device go
    (shrink/toplevel.rs) and how the mappings are rewritten (thin/shrink.rs). *)
From Verif Require Import Base ThinOut_Model.

(** BlockRange (toplevel.rs:5): start and end, half open; is_empty of std's Range, range_len (7-13).
    Sums of block numbers in toplevel.rs are written without wrapping: each is at most the
    end of a range the function was given. *)
Definition brange : Type := (N * N)%type.
Definition rg_empty (r : brange) : bool := snd r <=? fst r.
Definition rg_len (r : brange) : N := snd r - fst r.

(** rangemap's RangeSet, used by MappingCollector: ranges in order, touching ranges joined;
    insert panics for an empty range.  gaps(lo..hi) lists the maximal ranges of lo..hi outside
    the set.  (Model of the dependency's documented behaviour.) *)
Fixpoint rs_add (a b : N) (l : list brange) : list brange :=
  match l with
  | [] => [(a, b)]
  | (c, d) :: r =>
      if b <? c then (a, b) :: (c, d) :: r
      else if d <? a then (c, d) :: rs_add a b r
      else rs_add (N.min a c) (N.max b d) r
  end.
Definition rs_insert (a b : N) (l : list brange) : res (list brange) := if a <? b then Ok (rs_add a b l) else Panic.
Fixpoint rs_gaps (l : list brange) (lo hi : N) : list brange :=
  match l with
  | [] => if lo <? hi then [(lo, hi)] else []
  | (c, d) :: r => (if lo <? N.min c hi then [(lo, N.min c hi)] else []) ++ rs_gaps r (N.max lo d) hi
  end.

(** build_remaps (toplevel.rs:17-60): the loop over the current range [r], the current free
    chunk [f] and what the iterators still hold.  [fuel] bounds the number of iterations; the
    bound given by build_remaps is never reached (Shrink_Proofs.build_loop_spec). *)
Definition next_range (l : list brange) : brange := match l with [] => (2 ^ 64 - 1, 2 ^ 64 - 1) | r :: _ => r end.
Fixpoint build_loop (fuel : nat) (r : brange) (rs : list brange) (f : brange) (fs : list brange) : res (list (brange * N)) :=
  match fuel with
  | O => Panic
  | S fuel =>
      if negb (rg_empty r) && negb (rg_empty f) then
        let rlen := rg_len r in
        let flen := rg_len f in
        if rlen <? flen then
          rest <- build_loop fuel (next_range rs) (tl rs) (fst f + rlen, snd f) fs ;; Ok ((r, fst f) :: rest)
        else if rlen =? flen then
          rest <- build_loop fuel (next_range rs) (tl rs) (next_range fs) (tl fs) ;; Ok ((r, fst f) :: rest)
        else
          rest <- build_loop fuel (fst r + flen, snd r) rs (next_range fs) (tl fs) ;;
          Ok (((fst r, fst r + flen), fst f) :: rest)
      else if rg_empty r then Ok [] else Err
  end.
Definition build_remaps (ranges free : list brange) : res (list (brange * N)) :=
  build_loop (S (S (length ranges + length free))) (next_range ranges) (tl ranges) (next_range free) (tl free).

(** MappingCollector (thin/shrink.rs:68-86): below and above; map (113-141); the other
    visitor methods do nothing.  [collect] is a pass over the events (xml::read or
    dump_metadata), get_remaps (81-85). *)
Definition collect_map (nr : N) (m : ir_map) (s : list brange * list brange) : res (list brange * list brange) :=
  let '(below, above) := s in
  if nr <=? m_data m then
    above <- rs_insert (m_data m) (wadd (m_data m) (m_len m)) above ;; Ok (below, above)
  else if wadd (m_data m) (m_len m) <=? nr then
    below <- rs_insert (m_data m) (wadd (m_data m) (m_len m)) below ;; Ok (below, above)
  else
    below <- rs_insert (m_data m) nr below ;;
    above <- rs_insert nr (wadd (m_data m) (m_len m)) above ;; Ok (below, above).
Fixpoint collect (nr : N) (es : list event) (s : list brange * list brange) : res (list brange * list brange) :=
  match es with
  | [] => Ok s
  | EvMap m :: es => s <- collect_map nr m s ;; collect nr es s
  | _ :: es => collect nr es s
  end.
Definition shrink_plan (nr : N) (es : list event) : res (list (brange * N)) :=
  ' (below, above) <- collect nr es ([], []) ;; build_remaps above (rs_gaps below 0 nr).

(** overlaps (toplevel.rs:109-119) *)
Definition overlaps (r1 r2 : brange) : bool := negb (snd r2 <=? fst r1) && negb (snd r1 <=? fst r2).
(** slice::binary_search_by_key on entries sorted by distinct keys: the number of entries
    below the key; found if the next one has it. *)
Fixpoint search_start (k : N) (l : list (brange * N)) : nat :=
  match l with
  | [] => O
  | (from, _) :: r => if fst from <? k then S (search_start k r) else O
  end.
(** find_first (toplevel.rs:123-149); the slice from the index on, instead of the index. *)
Definition find_first (r : brange) (remaps : list (brange * N)) : option (list (brange * N)) :=
  match remaps with
  | [] => None
  | _ =>
      let n := search_start (fst r) remaps in
      let at_n := match nth_error remaps n with
                  | Some (from, _) => if overlaps r from then Some (skipn n remaps) else None
                  | None => None
                  end in
      match nth_error remaps n with
      | Some (from, _) =>
          if fst from =? fst r then Some (skipn n remaps)
          else match n with
               | O => at_n
               | S p => match nth_error remaps p with
                        | Some (from, _) => if overlaps r from then Some (skipn p remaps) else at_n
                        | None => at_n
                        end
               end
      | None => match n with
                | O => None
                | S p => match nth_error remaps p with
                         | Some (from, _) => if overlaps r from then Some (skipn p remaps) else None
                         | None => None
                         end
                end
      end
  end.

(** The loop of remap (toplevel.rs:156-190) from an index on.  Every iteration ends the loop
    or moves on to the next entry: if [len] is less than [flen] the range is used up. *)
Fixpoint remap_from (l : list (brange * N)) (r : brange) : list brange :=
  match l with
  | [] => [r]
  | (from, to) :: l =>
      let body (r : brange) : list brange :=
        let start := to + (fst r - fst from) in
        let flen := snd from - fst r in
        let len := N.min (rg_len r) flen in
        (start, start + len) ::
          let r := (fst r + len, snd r) in
          if fst r =? snd r then [] else if len =? flen then remap_from l r else []
      in
      if fst r <? fst from then
        let len := N.min (rg_len r) (fst from - fst r) in
        (fst r, fst r + len) :: let r := (fst r + len, snd r) in if fst r =? snd r then [] else body r
      else body r
  end.
Definition remap (r : brange) (remaps : list (brange * N)) : list brange :=
  match find_first r remaps with Some l => remap_from l r | None => [r] end.

(** DataRemapper (thin/shrink.rs:151-236): map (199-220); every other event, the superblock
    included, is passed on unchanged. *)
Fixpoint remapped_runs (m : ir_map) (written : N) (rs : list brange) : list ir_map :=
  match rs with
  | [] => []
  | r :: rs => mkmap (wadd (m_thin m) written) (fst r) (m_time m) (rg_len r) :: remapped_runs m (wadd written (rg_len r)) rs
  end.
Definition remap_map (nr : N) (remaps : list (brange * N)) (m : ir_map) : list ir_map :=
  if wadd (m_data m) (m_len m) <? nr then [m]
  else remapped_runs m 0 (remap (m_data m, wadd (m_data m) (m_len m)) remaps).
Definition remap_events (nr : N) (remaps : list (brange * N)) (es : list event) : list event :=
  flat_map (fun e => match e with EvMap m => map EvMap (remap_map nr remaps m) | _ => [e] end) es.
