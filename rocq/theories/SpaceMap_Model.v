(** Model of the in-core space maps, src/pdata/space_map/base.rs. *)
From Verif Require Import Base Codec_Model.

(** CoreSpaceMap<V> (base.rs:45-49).  [sm_counts] stands for the vector of
    [sm_nr] counts (only indexes below [sm_nr] are meaningful); [sm_max] is
    V::max_value(): 255, 65535 or 4294967295. *)
Record core_sm := mksm {
  sm_nr : N; sm_max : N; sm_nalloc : N; sm_begin : N; sm_counts : N -> N }.

(** base.rs:55-61 *)
Definition sm_new (nr max : N) : core_sm := mksm nr max 0 0 (fun _ => 0).

(** base.rs:93-96 *)
Definition sm_get (s : core_sm) (b : N) : res N :=
  if sm_nr s <=? b then Err else Ok (sm_counts s b).

(** base.rs:98-111.  The conversion to V fails before anything is changed. *)
Definition sm_set (s : core_sm) (b v : N) : core_sm * res N :=
  if sm_nr s <=? b then (s, Err) else
  let old := sm_counts s b in
  if sm_max s <? v then (s, Err) else
  let nalloc :=
    if (old =? 0) && negb (v =? 0) then sm_nalloc s + 1
    else if negb (old =? 0) && (v =? 0) then sm_nalloc s - 1
    else sm_nalloc s in
  (mksm (sm_nr s) (sm_max s) nalloc (sm_begin s) (upd (sm_counts s) b v), Ok old).

(** base.rs:118-128, the loop of inc over the blocks [bs].  An error in the
    middle leaves the counts already incremented as they are. *)
Fixpoint sm_inc_loop (s : core_sm) (bs : list N) : core_sm * res unit :=
  match bs with
  | [] => (s, Ok tt)
  | b :: r =>
      let c := sm_counts s b in
      if sm_max s <=? c then (s, Err) else
      sm_inc_loop
        (mksm (sm_nr s) (sm_max s) (if c =? 0 then sm_nalloc s + 1 else sm_nalloc s)
              (sm_begin s) (upd (sm_counts s) b (c + 1))) r
  end.
(** base.rs:113-130.  [begin + len] is u64 addition, which wraps in the release
    build; a range whose end is below its start is empty. *)
Definition sm_inc (s : core_sm) (begin len : N) : core_sm * res unit :=
  let e := (begin + len) mod W64 in
  if sm_nr s <? e then (s, Err) else sm_inc_loop s (range begin e).

(** base.rs:20-27, the trait's default method *)
Definition sm_dec (s : core_sm) (b : N) : core_sm * res bool :=
  match sm_get s b with
  | Ok old =>
      if old =? 0 then (s, Err) else
      match sm_set s b (old - 1) with
      | (s', Ok _) => (s', Ok (old =? 1))
      | (s', Err) => (s', Err)
      | (s', Panic) => (s', Panic)
      end
  | Err => (s, Err)
  | Panic => (s, Panic)
  end.

(** base.rs:148-155: the first free block of begin..end; indexing past the
    vector panics, when the loop gets that far. *)
Fixpoint find_free_loop (nr : N) (counts : N -> N) (bs : list N) : res (option N) :=
  match bs with
  | [] => Ok None
  | b :: r => if nr <=? b then Panic
              else if counts b =? 0 then Ok (Some b) else find_free_loop nr counts r
  end.
Definition sm_find_free (s : core_sm) (begin e : N) : res (option N) :=
  find_free_loop (sm_nr s) (sm_counts s) (range begin e).

(** base.rs:132-146 *)
Definition sm_alloc (s : core_sm) : core_sm * res (option N) :=
  let take b :=
    (mksm (sm_nr s) (sm_max s) (sm_nalloc s + 1) (b + 1) (upd (sm_counts s) b 1), Ok (Some b)) in
  match sm_find_free s (sm_begin s) (sm_nr s) with
  | Ok (Some b) => take b
  | Ok None =>
      match sm_find_free s 0 (sm_begin s) with
      | Ok (Some b) => take b
      | Ok None => (s, Ok None)
      | Err => (s, Err)
      | Panic => (s, Panic)
      end
  | Err => (s, Err)
  | Panic => (s, Panic)
  end.

(** One operation of the SpaceMap trait (base.rs:10-39), and what it returned. *)
Inductive sm_op :=
| OGet (b : N) | OSet (b v : N) | OInc (b len : N) | ODec (b : N) | OAlloc
| OFindFree (b e : N) | ONrBlocks | ONrAllocated.
Inductive sm_out :=
| RCount (r : res N) | RUnit (r : res unit) | RBool (r : res bool) | RBlock (r : res (option N)).

Definition sm_step (s : core_sm) (o : sm_op) : core_sm * sm_out :=
  match o with
  | OGet b => (s, RCount (sm_get s b))
  | OSet b v => let '(s', r) := sm_set s b v in (s', RCount r)
  | OInc b len => let '(s', r) := sm_inc s b len in (s', RUnit r)
  | ODec b => let '(s', r) := sm_dec s b in (s', RBool r)
  | OAlloc => let '(s', r) := sm_alloc s in (s', RBlock r)
  | OFindFree b e => (s, RBlock (sm_find_free s b e))
  | ONrBlocks => (s, RCount (Ok (sm_nr s)))
  | ONrAllocated => (s, RCount (Ok (sm_nalloc s)))
  end.
Fixpoint sm_run (s : core_sm) (os : list sm_op) : core_sm * list sm_out :=
  match os with
  | [] => (s, [])
  | o :: r => let '(s1, x) := sm_step s o in let '(s2, xs) := sm_run s1 r in (s2, x :: xs)
  end.

(** base.rs:162-170: the narrowest width that can hold [max_count]. *)
Definition core_sm_for (nr max_count : N) : core_sm :=
  sm_new nr (if max_count <=? 255 then 255 else if max_count <=? 65535 then 65535 else 4294967295).

(** ** RestrictedSpaceMap, base.rs:187-292: counts to one. *)
Record rsm := mkrsm { r_nr : N; r_nalloc : N; r_begin : N; r_bits : N -> bool }.
Definition rsm_new (nr : N) : rsm := mkrsm nr 0 0 (fun _ => false).
(** base.rs:220-228 *)
Definition rsm_get (s : rsm) (b : N) : res N :=
  if r_nr s <=? b then Err else Ok (if r_bits s b then 1 else 0).
(** base.rs:230-248 *)
Definition rsm_set (s : rsm) (b v : N) : rsm * res N :=
  if r_nr s <=? b then (s, Err) else
  let old := r_bits s b in
  (mkrsm (r_nr s)
     (if 0 <? v then (if old then r_nalloc s else r_nalloc s + 1)
      else (if old then r_nalloc s - 1 else r_nalloc s))
     (r_begin s) (upd (r_bits s) b (0 <? v)), Ok (if old then 1 else 0)).
(** base.rs:250-260; [begin + len - 1] wraps. *)
Definition rsm_inc (s : rsm) (begin len : N) : rsm * res unit :=
  let e := (begin + len) mod W64 in
  if r_nr s <=? (e + (W64 - 1)) mod W64 then (s, Err) else
  (fold_left (fun s b => if r_bits s b then s
                         else mkrsm (r_nr s) (r_nalloc s + 1) (r_begin s) (upd (r_bits s) b true))
     (range begin e) s, Ok tt).
(** base.rs:278-287; [end - 1] wraps. *)
Definition rsm_find_free (s : rsm) (begin e : N) : res (option N) :=
  if r_nr s <=? (e + (W64 - 1)) mod W64 then Err
  else Ok (find (fun b => negb (r_bits s b)) (range begin e)).
(** base.rs:262-276 *)
Definition rsm_alloc (s : rsm) : rsm * res (option N) :=
  let take b := (mkrsm (r_nr s) (r_nalloc s + 1) (b + 1) (upd (r_bits s) b true), Ok (Some b)) in
  match rsm_find_free s (r_begin s) (r_nr s) with
  | Ok (Some b) => take b
  | Ok None =>
      match rsm_find_free s 0 (r_begin s) with
      | Ok (Some b) => take b
      | Ok None => (s, Ok None)
      | Err => (s, Err) | Panic => (s, Panic)
      end
  | Err => (s, Err) | Panic => (s, Panic)
  end.

(** ** RestrictedTwoSpaceMap, base.rs:300-412: counts to two, two bits per block;
    here the 2-bit state of each block: 0, 1 or 2 ([idx] set = 1, [idx+1] set = 2;
    no operation below sets both).  FixedBitSet::contains is false past the end,
    insert/set past the end panic: the range checks are left out, the theorems
    about it only use blocks inside the map. *)
Record tsm := mktsm { t_nr : N; t_nalloc : N; t_begin : N; t_counts : N -> N }.
Definition tsm_new (nr : N) : tsm := mktsm nr 0 0 (fun _ => 0).
Definition tsm_get (s : tsm) (b : N) : N := t_counts s b.
(** base.rs:336-361 *)
Definition tsm_set (s : tsm) (b v : N) : tsm * N :=
  let old := t_counts s b in
  if 0 <? v then
    (mktsm (t_nr s) (if old =? 0 then t_nalloc s + 1 else t_nalloc s) (t_begin s)
       (if v =? 1 then upd (t_counts s) b 1 else if v =? 2 then upd (t_counts s) b 2 else t_counts s), old)
  else
    (mktsm (t_nr s) (if old =? 1 then t_nalloc s - 1 else t_nalloc s) (t_begin s) (upd (t_counts s) b 0), old).
(** base.rs:363-381 *)
Definition tsm_inc1 (s : tsm) (b : N) : tsm :=
  let c := t_counts s b in
  if c =? 2 then s
  else if c =? 1 then mktsm (t_nr s) (t_nalloc s) (t_begin s) (upd (t_counts s) b 2)
  else mktsm (t_nr s) (t_nalloc s + 1) (t_begin s) (upd (t_counts s) b 1).
Definition tsm_inc (s : tsm) (begin len : N) : tsm := fold_left tsm_inc1 (range begin (begin + len)) s.
(** base.rs:400-408: a bit past the end of the bit set reads as clear, so blocks at
    or past [t_nr] look free. *)
Definition tsm_find_free (s : tsm) (begin e : N) : option N :=
  find (fun b => (t_nr s <=? b) || (t_counts s b =? 0)) (range begin e).
(** base.rs:383-398: the first search runs to counts.len(), twice the number of
    blocks; FixedBitSet::insert past the end panics. *)
Definition tsm_alloc (s : tsm) : tsm * res (option N) :=
  let take b :=
    if t_nr s <=? b then (s, Panic)
    else (mktsm (t_nr s) (t_nalloc s + 1) (b + 1) (upd (t_counts s) b 1), Ok (Some b)) in
  match tsm_find_free s (t_begin s) (2 * t_nr s) with
  | Some b => take b
  | None => match tsm_find_free s 0 (t_begin s) with Some b => take b | None => (s, Ok None) end
  end.
