(** pdata/array.rs, array_builder.rs, array_walker.rs and bitset.rs. *)
From Verif Require Import Base Csum_Model Codec_Model SpaceMap_Model Utils_Model Batcher_Model Builder_Model Walker_Model.

(** ** pdata/array.rs *)
(** ArrayBlockHeader (array.rs:18-58) *)
Record ab_header := mkah { ah_max : N; ah_nr : N; ah_size : N; ah_block : N }.
Definition ah_unpack (i : list N) : res (ab_header * list N) :=
  ' (_, i) <- p_u32 i ;;
  ' (max, i) <- p_u32 i ;;
  ' (nr, i) <- p_u32 i ;;
  ' (size, i) <- p_u32 i ;;
  ' (blocknr, i) <- p_u64 i ;;
  Ok (mkah max nr size blocknr, i).
Definition ah_pack (h : ab_header) : list N :=
  le_enc 4 0 ++ le_enc 4 (ah_max h) ++ le_enc 4 (ah_nr h) ++ le_enc 4 (ah_size h) ++ le_enc 8 (ah_block h).

(** ArrayBlock (array.rs:62-71) *)
Record array_block (V : Type) := mkab { ab_hdr : ab_header; ab_values : list V }.
Arguments mkab {V}. Arguments ab_hdr {V}. Arguments ab_values {V}.

(** unpack_array_block (array.rs:151-185); the u32 arithmetic of the max_entries
    check wraps in a release build. *)
Definition unpack_array_block {V} (c : codec V) (data : list N) : res (array_block V) :=
  ' (h, i) <- ah_unpack data ;;
  if negb (ah_size h =? N.of_nat (csize c)) then Err
  else if 4096 <? (ah_size h * ah_max h + 24) mod W32 then Err
  else if ah_max h <? ah_nr h then Err
  else ' (vs, _) <- p_count (cunpack c) (N.to_nat (ah_nr h)) i ;; Ok (mkab h vs).
(** pack_array_block (array.rs:187-196) *)
Definition pack_array_block {V} (c : codec V) (a : array_block V) : list N :=
  ah_pack (ab_hdr a) ++ concat (map (cpack c) (ab_values a)).
(** calc_max_entries (array.rs:202-204) *)
Definition array_per {V} (c : codec V) : N := (4096 - 24) / N.of_nat (csize c).

(** ** pdata/array_builder.rs *)
(** ArrayBlockBuilder (array_builder.rs:20-26).  The capacities of the two vectors are
    fields: Vec::with_capacity is taken to give exactly what is asked for, and no push
    goes beyond it.  [ab_cap] is the capacity of values, [ab_nblocks] that of
    array_blocks. *)
Record abuilder (V : Type) := mkabb {
  abb_nr : N; abb_nblocks : N; abb_blocks : list N; abb_cap : N; abb_values : list V }.
Arguments mkabb {V}. Arguments abb_nr {V}. Arguments abb_nblocks {V}. Arguments abb_blocks {V}.
Arguments abb_cap {V}. Arguments abb_values {V}.

Section Builder.
Context {V : Type} (c : codec V) (dflt : V).

(** ArrayIO::write and write_array_block (array_builder.rs:143-173) *)
Definition write_array_block (vs : list V) : st wb N :=
  b <~ wb_alloc ;;
  let h := mkah (array_per c) (nlen vs) (N.of_nat (csize c)) (b_loc b) in
  data <~ lift (overwrite (b_data b) (pack_array_block c (mkab h vs))) ;;
  _ <~ wb_write (mkblock (b_loc b) data) ARRAY ;;
  ret (b_loc b).

(** new (array_builder.rs:43-55); div_up (math.rs:5-10) in u64, which wraps in a release build *)
Definition abb_new (nr : N) : abuilder V :=
  mkabb nr (div_up_u64 nr (array_per c)) [] (N.min nr (array_per c)) [].

(** Vec::resize_with (len, Default::default) *)
Definition resize (vs : list V) (len : N) : list V :=
  firstn (N.to_nat len) vs ++ repeat dflt (N.to_nat len - length vs).

(** emit_block (array_builder.rs:90-113) *)
Definition emit_block (a : abuilder V) : st wb (abuilder V) :=
  let cur := nlen (abb_blocks a) in
  let cap_next := if cur <? abb_nblocks a - 1
                  then N.min (abb_nr a - (cur + 1) * array_per c) (array_per c)
                  else 0 in
  loc <~ write_array_block (resize (abb_values a) (abb_cap a)) ;;
  ret (mkabb (abb_nr a) (abb_nblocks a) (abb_blocks a ++ [loc]) cap_next []).

(** while array_blocks.len() < bi { emit_block } (array_builder.rs:65-67, 84-86): as
    often as blocks are missing. *)
Fixpoint emit_blocks (k : nat) (a : abuilder V) : st wb (abuilder V) :=
  match k with
  | O => ret a
  | S k => a' <~ emit_block a ;; emit_blocks k a'
  end.

(** push_value (array_builder.rs:57-79) *)
Definition abb_push (index : N) (v : V) (a : abuilder V) : st wb (abuilder V) :=
  let bi := index / array_per c in
  let i := index mod array_per c in
  if abb_nr a <=? index then fail
  else
    a <~ emit_blocks (N.to_nat (bi - nlen (abb_blocks a))) a ;;
    if (bi <? nlen (abb_blocks a)) || (i <? nlen (abb_values a)) then fail
    else
      let vs := if nlen (abb_values a) <? i then resize (abb_values a) i else abb_values a in
      ret (mkabb (abb_nr a) (abb_nblocks a) (abb_blocks a) (abb_cap a) (vs ++ [v])).

(** complete (array_builder.rs:81-89) *)
Definition abb_complete (a : abuilder V) : st wb (list N) :=
  a <~ emit_blocks (N.to_nat (abb_nblocks a - nlen (abb_blocks a))) a ;;
  ret (abb_blocks a).

Fixpoint abb_pushes (kvs : list (N * V)) (a : abuilder V) : st wb (abuilder V) :=
  match kvs with
  | [] => ret a
  | (k, v) :: r => a' <~ abb_push k v a ;; abb_pushes r a'
  end.

(** ArrayBuilder::complete (array_builder.rs:130-138) *)
Definition index_blocks (bs : list N) : list (N * N) := combine (range 0 (nlen bs)) bs.
Definition ab_complete (a : abuilder V) : st wb N :=
  bs <~ abb_complete a ;;
  r <~ btree_build u64_codec noop_inc (map (fun kv => PushValue (fst kv) (snd kv)) (index_blocks bs)) tt ;;
  ret (fst r).

(** An ArrayBuilder from new to complete, given these pushes. *)
Definition array_build (nr : N) (kvs : list (N * V)) : st wb N :=
  a <~ abb_pushes kvs (abb_new nr) ;; ab_complete a.
End Builder.

(** ** pdata/array_walker.rs *)
Section ArrayWalk.
Context {V S : Type} (c : codec V) (inf : bool) (eng : N -> option (list N)).
(** The ArrayVisitor: its state, and whether it accepts a block. *)
Context (visit : S -> N -> array_block V -> S * bool).

(** The checks on the keys of a leaf (array_walker.rs:79-91); leaves without keys are
    accepted. *)
Definition keys_ok (kr : key_range) (ks : list N) : bool :=
  match ks with
  | [] => true
  | k0 :: _ =>
      let last := List.last ks 0 in
      ((k0 + nlen ks) mod W64 =? (last + 1) mod W64) &&
      match kr_end kr with Some e => (last + 1) mod W64 =? e | None => true end
  end.
Definition av_accepts (log : list (wcall N)) (x : wcall N) : bool :=
  match x with CVisit _ kr _ ks _ => keys_ok kr ks | _ => true end.

(** One array block (array_walker.rs:51-66, 103-124): read it, check it, hand it over.
    The errors carry the index of the block. *)
Inductive aerr := AIo (i b : N) | ABad (i b : N) | ARefused (i b : N) | ABtree (e : werr).
Definition visit_array_block (s : S) (i b : N) : S * option aerr :=
  match eng b with
  | None => (s, Some (AIo i b))
  | Some data =>
      match metadata_block_type data with
      | ARRAY =>
          match unpack_array_block c data with
          | Ok a => let '(s, ok) := visit s i a in (s, if ok then None else Some (ARefused i b))
          | _ => (s, Some (ABad i b))
          end
      | _ => (s, Some (ABad i b))
      end
  end.
Fixpoint visit_array_blocks (s : S) (kvs : list (N * N)) : S * list aerr :=
  match kvs with
  | [] => (s, [])
  | (i, b) :: r =>
      let '(s1, e) := visit_array_block s i b in
      let '(s2, es) := visit_array_blocks s1 r in
      (s2, match e with Some e => e :: es | None => es end)
  end.

(** ArrayWalker::walk (array_walker.rs:162-184) with the space map of ArrayWalker::new
    (:137-145).  Each accepted leaf is visited when the btree walker reaches it; here
    the array blocks are visited after the walk of the index tree, in the same order.
    The walker also counts every accepted array block in the space map it shares with
    the btree walker, which is left out: it could only hide an index node that is also
    an array block, and such a block is not a valid node. *)
Definition accepted (log : list (wcall N)) : list (N * N) :=
  flat_map (fun x => match x with CVisit _ kr _ ks vs => if keys_ok kr ks then combine ks vs else [] | _ => [] end) log.
Definition array_walk (nr root : N) (s : S) : S * list aerr :=
  let '(w, r) := walk u64_codec inf eng av_accepts [0] root (walker_new nr) in
  let '(s', es) := visit_array_blocks s (accepted (w_log w)) in
  (s', es ++ match r with Some e => [ABtree e] | None => [] end).
End ArrayWalk.

(** ** pdata/bitset.rs *)
(** CheckedBitSet (bitset.rs:12-41): [None] unknown.  FixedBitSet::set panics beyond the
    end. *)
Definition cbits := N -> option bool.
(** BitsetVisitor::visit (bitset.rs:64-87).  usize arithmetic, 64 bits. *)
Fixpoint set_word (f : cbits) (begin : N) (bits : N) (k : nat) : cbits :=
  match k with
  | O => f
  | S k => upd (set_word f begin bits k) (begin + N.of_nat k) (Some (N.testbit bits (N.of_nat k)))
  end.
Fixpoint set_words (nr_bits : N) (f : cbits) (begin : N) (ws : list N) : cbits :=
  match ws with
  | [] => f
  | w :: r =>
      let e := N.min ((begin + 64) mod W64) nr_bits in
      set_words nr_bits (set_word f begin w (N.to_nat (e - begin))) ((begin + 64) mod W64) r
  end.
Definition bv_visit (nr_bits : N) (f : cbits) (index : N) (a : array_block N) : cbits * bool :=
  let begin := (index * ah_max (ab_hdr a) * 64) mod W64 in
  if nr_bits <=? begin then (f, false) else (set_words nr_bits f begin (ab_values a), true).
(** read_bitset_checked (bitset.rs:137-150) *)
Definition read_bitset_checked (eng : N -> option (list N)) (nr root nr_bits : N) (inf : bool) : cbits * list aerr :=
  array_walk u64_codec inf eng (bv_visit nr_bits) nr root (fun _ => None).

(** BitsetCollector::visit (bitset.rs:108-133): FixedBitSet (0.4) is a vector of 32-bit
    words, here of length div_up nr_bits 32. *)
Fixpoint put_words (nr_bits : N) (bs : list N) (idx : N) (ws : list N) : list N * bool :=
  match ws with
  | [] => (bs, true)
  | w :: r =>
      match vec_set bs idx (N.land w (W32 - 1)) with
      | Ok bs =>
          if idx + 1 =? div_up nr_bits 32 then (bs, true)
          else match vec_set bs (idx + 1) (N.shiftr w 32) with
               | Ok bs => put_words nr_bits bs (idx + 2) r
               | _ => (bs, false)
               end
      | _ => (bs, false)
      end
  end.
Definition bc_visit (nr_bits : N) (bs : list N) (index : N) (a : array_block N) : list N * bool :=
  put_words nr_bits bs ((index * ah_max (ab_hdr a) * 2) mod W64) (ab_values a).
(** read_bitset (bitset.rs:168-178) *)
Definition read_bitset (eng : N -> option (list N)) (nr root nr_bits : N) (inf : bool) : res (list N) :=
  match array_walk u64_codec inf eng (bc_visit nr_bits) nr root (repeat 0 (N.to_nat (div_up nr_bits 32))) with
  | (bs, []) => Ok bs
  | _ => Err
  end.
(** FixedBitSet::contains *)
Definition fbs_contains (nr_bits : N) (bs : list N) (i : N) : bool :=
  (i <? nr_bits) && N.testbit (nth (N.to_nat (i / 32)) bs 0) (i mod 32).
(** FixedBitSet::ones: every set bit of every word. *)
Definition fbs_ones (bs : list N) : list N :=
  filter (fun i => N.testbit (nth (N.to_nat (i / 32)) bs 0) (i mod 32)) (range 0 (32 * nlen bs)).
