(** Model of the B-tree builder, src/pdata/btree_builder.rs, and of the B-tree
    readers src/pdata/btree_lookup.rs and src/pdata/btree_iterator.rs. *)
From Verif Require Import Base Csum_Model Codec_Model SpaceMap_Model Batcher_Model.

(** NodeIO (btree_builder.rs:113-116): what kind of node is made from keys and
    values, and how one is taken apart; [None] is the panic on the other kind.
    LeafIO is btree_builder.rs:118-149, InternalIO 151-182. *)
Record node_io (V : Type) := mkio {
  io_leaf : bool;
  io_make : node_header -> list N -> list V -> node V;
  io_split : node V -> option (list N * list V) }.
Arguments mkio {V}.
Arguments io_leaf {V}.
Arguments io_make {V}.
Arguments io_split {V}.
Definition leaf_io (V : Type) : node_io V :=
  mkio true (fun h ks vs => Leaf h ks vs)
       (fun n => match n with Leaf _ ks vs => Some (ks, vs) | Internal _ _ _ => None end).
Definition internal_io : node_io N :=
  mkio false (fun h ks vs => Internal h ks vs)
       (fun n => match n with Internal _ ks vs => Some (ks, vs) | Leaf _ _ _ => None end).

(** NodeSummary (btree_builder.rs:203-212) *)
Record summary := mksum { su_block : N; su_key : N; su_nr : N; su_shared : bool }.

(** The mutable part of NodeBuilder (btree_builder.rs:189-197).  [nb_rc] is the
    state of the value reference counter. *)
Record nbuilder (V R : Type) := mknb {
  nb_values : list (N * V); nb_nodes : list summary; nb_last : option N; nb_rc : R }.
Arguments mknb {V R}.
Arguments nb_values {V R}.
Arguments nb_nodes {V R}.
Arguments nb_last {V R}.
Arguments nb_rc {V R}.

(** write_node_ (btree_builder.rs:95-108) with the header of LeafIO::write or
    InternalIO::write (121-137, 154-170).  Returns the first key and the
    location.  [keys.len() as u32] is not truncated in the model. *)
Definition write_node {V} (c : codec V) (io : node_io V) (ks : list N) (vs : list V) : st wb (N * N) :=
  let first_key := match ks with k :: _ => k | [] => 0 end in
  b <~ wb_alloc ;;
  let h := mknh (b_loc b) (io_leaf io) (nlen ks) (calc_max_entries c) (N.of_nat (csize c)) in
  data <~ lift (overwrite (b_data b) (pack_node c (io_make io h ks vs))) ;;
  _ <~ wb_write (mkblock (b_loc b) data) NODE ;;
  ret (first_key, b_loc b).

(** LeafIO::read, InternalIO::read (btree_builder.rs:139-148, 172-181) *)
Definition read_node {V} (c : codec V) (io : node_io V) (loc : N) : st wb (list N * list V) :=
  b <~ wb_read loc ;;
  n <~ lift (unpack_node_raw c (b_data b) true true) ;;
  lift (match io_split io n with Some kv => Ok kv | None => Panic end).

(** w.sm.lock().unwrap().inc(b, 1) and dec(b) *)
Definition set_sm (w : wb) (s : core_sm) : wb :=
  mkwb (wb_base w) (wb_log w) (wb_good w) s (wb_batch w) (wb_queue w) (wb_allocs w) (wb_junk w).
Definition wb_inc (b : N) : st wb unit := fun w =>
  let '(s, r) := sm_inc (wb_sm w) b 1 in (set_sm w s, r).
Definition wb_dec (b : N) : st wb bool := fun w =>
  let '(s, r) := sm_dec (wb_sm w) b in (set_sm w s, r).

Section Builder.
Context {V R : Type}.
Variable c : codec V.
Variable io : node_io V.
Variable shared : bool.
Variable rcinc : V -> st R unit.

Definition bst := (wb * nbuilder V R)%type.
Definition onw {A} (m : st wb A) : st bst A := fun s => let '(w, b) := s in let '(w', r) := m w in ((w', b), r).
Definition onrc {A} (m : st R A) : st bst A := fun s =>
  let '(w, b) := s in let '(rc, r) := m (nb_rc b) in ((w, mknb (nb_values b) (nb_nodes b) (nb_last b) rc), r).
Definition onb (f : nbuilder V R -> nbuilder V R) : st bst unit := fun s => let '(w, b) := s in ((w, f b), Ok tt).
Definition getb : st bst (nbuilder V R) := fun s => (s, Ok (snd s)).

Definition set_values (vs : list (N * V)) (b : nbuilder V R) := mknb vs (nb_nodes b) (nb_last b) (nb_rc b).
Definition set_nodes (ns : list summary) (b : nbuilder V R) := mknb (nb_values b) ns (nb_last b) (nb_rc b).
Definition set_last (k : N) (b : nbuilder V R) := mknb (nb_values b) (nb_nodes b) (Some k) (nb_rc b).

(** btree_builder.rs:220, 243 *)
Definition maxe : N := calc_max_entries c.
Definition half : N := maxe / 2.

(** btree_builder.rs:385-408 *)
Definition emit_values (nr : N) : st bst unit :=
  b <~ getb ;;
  if nlen (nb_values b) <? nr then lift Panic else
  let now := firstn (N.to_nat nr) (nb_values b) in
  _ <~ onb (set_values (skipn (N.to_nat nr) (nb_values b))) ;;
  ' (key, loc) <~ onw (write_node c io (map fst now) (map snd now)) ;;
  onb (fun b => set_nodes (nb_nodes b ++ [mksum loc key nr shared]) b).

(** btree_builder.rs:411-413 *)
Definition emit_node : st bst unit := emit_values maxe.

(** btree_builder.rs:417-438 *)
Definition emit_all : st bst unit :=
  b <~ getb ;;
  let n := nlen (nb_values b) in
  if n =? 0 then ret tt
  else if n <=? maxe then emit_values n
  else if n <=? maxe * 2 then (_ <~ emit_values (n / 2) ;; emit_values (n - n / 2))
  else lift Panic.

(** the loops calling value_rc.inc (btree_builder.rs:266-269, 454-460) *)
Fixpoint inc_all (vs : list V) : st bst unit :=
  match vs with
  | [] => ret tt
  | v :: r => _ <~ onrc (rcinc v) ;; inc_all r
  end.

(** btree_builder.rs:447-466; values are only incremented when the node was
    pre-built.  [pop().unwrap()] panics when there is no node. *)
Definition unshift_node : st bst unit :=
  b <~ getb ;;
  match rev (nb_nodes b) with
  | [] => lift Panic
  | ls :: r =>
      _ <~ onb (set_nodes (rev r)) ;;
      ' (keys, values) <~ onw (read_node c io (su_block ls)) ;;
      _ <~ onw (wb_dec (su_block ls)) ;;
      _ <~ (if su_shared ls then inc_all values else ret tt) ;;
      onb (fun b => set_values (combine keys values ++ nb_values b) b)
  end.

(** btree_builder.rs:228-237 *)
Definition check_ordered_key (key : N) : st bst unit :=
  b <~ getb ;;
  match nb_last b with
  | Some last => if key <=? last then fail else onb (set_last key)
  | None => onb (set_last key)
  end.

(** btree_builder.rs:241-259 *)
Definition push_value (key : N) (val : V) : st bst unit :=
  b <~ getb ;;
  _ <~ (match nb_nodes b with
        | [n] => if su_nr n <? half then unshift_node
                 else if nlen (nb_values b) =? maxe * 2 then emit_node else ret tt
        | _ => if nlen (nb_values b) =? maxe * 2 then emit_node else ret tt
        end) ;;
  _ <~ check_ordered_key key ;;
  _ <~ onrc (rcinc val) ;;
  onb (fun b => set_values (nb_values b ++ [(key, val)]) b).

(** btree_builder.rs:263-272 *)
Definition append_values (n : summary) : st bst unit :=
  ' (keys, values) <~ onw (read_node c io (su_block n)) ;;
  _ <~ inc_all values ;;
  onb (fun b => set_values (nb_values b ++ combine keys values) b).

(** the loops of btree_builder.rs:328-331 and 343-346 *)
Fixpoint add_nodes (ns : list summary) : st bst unit :=
  match ns with
  | [] => ret tt
  | n :: r => _ <~ onw (wb_inc (su_block n)) ;;
              _ <~ onb (fun b => set_nodes (nb_nodes b ++ [n]) b) ;;
              add_nodes r
  end.

(** btree_builder.rs:280-354 *)
Definition push_nodes (nodes : list summary) : st bst unit :=
  match nodes with
  | [] => lift Panic
  | n0 :: rest =>
      b <~ getb ;;
      match rest, nb_nodes b, nb_values b with
      | [], [], [] => add_nodes [n0]
      | _, _, _ =>
          if negb (Nat.eqb (length rest) 0) && existsb (fun n => su_nr n <? half) nodes then lift Panic else
          if match nb_last b with Some last => su_key n0 <=? last | None => false end then fail else
          _ <~ (match nb_nodes b with
                | [n] => if su_nr n <? half then unshift_node else ret tt
                | _ => ret tt
                end) ;;
          b <~ getb ;;
          _ <~ (if negb (nlen (nb_values b) =? 0) && (nlen (nb_values b) <? half) then
                  _ <~ append_values n0 ;;
                  match rest with
                  | [] => ret tt
                  | _ => _ <~ emit_all ;; add_nodes rest
                  end
                else
                  _ <~ emit_all ;;
                  if su_nr n0 <? half then append_values n0 else add_nodes nodes) ;;
          onb (set_last (su_key (last nodes n0)))
      end
  end.

(** btree_builder.rs:358-374 *)
Definition nb_complete : st bst (list summary) :=
  b <~ getb ;;
  _ <~ (if negb (nlen (nb_values b) =? 0) && (nlen (nb_values b) <? half) &&
           negb (Nat.eqb (length (nb_nodes b)) 0)
        then unshift_node else ret tt) ;;
  _ <~ emit_all ;;
  b <~ getb ;;
  _ <~ (match nb_nodes b with [] => emit_values 0 | _ => ret tt end) ;;
  b <~ getb ;;
  ret (nb_nodes b).

(** NodeBuilder::new (btree_builder.rs:216-226) *)
Definition nb_new (rc : R) : nbuilder V R := mknb [] [] None rc.

(** The calls a user makes on a NodeBuilder. *)
Inductive build_op := PushValue (k : N) (v : V) | PushNodes (ns : list summary).
Definition do_op (o : build_op) : st bst unit :=
  match o with PushValue k v => push_value k v | PushNodes ns => push_nodes ns end.
Fixpoint do_ops (os : list build_op) : st bst unit :=
  match os with [] => ret tt | o :: r => _ <~ do_op o ;; do_ops r end.

(** All the pushes and complete(), returning the nodes and the reference counter. *)
Definition build_nodes (os : list build_op) (rc : R) : st wb (list summary * R) := fun w =>
  match (_ <~ do_ops os ;; nb_complete) (w, nb_new rc) with
  | ((w', b), Ok ns) => (w', Ok (ns, nb_rc b))
  | ((w', _), Err) => (w', Err)
  | ((w', _), Panic) => (w', Panic)
  end.
End Builder.

(** NoopRC (btree_builder.rs:28-40) *)
Definition noop_inc {V} : V -> st unit unit := fun _ => ret tt.

(** build_btree, btree_builder.rs:499-517.  Each round of the loop at least
    halves the list, so [fuel] = the number of nodes is never exhausted. *)
Fixpoint build_levels (fuel : nat) (nodes : list summary) : st wb N :=
  match nodes with
  | [] => lift Panic
  | [n] => ret (su_block n)
  | _ =>
      match fuel with
      | O => lift Panic
      | S f =>
          ' (up, _) <~ build_nodes u64_codec internal_io false noop_inc
                         (map (fun n => PushValue (su_key n) (su_block n)) nodes) tt ;;
          build_levels f up
      end
  end.
Definition build_btree (leaves : list summary) : st wb N := build_levels (length leaves) leaves.

(** BTreeBuilder (btree_builder.rs:471-494): pushes, then complete. *)
Definition btree_build {V R} (c : codec V) (rcinc : V -> st R unit) (os : list (@build_op V)) (rc : R) : st wb (N * R) :=
  ' (leaves, rc) <~ build_nodes c (leaf_io V) false rcinc os rc ;;
  root <~ build_btree leaves ;;
  ret (root, rc).

(** release_leaves, btree_builder.rs:527-546 *)
Fixpoint dec_all {V R} (rcdec : V -> st R unit) (vs : list V) : st R unit :=
  match vs with [] => ret tt | v :: r => _ <~ rcdec v ;; dec_all rcdec r end.
Fixpoint release_leaves {V R} (c : codec V) (rcdec : V -> st R unit) (leaves : list summary) : st (wb * R) unit :=
  match leaves with
  | [] => ret tt
  | n :: r =>
      fun s =>
        match wb_dec (su_block n) (fst s) with
        | (w, Ok true) =>
            match read_node c (leaf_io V) (su_block n) w with
            | (w, Ok (_, values)) =>
                match dec_all rcdec values (snd s) with
                | (rc, Ok _) => release_leaves c rcdec r (w, rc)
                | (rc, Err) => ((w, rc), Err)
                | (rc, Panic) => ((w, rc), Panic)
                end
            | (w, Err) => ((w, snd s), Err)
            | (w, Panic) => ((w, snd s), Panic)
            end
        | (w, Ok false) => release_leaves c rcdec r (w, snd s)
        | (w, Err) => ((w, snd s), Err)
        | (w, Panic) => ((w, snd s), Panic)
        end
  end.

(** ** Readers *)

(** slice::binary_search on a sorted slice with no duplicates: [Ok i] if
    keys[i] = key, else [Err i] with [i] the number of smaller keys.  The
    standard library's own search is not modelled. *)
Fixpoint bsearch (keys : list N) (key : N) : N + N :=
  match keys with
  | [] => inr 0
  | k :: r => if k =? key then inl 0
              else if key <? k then inr 0
              else match bsearch r key with inl i => inl (i + 1) | inr i => inr (i + 1) end
  end.

(** btree_lookup, btree_lookup.rs:11-51.  The engine reads block [b] as [d b];
    [fuel] bounds the depth (a tree deeper than that gives [Panic]; the code
    would loop for ever on a cyclic graph). *)
Fixpoint btree_lookup {V} (fuel : nat) (c : codec V) (d : disk) (is_root : bool) (loc key : N) : res (option V) :=
  match fuel with
  | O => Panic
  | S f =>
      n <- unpack_node_raw c (d loc) true is_root ;;
      match n with
      | Internal _ keys values =>
          match bsearch keys key with
          | inr 0 => Ok None
          | inl idx => match nth_error values (N.to_nat idx) with
                       | Some b => btree_lookup f c d false b key | None => Panic end
          | inr idx => match nth_error values (N.to_nat (idx - 1)) with
                       | Some b => btree_lookup f c d false b key | None => Panic end
          end
      | Leaf _ keys values =>
          match bsearch keys key with
          | inl idx => match nth_error values (N.to_nat idx) with Some v => Ok (Some v) | None => Panic end
          | inr _ => Ok None
          end
      end
  end.

(** BTreeIterator, btree_iterator.rs:29-157.  The stack, innermost frame first;
    a frame is the index and the node (lines 39-42).  [path] is only used in
    error messages. *)
Definition frame V := (N * node V)%type.
Definition iter V := list (frame V).

(** push_loc, btree_iterator.rs:69-76 *)
Definition it_push_loc {V} (c : codec V) (d : disk) (loc : N) (s : iter V) : res (iter V * bool) :=
  let is_root := match s with [] => true | _ => false end in
  n <- unpack_node_raw c (d loc) true is_root ;;
  Ok ((0, n) :: s, match n with Leaf _ _ _ => true | Internal _ _ _ => false end).

(** get_child_loc, btree_iterator.rs:25-30 *)
Definition it_child {V} (n : node V) (i : N) : res N :=
  match n with
  | Internal _ _ vs => match nth_error vs (N.to_nat i) with Some b => Ok b | None => Panic end
  | Leaf _ _ _ => Panic
  end.

(** left_most_leaf, btree_iterator.rs:78-89 *)
Fixpoint it_left_most {V} (fuel : nat) (c : codec V) (d : disk) (b : N) (s : iter V) : res (iter V) :=
  match fuel with
  | O => Panic
  | S f =>
      ' (s, done) <- it_push_loc c d b s ;;
      if (done : bool) then Ok s else
      match s with
      | (_, n) :: _ => b <- it_child n 0 ;; it_left_most f c d b s
      | [] => Panic
      end
  end.

(** get, btree_iterator.rs:104-122 *)
Definition it_get {V} (s : iter V) : res (option (N * V)) :=
  match s with
  | [] => Ok None
  | (i, Internal _ _ _) :: _ => Panic
  | (i, Leaf _ ks vs) :: _ =>
      match ks with
      | [] => Ok None
      | _ => match nth_error ks (N.to_nat i), nth_error vs (N.to_nat i) with
             | Some k, Some v => Ok (Some (k, v))
             | _, _ => Panic
             end
      end
  end.

(** inc_frame, btree_iterator.rs:125-133 *)
Definition it_inc_frame {V} (s : iter V) : iter V * bool :=
  match s with
  | [] => ([], false)
  | (i, n) :: r => ((i + 1, n) :: r, nh_nr_entries (get_header n) <=? i + 1)
  end.

(** next_node, btree_iterator.rs:135-148; the recursion is on the popped stack. *)
Fixpoint it_next_node {V} (c : codec V) (d : disk) (s : iter V) : res (iter V) :=
  let rest s' :=
    match s' with
    | (i, n) :: _ => loc <- it_child n i ;; ' (s'', _) <- it_push_loc c d loc s' ;; Ok s''
    | [] => Ok []
    end in
  match s with
  | [] => Ok []
  | _ :: r =>
      match r with
      | [] => rest []
      | (i, n) :: r' =>
          if nh_nr_entries (get_header n) <=? i + 1
          then (s' <- it_next_node c d r ;; rest s')
          else rest ((i + 1, n) :: r')
      end
  end.

(** step, btree_iterator.rs:151-156 *)
Definition it_step {V} (c : codec V) (d : disk) (s : iter V) : res (iter V) :=
  let '(s, more) := it_inc_frame s in if (more : bool) then it_next_node c d s else Ok s.

(** The loop callers run: while let Some(v) = iter.get() { push; iter.step()? } *)
Fixpoint it_collect {V} (fuel : nat) (c : codec V) (d : disk) (s : iter V) : res (list (N * V)) :=
  match fuel with
  | O => Panic
  | S f =>
      x <- it_get s ;;
      match x with
      | None => Ok []
      | Some kv => s <- it_step c d s ;; r <- it_collect f c d s ;; Ok (kv :: r)
      end
  end.
