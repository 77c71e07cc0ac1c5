(** pdata/btree_walker.rs: BTreeWalker, and the collectors built on it. *)
From Verif Require Import Base Csum_Model Codec_Model SpaceMap_Model Utils_Model.

(** Leaf errors carry the path and the key range of their context
    (btree_error.rs: io_err, node_err, context_err, keys_context);
    EFuel is not an error of the program (see walk_node). *)
Inductive werr :=
| EIo (path : list N) (kr : key_range)       (* io_err(path).keys_context(kr) *)
| EIoRoot (path : list N)                    (* io_err(path), walk *)
| ENode (path : list N) (kr : key_range)     (* node_err(path, err).keys_context(kr) *)
| ESplit (path : list N)                     (* context_err(path, ..) from split_key_ranges *)
| EVisit (path : list N) (kr : key_range)    (* the visitor's error with its path and keys *)
| EAgain (path : list N) (b : N)             (* the error returned by visit_again *)
| ESm                                        (* value_err from the space map, walk *)
| EEnd                                       (* the error returned by end_walk *)
| EFuel
| EAgg (es : list werr).                     (* aggregate_error *)

(** The calls made to a NodeVisitor (btree_walker.rs:14-32). *)
Inductive wcall (V : Type) :=
| CVisit (path : list N) (kr : key_range) (h : node_header) (ks : list N) (vs : list V)
| CAgain (path : list N) (b : N)
| CEnd.
Arguments CVisit {V}. Arguments CAgain {V}. Arguments CEnd {V}.

(** The walker's space map: either a RestrictedSpaceMap (BTreeWalker::new, :43-52)
    or the counting map given to new_with_sm (:54-70). *)
Inductive wsm := WCore (s : core_sm) | WRestricted (s : rsm).
Definition wsm_get (s : wsm) (b : N) : res N :=
  match s with WCore s => sm_get s b | WRestricted s => rsm_get s b end.
Definition wsm_inc (s : wsm) (b len : N) : wsm * res unit :=
  match s with
  | WCore s => let '(s', r) := sm_inc s b len in (WCore s', r)
  | WRestricted s => let '(s', r) := rsm_inc s b len in (WRestricted s', r)
  end.

(** The walker's mutable state, and the calls the visitor has received. *)
Record wst (V : Type) := mkwst { w_sm : wsm; w_fail : N -> option werr; w_log : list (wcall V) }.
Arguments mkwst {V}. Arguments w_sm {V}. Arguments w_fail {V}. Arguments w_log {V}.

Section Walker.
Context {V : Type} (c : codec V) (ignore_non_fatal : bool).
(** The device: [None] when a block cannot be read.  A failed read_many as a whole
    (:151-158) has the same effect as the failure of each of its blocks. *)
Context (eng : N -> option (list N)).
(** The visitor: does it accept this call, given the calls before it? *)
Context (accepts : list (wcall V) -> wcall V -> bool).

(** sm_inc (:83-88) *)
Definition w_sm_inc (b : N) (s : wst V) : wst V * res N :=
  match wsm_get (w_sm s) b with
  | Ok count =>
      match wsm_inc (w_sm s) b 1 with
      | (sm', Ok _) => (mkwst sm' (w_fail s) (w_log s), Ok count)
      | (sm', r) => (mkwst sm' (w_fail s) (w_log s), match r with Panic => Panic | _ => Err end)
      end
  | Err => (s, Err)
  | Panic => (s, Panic)
  end.

(** set_fail (:77-81) *)
Definition set_fail (b : N) (e : werr) (s : wst V) : wst V :=
  mkwst (w_sm s) (upd (w_fail s) b (Some e)) (w_log s).
Definition call (x : wcall V) (s : wst V) : wst V * bool :=
  (mkwst (w_sm s) (w_fail s) (w_log s ++ [x]), accepts (w_log s) x).

(** build_aggregate (:90-104) *)
Definition build_aggregate (b : N) (errs : list werr) (s : wst V) : wst V * option werr :=
  match errs with
  | [] => (s, None)
  | [e] => (set_fail b e s, Some e)
  | _ => (set_fail b (EAgg errs) s, Some (EAgg errs))
  end.

(** walk_nodes, first half (:118-148): count every child; the unseen ones are
    returned for reading. *)
Fixpoint see_children (path : list N) (krs : list key_range) (bs : list N) (s : wst V)
  : wst V * list werr * list (key_range * N) :=
  match krs, bs with
  | kr :: krs', b :: bs' =>
      let '(s1, errs, todo) :=
        match w_sm_inc b s with
        | (s1, Ok rc) =>
            if rc =? 0 then (s1, [], [(kr, b)])
            else match w_fail s1 b with
                 | None => let '(s2, ok) := call (CAgain path b) s1 in
                           (s2, if ok then [] else [EAgain path b], [])
                 | Some e => (s1, [e], [])
                 end
        | (s1, _) => (s1, [], [])
        end in
      let '(s2, errs', todo') := see_children path krs' bs' s1 in
      (s2, errs ++ errs', todo ++ todo')
  | _, _ => (s, [], [])
  end.

(** walk_nodes, second half (:150-178): read and walk the unseen children. *)
Fixpoint walk_list (walk_one : key_range -> N -> list N -> wst V -> wst V * option werr)
    (path : list N) (todo : list (key_range * N)) (s : wst V) : wst V * list werr :=
  match todo with
  | [] => (s, [])
  | (kr, b) :: r =>
      let '(s1, e) :=
        match eng b with
        | None => let e := EIo path kr in (set_fail b e s, Some e)
        | Some data => walk_one kr b data s
        end in
      let '(s2, es) := walk_list walk_one path r s1 in
      (s2, match e with Some e => e :: es | None => es end)
  end.

(** walk_node and walk_node_ (:184-246); [path] without the node itself.  [fuel]
    bounds the depth of the recursion; EFuel stands for running out of it, which
    the properties show does not happen with the fuel [walk] gives. *)
Fixpoint walk_node (fuel : nat) (path : list N) (kr : key_range) (b : N) (data : list N) (is_root : bool)
    (s : wst V) : wst V * option werr :=
  match fuel with
  | O => (s, Some EFuel)
  | S fuel =>
      let path := path ++ [b] in
      match check_and_unpack_node c (mkblock b data) ignore_non_fatal is_root with
      | Ok (Internal _ keys values) =>
          match split_key_ranges kr keys with
          | Ok krs =>
              let '(s1, errs1, todo) := see_children path krs values s in
              let '(s2, errs2) :=
                walk_list (fun kr b data s => walk_node fuel path kr b data false s) path todo s1 in
              build_aggregate b (errs1 ++ errs2) s2
          | _ => (s, Some (ESplit path))
          end
      | Ok (Leaf h keys values) =>
          let '(s1, ok) := call (CVisit path kr h keys values) s in
          if ok then (s1, None) else let e := EVisit path kr in (set_fail b e s1, Some e)
      | _ => let e := ENode path kr in (set_fail b e s, Some e)
      end
  end.

Definition full_range : key_range := mkkr None None.
Definition wsm_nr (s : wsm) : N := match s with WCore s => sm_nr s | WRestricted s => r_nr s end.

(** walk (:248-278) *)
Definition walk (path : list N) (root : N) (s : wst V) : wst V * option werr :=
  match w_sm_inc root s with
  | (s1, Ok rc) =>
      let finish (x : wst V * option werr) :=
        let '(s2, r) := x in
        let '(s3, ok) := call CEnd s2 in
        (s3, match r with
             | Some e => if ok then Some e else Some (EAgg [e; EEnd])
             | None => None
             end) in
      if 0 <? rc then
        match w_fail s1 root with
        | Some e => finish (s1, Some e)
        | None => let '(s2, ok) := call (CAgain path root) s1 in
                  finish (s2, if ok then None else Some (EAgain path root))
        end
      else
        match eng root with
        | None => (s1, Some (EIoRoot path))
        | Some data =>
            finish (walk_node (S (N.to_nat (wsm_nr (w_sm s)))) path full_range root data true s1)
        end
  | (s1, _) => (s1, Some ESm)
  end.

(** BTreeWalker::new (:43-52) *)
Definition walker_new (nr : N) : wst V := mkwst (WRestricted (rsm_new nr)) (fun _ => None) [].
End Walker.

(** BTreeMap insertion on the sorted association list. *)
Fixpoint bmap_insert {V} (k : N) (v : V) (m : list (N * V)) : list (N * V) :=
  match m with
  | [] => [(k, v)]
  | (k', v') :: r =>
      if k <? k' then (k, v) :: m
      else if k =? k' then (k, v) :: r
      else (k', v') :: bmap_insert k v r
  end.
(** ValueCollector::visit (:296-312); the other calls do nothing and succeed. *)
Definition collect_values {V} (log : list (wcall V)) : list (N * V) :=
  fold_left (fun m x => match x with
                        | CVisit _ _ _ ks vs => fold_left (fun m kv => bmap_insert (fst kv) (snd kv) m) (combine ks vs) m
                        | _ => m
                        end) log [].
(** btree_to_map (:323-333) *)
Definition btree_to_map {V} (c : codec V) (nr : N) (eng : N -> option (list N)) (ignore_non_fatal : bool) (root : N)
  : res (list (N * V)) :=
  match walk c ignore_non_fatal eng (fun _ _ => true) [0] root (walker_new nr) with
  | (s, None) => Ok (collect_values (w_log s))
  | (_, Some _) => Err
  end.
(** count_btree_blocks (:622-632): the space map afterwards. *)
Definition count_btree_blocks {V} (c : codec V) (eng : N -> option (list N)) (ignore_non_fatal : bool) (path : list N)
    (root : N) (sm : core_sm) : wsm * option werr :=
  let '(s, r) := walk c ignore_non_fatal eng (fun _ _ => true) path root (mkwst (WCore sm) (fun _ => None) []) in
  (w_sm s, r).
