(** What the utility properties say, independently of how they are computed. *)
From Verif Require Import Base Codec_Model Utils_Model.
Import ListNotations.
Open Scope N_scope.

(** C50: [rs] cuts [from, len) into non-empty consecutive ranges, each
    constant with its bit, adjacent ones with opposite bits (so each range is
    as long as possible). *)
Fixpoint tiles (bits : N -> bool) (from len : N) (rs : list (bool * (N * N))) : Prop :=
  match rs with
  | [] => from = len
  | (b, (s, e)) :: r =>
      s = from /\ s < e /\ e <= len /\
      (forall k, s <= k < e -> bits k = b) /\
      match r with [] => True | (b', _) :: _ => b' <> b end /\
      tiles bits e len r
  end.

(** C53: the value most recently inserted under [k] in a history. *)
Definition last_value {T} (h : list (N * T)) (k : N) : option T :=
  option_map snd (find (fun p => fst p =? k) (rev h)).

(** The distinct keys of a history. *)
Definition distinct {T} (h : list (N * T)) : list N := nodup N.eq_dec (map fst h).

(** A whole history of inserts. *)
Fixpoint hv_run {T} (h : hashvec T) (ops : list (N * T)) : res (hashvec T) :=
  match ops with
  | [] => Ok h
  | (k, v) :: r => h' <- hv_insert h k v ;; hv_run h' r
  end.

(** C55: what may be inserted, and the classification it should produce. *)
Inductive nm_op (I E : Type) :=
| OpInternal (b : N) (i : I) | OpLeaf (b : N) | OpError (b : N) (e : E).
Arguments OpInternal {I E}. Arguments OpLeaf {I E}. Arguments OpError {I E}.

Definition op_block {I E} (o : nm_op I E) : N :=
  match o with OpInternal b _ => b | OpLeaf b => b | OpError b _ => b end.
Definition op_type {I E} (o : nm_op I E) : node_type :=
  match o with OpInternal _ _ => NTInternal | OpLeaf _ => NTLeaf | OpError _ _ => NTError end.

(** An unclassified block accepts anything; a (not yet read) leaf may still be
    turned into an internal node or an error; nothing else is accepted. *)
Definition accepts (old new : node_type) : bool :=
  match old, new with
  | NTNone, _ => true
  | NTLeaf, NTInternal => true
  | NTLeaf, NTError => true
  | _, _ => false
  end.

Fixpoint classify {I E} (c : N -> node_type) (ops : list (nm_op I E)) : N -> node_type :=
  match ops with
  | [] => c
  | o :: r =>
      classify (if accepts (c (op_block o)) (op_type o)
                then fun b => if b =? op_block o then op_type o else c b else c) r
  end.

(** Which operations are refused. *)
Fixpoint verdicts {I E} (c : N -> node_type) (ops : list (nm_op I E)) : list bool :=
  match ops with
  | [] => []
  | o :: r =>
      if accepts (c (op_block o)) (op_type o)
      then true :: verdicts (fun b => if b =? op_block o then op_type o else c b) r
      else false :: verdicts c r
  end.

(** The accepted insertions of a history, by kind. *)
Fixpoint acc_info {I E} (c : N -> node_type) (ops : list (nm_op I E)) : list (N * I) :=
  match ops with
  | [] => []
  | o :: r =>
      if accepts (c (op_block o)) (op_type o)
      then (match o with OpInternal b i => [(b, i)] | _ => [] end) ++
           acc_info (fun b => if b =? op_block o then op_type o else c b) r
      else acc_info c r
  end.
Fixpoint acc_err {I E} (c : N -> node_type) (ops : list (nm_op I E)) : list (N * E) :=
  match ops with
  | [] => []
  | o :: r =>
      if accepts (c (op_block o)) (op_type o)
      then (match o with OpError b i => [(b, i)] | _ => [] end) ++
           acc_err (fun b => if b =? op_block o then op_type o else c b) r
      else acc_err c r
  end.

(** The program's run over a history: a refused insertion leaves the map. *)
Definition nm_step {I E} (m : node_map I E) (o : nm_op I E) : res (node_map I E) :=
  match o with
  | OpInternal b i => nm_insert_internal m b i
  | OpLeaf b => nm_insert_leaf m b
  | OpError b e => nm_insert_error m b e
  end.
Fixpoint nm_run {I E} (m : node_map I E) (ops : list (nm_op I E)) : res (node_map I E * list bool) :=
  match ops with
  | [] => Ok (m, [])
  | o :: r =>
      match nm_step m o with
      | Ok m' => ' (m2, vs) <- nm_run m' r ;; Ok (m2, true :: vs)
      | Err => ' (m2, vs) <- nm_run m r ;; Ok (m2, false :: vs)
      | Panic => Panic
      end
  end.

Definition nt_eqb (a b : node_type) : bool :=
  match a, b with
  | NTNone, NTNone | NTInternal, NTInternal | NTLeaf, NTLeaf | NTError, NTError => true
  | _, _ => false
  end.

(** How many of the blocks [0, n) have type [t]. *)
Definition how_many (n : N) (c : N -> node_type) (t : node_type) : N :=
  nlen (filter (fun b => nt_eqb (c b) t) (nseq 0 (N.to_nat n))).

(** C48: the keys of a range. *)
Definition kr_has (kr : key_range) (k : N) : Prop :=
  match kr_start kr with None => True | Some s => s <= k end /\
  match kr_end kr with None => True | Some e => k < e end.

(** The ranges [k0,k1), [k1,k2), ..., [kn, e). *)
Fixpoint ranges_of (k0 : N) (ks : list N) (e : option N) : list key_range :=
  match ks with
  | [] => [mkkr (Some k0) e]
  | k :: r => mkkr (Some k0) (Some k) :: ranges_of k r e
  end.

Definition below (k : N) (e : option N) : Prop := match e with None => True | Some x => k < x end.

(** C51: the two numbers differ by less than / at most [d]. *)
Definition dist (a b : N) : N := if a <=? b then b - a else a - b.
