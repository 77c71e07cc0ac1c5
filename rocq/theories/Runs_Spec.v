(** What the definitions and references of optimised metadata stand for. *)
From Verif Require Import Base ThinOut_Model.

(** The leaves an entry stands for: a reference stands for the entries of the
    definition of that name (which are leaves; nested references stand for nothing). *)
Fixpoint def_entries (defs : list (N * list entry)) (id : N) : list entry :=
  match defs with
  | [] => []
  | (n, es) :: r => if n =? id then es else def_entries r id
  end.
Definition leaf_of (e : entry) : list N := match e with EnLeaf b => [b] | EnRef _ => [] end.
Definition leaves_of (defs : list (N * list entry)) (e : entry) : list N :=
  match e with
  | EnLeaf b => [b]
  | EnRef id => flat_map leaf_of (def_entries defs id)
  end.
(** Replace every reference by its definition. *)
Definition substituted (defs : list (N * list entry)) (es : list entry) : list N :=
  flat_map (leaves_of defs) es.
(** How many times leaf [b] occurs in all the devices. *)
Definition times (devs : list (list N)) (b : N) : nat := count_occ N.eq_dec (concat devs) b.
Definition is_leaf (e : entry) : Prop := match e with EnLeaf _ => True | EnRef _ => False end.
Definition refs_to (id : N) (es : list entry) : nat :=
  length (filter (fun e => match e with EnRef i => i =? id | EnLeaf _ => false end) es).
