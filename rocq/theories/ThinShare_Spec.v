(** Counting the nodes of mapping trees that may share subtrees. *)
From Verif Require Import Base Csum_Model Codec_Model ThinCheck_Spec.

(** All leaves of the trees are at the same distance from their root, whichever tree they are
    reached from: [h] is the height of each block, nodes being read leniently. *)
Definition even_trees (eng : N -> option (list N)) (roots : list N) (h : N -> nat) : Prop :=
  forall root b, In root roots -> under (inner_on eng true) root b ->
    (leaf_on eng true b <> None -> h b = 0%nat) /\
    (forall ks cs c, inner_on eng true b = Some (ks, cs) -> In c cs -> h b = S (h c)).

(** How often [b] occurs in a list. *)
Definition occurrences (b : N) (l : list N) : N := nlen (filter (N.eqb b) l).
(** How many pointers to [b] there are in these internal nodes. *)
Definition pointers (eng : N -> option (list N)) (inf : bool) (nodes : list N) (b : N) : N :=
  occurrences b (flat_map (fun x => match inner_on eng inf x with Some (_, cs) => cs | None => [] end) nodes).
