(** pdata/btree_merge.rs. *)
From Verif Require Import Base Csum_Model Codec_Model SpaceMap_Model Utils_Model Walker_Model.

(** NodeSummary (:22-27) *)
Record leaf_summary := mkls { l_block : N; l_nr : N; l_low : N; l_high : N }.

Section Merge.
Context {V : Type} (c : codec V).
(** LeafVisitor::visit (:49-84); None: refused.  visit_again and end_walk do nothing
    (:86-92). *)
Definition lv_visit (leaves : list leaf_summary) (x : wcall V) : option (list leaf_summary) :=
  match x with
  | CVisit path _ _ (k :: ks) _ =>
      if match rev leaves with [] => false | l :: _ => k <=? l_high l end then None
      else Some (leaves ++ [mkls (last path 0) (nlen (k :: ks)) k (last (k :: ks) 0)])
  | _ => Some leaves
  end.
(** The leaves collected by a sequence of calls; a refused one changes nothing. *)
Definition lv_leaves (log : list (wcall V)) : list leaf_summary :=
  fold_left (fun l x => match lv_visit l x with Some l' => l' | None => l end) log [].
Definition lv_accepts (log : list (wcall V)) (x : wcall V) : bool :=
  match lv_visit (lv_leaves log) x with Some _ => true | None => false end.

(** collect_leaves (:97-107) *)
Fixpoint collect (eng : N -> option (list N)) (roots : list N) (s : wst V) : res (list leaf_summary) :=
  match roots with
  | [] => Ok (lv_leaves (w_log s))
  | r :: rs => match walk c false eng lv_accepts [] r s with
               | (s, None) => collect eng rs s
               | (_, Some _) => Err
               end
  end.
Definition collect_leaves (nr : N) (eng : N -> option (list N)) (roots : list N) : res (list leaf_summary) :=
  collect eng roots (walker_new nr).

(** merge (:120-135): optimise_leaves returns its argument (:111-118), and then todo!(). *)
Definition merge (nr : N) (eng : N -> option (list N)) (roots : list N) : res N :=
  _ <- collect_leaves nr eng roots ;; Panic.
End Merge.
