(** What a session of builds should have produced. *)
From Verif Require Import Base Codec_Model SpaceMap_Model SpaceMap_Spec SpaceMap_Proofs Batcher_Model Builder_Model Builder_Spec Session_Model.

(** The entries a list of items stands for, given those of the runs. *)
Fixpoint expand {V} (runs : list (list (N * V))) (its : list item) : option (list (N * V)) :=
  match its with
  | [] => Some []
  | IVal k v :: r => match expand runs r with Some kvs => Some ((k, v) :: kvs) | None => None end
  | IRef i :: r => match nth_error runs i, expand runs r with
                   | Some ns, Some kvs => Some (ns ++ kvs) | _, _ => None end
  end.

(** [plan range runs os trees]: given runs with these entries, the operations
    are well-formed (increasing keys, references to runs that exist, and only as the first item to empty ones)
    and describe [trees]. *)
Inductive plan {V} (range : V -> Prop) : list (list (N * V)) -> list sop -> list (list (N * V)) -> Prop :=
| plan_nil runs : plan range runs [] []
| plan_define runs kvs os trees : entries_ok range kvs -> plan range (runs ++ [kvs]) os trees ->
    plan range runs (Define kvs :: os) trees
| plan_tree runs its kvs os trees : expand runs its = Some kvs -> entries_ok range kvs ->
    (forall i, In (IRef i) (tl its) -> nth_error runs i <> Some []) ->
    plan range runs os trees -> plan range runs (Tree its :: os) (kvs :: trees).

(** Every value written down in the operations, references expanded. *)
Definition all_values {V} (os : list (@sop V)) (trees : list (list (N * V))) : list V :=
  flat_map (fun o => match o with Define kvs => map snd kvs | Tree _ => [] end) os ++ flat_map (map snd) trees.

(** Counters whose decrement undoes an increment. *)
Definition counter_undo {V R} (rcdec : V -> st R unit) (rep : R -> list V -> Prop) : Prop :=
  forall r v vs, rep r (v :: vs) -> exists r', rcdec v r = (r', Ok tt) /\ rep r' vs.

(** Total number of times [x] occurs in the footprints. *)
Fixpoint occs (x : N) (foots : list (list N)) : N :=
  match foots with [] => 0 | f :: r => occ x f + occs x r end.

(** [L] lists, once each, exactly the leaves reachable from the roots. *)
Definition leaf_set {V} (c : codec V) (d : disk) (roots : list (N * nat)) (L : list (N * list V)) : Prop :=
  NoDup (map fst L) /\
  forall p, In p L <-> exists root depth, In (root, depth) roots /\ In p (leaves c d depth root).

(** The data space map [s] over [nd] blocks counts every value once on top of [base]. *)
Definition mapping_rep (nd max : N) (base : N -> N) (s : core_sm) (vs : list block_time) : Prop :=
  sm_inv nd max s /\ Forall (fun v => bt_block v < nd) vs /\
  forall x, sm_counts s x = base x + occ x (map bt_block vs).
Definition mapping_bad (nd max : N) (base : N -> N) (vs : list block_time) (v : block_time) : Prop :=
  nd <= bt_block v \/ max <= base (bt_block v) + occ (bt_block v) (map bt_block vs).
