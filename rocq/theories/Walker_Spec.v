(** What a walk of a (possibly shared, possibly damaged) tree should do. *)
From Verif Require Import Base Csum_Model Codec_Model SpaceMap_Model Utils_Model Walker_Model.

(** A place in the tree: the path to the node, the key range its parent gives it, the
    block, and whether it is the root. *)
Record place := mkplace { p_path : list N; p_kr : key_range; p_block : N; p_root : bool }.

Section Spec.
Context {V : Type} (c : codec V) (ignore_non_fatal : bool) (eng : N -> option (list N)).

(** What the device holds at a place. *)
Inductive content :=
| Unreadable
| Malformed                                    (* not a valid node *)
| BadKeys                                      (* an internal node whose keys do not split its range *)
| Inner (kids : list place)
| Entries (h : node_header) (ks : list N) (vs : list V).
Definition content_of (p : place) : content :=
  match eng (p_block p) with
  | None => Unreadable
  | Some data =>
      match check_and_unpack_node c (mkblock (p_block p) data) ignore_non_fatal (p_root p) with
      | Ok (Internal _ ks bs) =>
          match split_key_ranges (p_kr p) ks with
          | Ok krs => Inner (map (fun kb => mkplace (p_path p ++ [p_block p]) (fst kb) (snd kb) false) (combine krs bs))
          | _ => BadKeys
          end
      | Ok (Leaf h ks vs) => Entries h ks vs
      | _ => Malformed
      end
  end.
Definition kids (p : place) : list place := match content_of p with Inner ks => ks | _ => [] end.
(** The blocks a list of places points to, once per pointer. *)
Definition pointers (W : list place) : list N := flat_map (fun p => map p_block (kids p)) W.

(** The error that names a damaged place: its key range, and the path to it. *)
Definition damage (p : place) : list werr :=
  match content_of p with
  | Unreadable => [if p_root p then EIoRoot (p_path p) else EIo (p_path p) (p_kr p)]
  | Malformed => [ENode (p_path p ++ [p_block p]) (p_kr p)]
  | BadKeys => [ESplit (p_path p ++ [p_block p])]
  | _ => []
  end.
(** The call a leaf should give rise to. *)
Definition visits (p : place) : list (wcall V) :=
  match content_of p with
  | Entries h ks vs => [CVisit (p_path p ++ [p_block p]) (p_kr p) h ks vs]
  | _ => []
  end.
End Spec.
Arguments content V : clear implicits.

(** The individual errors in an error. *)
Fixpoint names (e : werr) : list werr :=
  match e with EAgg es => flat_map names es | e => [e] end.
Definition is_visit {V} (x : wcall V) : bool := match x with CVisit _ _ _ _ _ => true | _ => false end.
Definition agains {V} (b : N) (log : list (wcall V)) : N :=
  nlen (filter (fun x => match x with CAgain _ b' => b' =? b | _ => false end) log).

(** The counter of a block in the walker's space map. *)
Definition wcount (s : wsm) (b : N) : N :=
  match s with WCore s => sm_counts s b | WRestricted s => if r_bits s b then 1 else 0 end.
Definition wmax (s : wsm) : N := match s with WCore s => sm_max s | WRestricted _ => 1 end.
Definition counted (l : list N) (b : N) : N := N.of_nat (count_occ N.eq_dec l b).

(** A key is in a range. *)
Definition in_kr (kr : key_range) (k : N) : Prop :=
  match kr_start kr with Some a => a <= k | None => True end /\
  match kr_end kr with Some e => k < e | None => True end.

(** The blocks below [root] that can be reached over blocks the space map does not know
    yet, whatever the key ranges. *)
Inductive reachable {V} (c : codec V) (ignore_non_fatal : bool) (eng : N -> option (list N)) (nr : N) (known : N -> Prop)
    (root : N) : N -> Prop :=
| reach_root : reachable c ignore_non_fatal eng nr known root root
| reach_child b data h ks vs x :
    reachable c ignore_non_fatal eng nr known root b -> eng b = Some data ->
    check_and_unpack_node c (mkblock b data) ignore_non_fatal (b =? root) = Ok (Internal h ks vs) ->
    In x vs -> x < nr -> ~ known x ->
    reachable c ignore_non_fatal eng nr known root x.

Definition call_entries {V} (x : wcall V) : list (N * V) :=
  match x with CVisit _ _ _ ks vs => combine ks vs | _ => [] end.
(** A call that hands over a leaf whose keys are in the range it is given. *)
Definition leaf_call {V} (x : wcall V) : Prop :=
  match x with CVisit _ kr _ ks vs => length ks = length vs /\ Forall (in_kr kr) ks | _ => False end.
