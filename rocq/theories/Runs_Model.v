(** thin/runs.rs (the Gatherer) and the optimise_metadata part of thin/metadata.rs:
    leaves shared between devices are factored out into definitions. *)
From Verif Require Import Base ThinOut_Model.

(** FixedBitSet of [nr] bits, as a function; [put] (also [insert]) asserts that
    the bit is in range and returns the previous value; [contains] is false
    beyond the end; [ones] lists the set bits in increasing order. *)
Definition fb_put (nr : N) (s : N -> bool) (b : N) : res (bool * (N -> bool)) :=
  if b <? nr then Ok (s b, upd s b true) else Panic.
Definition fb_ones (nr : N) (s : N -> bool) : list N := filter s (range 0 nr).

(** BTreeSet<u64>::insert on the sorted list of members; true when newly added. *)
Fixpoint set_insert (x : N) (l : list N) : bool * list N :=
  match l with
  | [] => (true, [x])
  | y :: r =>
      if x <? y then (true, x :: l)
      else if x =? y then (false, l)
      else let '(n, r') := set_insert x r in (n, y :: r')
  end.

(** Gatherer (runs.rs:16-36).  BTreeMap entries and HashMap back as partial
    functions; an Entry is its neighbour set; first_neighbour is the list head. *)
Record gatherer := mkg {
  g_prev : option N; g_heads : N -> bool; g_tails : N -> bool;
  g_entries : N -> option (list N); g_back : N -> option N; g_shared : N -> bool }.
Definition g_new : gatherer :=
  mkg None (fun _ => false) (fun _ => false) (fun _ => None) (fun _ => None) (fun _ => false).

(** mark_head (runs.rs:42-46) *)
Definition mark_head (nr b : N) (g : gatherer) : res gatherer :=
  ' (old, h) <- fb_put nr (g_heads g) b ;;
  if old then
    ' (_, s) <- fb_put nr (g_shared g) b ;;
    Ok (mkg (g_prev g) h (g_tails g) (g_entries g) (g_back g) s)
  else Ok (mkg (g_prev g) h (g_tails g) (g_entries g) (g_back g) (g_shared g)).

(** mark_tail (runs.rs:52-54) *)
Definition mark_tail (nr b : N) (g : gatherer) : res gatherer :=
  ' (_, t) <- fb_put nr (g_tails g) b ;;
  Ok (mkg (g_prev g) (g_heads g) t (g_entries g) (g_back g) (g_shared g)).

(** new_seq (runs.rs:56-62) *)
Definition set_prev (g : gatherer) (p : option N) : gatherer :=
  mkg p (g_heads g) (g_tails g) (g_entries g) (g_back g) (g_shared g).
Definition new_seq (nr : N) (g : gatherer) : res gatherer :=
  g' <- match g_prev g with Some b => mark_tail nr b g | None => Ok g end ;;
  Ok (set_prev g' None).

(** next (runs.rs:64-87) *)
Definition g_next (nr b : N) (g : gatherer) : res gatherer :=
  g1 <- match g_prev g with
        | Some prev =>
            match g_entries g prev with
            | None => Panic
            | Some nbs =>
                let '(added, nbs') := set_insert b nbs in
                let es := upd (g_entries g) prev (Some nbs') in
                s <- (if added then Ok (g_shared g)
                      else ' (_, s) <- fb_put nr (g_shared g) b ;; Ok s) ;;
                let g' := mkg (g_prev g) (g_heads g) (g_tails g) es (g_back g) s in
                match g_back g b with
                | Some back => if negb (back =? prev) then mark_head nr b g' else Ok g'
                | None => Ok (mkg (g_prev g') (g_heads g') (g_tails g') (g_entries g')
                                  (upd (g_back g') b (Some prev)) (g_shared g'))
                end
            end
        | None => mark_head nr b g
        end ;;
  let es := match g_entries g1 b with
            | Some _ => g_entries g1
            | None => upd (g_entries g1) b (Some [])
            end in
  Ok (mkg (Some b) (g_heads g1) (g_tails g1) es (g_back g1) (g_shared g1)).

(** extract_seq (runs.rs:89-107): the loop, with a fuel of its number of rounds
    ([Err] when it runs out; the properties show it never does). *)
Fixpoint extract_loop (g : gatherer) (fuel : nat) (b : N) : res (list N) :=
  match fuel with
  | O => Err
  | S fuel =>
      if g_tails g b then Ok [b]
      else match g_entries g b with
           | Some (n :: _) => r <- extract_loop g fuel n ;; Ok (b :: r)
           | _ => Panic
           end
  end.
Definition extract_seq (nr : N) (g : gatherer) (b : N) : res (list N) :=
  if g_heads g b then extract_loop g (N.to_nat nr) b else Panic.

(** The extra tails (runs.rs:112-125). *)
Definition extra_tail (g : gatherer) (b : N) : bool :=
  match g_entries g b with
  | None => false
  | Some nbs =>
      negb (length nbs =? 1)%nat || match nbs with n :: _ => g_heads g n | [] => false end
  end.
(** heads.put, shared.insert (runs.rs:131-134) over a list of blocks *)
Fixpoint put_heads (nr : N) (g : gatherer) (ns : list N) : res gatherer :=
  match ns with
  | [] => Ok g
  | n :: r => g' <- mark_head nr n g ;; put_heads nr g' r
  end.
(** complete_heads_and_tails (runs.rs:109-137).  Entries beyond [nr] that are
    extra tails make tails.insert panic; here the entries below [nr] are looked at,
    and [g_next] lets no entry beyond [nr] into a Gatherer whose heads and pairs
    are in range (the properties assume leaves below nr). *)
Definition complete_heads_and_tails (nr : N) (g : gatherer) : res gatherer :=
  let ts := filter (extra_tail g) (range 0 nr) in
  let g1 := mkg (g_prev g) (g_heads g) (fun b => g_tails g b || existsb (N.eqb b) ts)
                (g_entries g) (g_back g) (g_shared g) in
  put_heads nr g1
    (flat_map (fun t => match g_entries g1 t with Some nbs => nbs | None => [] end)
              (fb_ones nr (g_tails g1))).

(** gather (runs.rs:140-154) *)
Fixpoint gather_heads (nr : N) (g : gatherer) (hs : list N) : res (list (list N * bool)) :=
  match hs with
  | [] => Ok []
  | b :: r =>
      s <- extract_seq nr g b ;;
      rest <- gather_heads nr g r ;;
      Ok ((s, g_shared g b) :: rest)
  end.
Definition gather (nr : N) (g : gatherer) : res (list (list N * bool)) :=
  g1 <- new_seq nr g ;;
  g2 <- complete_heads_and_tails nr g1 ;;
  gather_heads nr g2 (fb_ones nr (g_heads g2)).

(** gather_entries (thin/metadata.rs:242-254) *)
Fixpoint gather_entries_ (nr : N) (g : gatherer) (es : list entry) : res gatherer :=
  match es with
  | [] => Ok g
  | EnLeaf b :: r => g' <- g_next nr b g ;; gather_entries_ nr g' r
  | EnRef _ :: r => g' <- new_seq nr g ;; gather_entries_ nr g' r
  end.
Definition gather_entries (nr : N) (g : gatherer) (es : list entry) : res gatherer :=
  g' <- new_seq nr g ;; gather_entries_ nr g' es.

(** build_runs (thin/metadata.rs:256-270); the BTreeMap as the association list
    in key order: gather returns runs by increasing head, so inserting one after the
    other appends. *)
Fixpoint gather_devs (nr : N) (g : gatherer) (devs : list (list entry)) : res gatherer :=
  match devs with
  | [] => Ok g
  | d :: r => g' <- gather_entries nr g d ;; gather_devs nr g' r
  end.
Definition run_map := list (N * (list N * bool)).
Fixpoint key_runs (rs : list (list N * bool)) : res run_map :=
  match rs with
  | [] => Ok []
  | (run, shared) :: r =>
      match run with
      | [] => Panic
      | h :: _ => m <- key_runs r ;; Ok ((h, (run, shared)) :: m)
      end
  end.
Definition build_runs (nr : N) (devs : list (list entry)) : res run_map :=
  g <- gather_devs nr g_new devs ;;
  rs <- gather nr g ;;
  key_runs rs.

Fixpoint run_get (m : run_map) (b : N) : option (list N * bool) :=
  match m with
  | [] => None
  | (h, r) :: m' => if h =? b then Some r else run_get m' b
  end.

(** entries_to_runs (thin/metadata.rs:272-300).  [skip] is how many entries the
    index has already been moved past. *)
Fixpoint entries_to_runs_ (m : run_map) (skip : nat) (es : list entry) : list entry :=
  match es with
  | [] => []
  | e :: r =>
      match skip with
      | S k => entries_to_runs_ m k r
      | O =>
          match e with
          | EnRef id => EnRef id :: entries_to_runs_ m 0 r
          | EnLeaf b =>
              match run_get m b with
              | Some (run, shared) =>
                  (if (shared : bool) then [EnRef b] else map EnLeaf run)
                    ++ entries_to_runs_ m (length run - 1) r
              | None => EnLeaf b :: entries_to_runs_ m 0 r
              end
          end
      end
  end.
Definition entries_to_runs (m : run_map) (es : list entry) : list entry := entries_to_runs_ m 0 es.

(** build_defs (thin/metadata.rs:302-317): (def_id, entries) *)
Definition build_defs (m : run_map) : list (N * list entry) :=
  flat_map (fun x : N * (list N * bool) =>
    let '(head, (run, shared)) := x in
    if (shared : bool) then [(head, map EnLeaf run)] else []) m.

(** optimise_metadata (thin/metadata.rs:321-345): the definitions, and the new
    entries of every device (its id and details are copied). *)
Definition optimise_metadata (nr : N) (devs : list (list entry))
  : res (list (N * list entry) * list (list entry)) :=
  m <- build_runs nr devs ;;
  Ok (build_defs m, map (entries_to_runs m) devs).
