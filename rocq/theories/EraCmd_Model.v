(** era/check.rs *)
From Verif Require Import Base Csum_Model Codec_Model SpaceMap_Model Walker_Model Array_Model CacheCheck_Model.

(** read_superblock (era/superblock.rs:86-98) from the device *)
Definition read_esb (eng : N -> option (list N)) : res era_sb :=
  match eng 0 with Some data => era_read_superblock (fun _ => data) 0 | None => Err end.
(** EraChecker::visit (check.rs:36-56); u32 arithmetic wraps.  An error for each value that is
    too large becomes one error for the block. *)
Definition era_visit (current : N) (_ : unit) (index : N) (a : array_block N) : unit * bool :=
  let dbegin := (index mod W32 * ah_max (ab_hdr a)) mod W32 in
  let dend := (dbegin + ah_max (ab_hdr a)) mod W32 in
  (tt, forallb (fun e => fst e <=? current) (combine (ab_values a) (range dbegin dend))).

Section Cmd.
Context (nr : N) (inf : bool) (eng : N -> option (list N)).
(** The loop over the writesets (check.rs:112-124), with read_bitset_checked_with_sm
    (bitset.rs:153-167): the space map they share, and the errors. *)
Fixpoint check_sets (sm : wsm) (l : list (N * writeset)) : res (wsm * list aerr) :=
  match l with
  | [] => Ok (sm, [])
  | (_, ws) :: r =>
      ' (sm, _, errs) <- array_walk_sm u64_codec inf eng (bv_visit (ws_nr_bits ws)) sm (ws_root ws) (fun _ => None) ;;
      ' (sm, errs') <- check_sets sm r ;;
      Ok (sm, errs ++ errs')
  end.
(** check (check.rs:89-143), with check_superblock (:82-87).  The device is not opened for
    writing, and is read only.  Reports are left out. *)
Definition era_check (sb_only : bool) : res unit :=
  sb <- read_esb eng ;;
  if 1 <? es_version sb then Err
  else if sb_only then Ok tt
  else
    m <- btree_to_map ws_codec nr eng inf (es_writeset_tree_root sb) ;;
    ' (sm, errs) <- check_sets (check_sm nr) m ;;
    ' (_, _, errs') <- array_walk_sm u32_codec inf eng (era_visit (es_current_era sb)) sm (es_era_array_root sb) tt ;;
    match errs ++ errs' with [] => Ok tt | _ => Err end.
End Cmd.
