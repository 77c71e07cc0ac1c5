(** Model of thin_rmap as a command: rmap() in src/thin/rmap.rs:208-241, on the visitor and the
    sorting of ThinOut_Model and the walker of Walker_Model. *)
From Verif Require Import Base Csum_Model Codec_Model SpaceMap_Model Walker_Model ThinOut_Model Repair_Model.

(** RmapVisitor as NodeVisitor (rmap.rs:146-177): visit takes the entries of a leaf, the other
    calls do nothing; none fails.  The entries of the calls made by one walk, in order. *)
Definition rmap_entries (calls : list (wcall block_time)) : list (N * block_time) :=
  flat_map (fun x => match x with CVisit _ _ _ ks vs => combine ks vs | _ => [] end) calls.
(** The loop over the devices (rmap.rs:225-230): one walker, whose space map remembers the
    blocks seen, for all of them.  The path is only for messages.  The state of the visitor
    is the region under construction and the regions pushed so far. *)
Fixpoint rmap_loop (eng : N -> option (list N)) (regions : list (N * N)) (roots : list (N * N)) (s : wst block_time) (cur : rregion)
  : res (rregion * list rregion) :=
  match roots with
  | [] => Ok (cur, [])
  | (dev, root) :: r =>
      match walk bt_codec false eng (fun _ _ => true) [] root s with
      | (s', None) =>
          let '(cur', o1) := rmap_visit regions (dev mod 2 ^ 32) cur (rmap_entries (skipn (length (w_log s)) (w_log s'))) in
          ' (cur'', o2) <- rmap_loop eng regions r s' cur' ;; Ok (cur'', o1 ++ o2)
      | (_, Some _) => Err
      end
  end.
(** rmap (rmap.rs:208-241) with complete (:129-141): the lines printed.  Nothing is printed
    before everything succeeded.  Opening the device is not modelled. *)
Definition rmap_cmd (nr : N) (eng : N -> option (list N)) (regions : list (N * N)) : res (list rregion) :=
  sb <- read_sb eng 0 ;;
  roots <- btree_to_map u64_codec nr eng false (ts_mapping_root sb) ;;
  ' (cur, out) <- rmap_loop eng regions roots (walker_new nr) (mkrr 0 0 0 0) ;;
  Ok (rr_sort (if rr_begin cur <? rr_end cur then out ++ [cur] else out)).
