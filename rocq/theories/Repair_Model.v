(** thin/metadata_repair.rs: finding the roots of a thin pool whose superblock is lost. *)
From Verif Require Import Base Csum_Model Codec_Model SpaceMap_Model Utils_Model Walker_Model Restore_Model.

(** u64 and u32 additions wrap in a release build. *)
Definition add64 (a b : N) : N := (a + b) mod W64.
Definition add_u32 (a b : N) : N := (a + b) mod W32.

(** ** Time counts: BTreeMap<u32, u32> as an association list sorted by time *)
(** *map.entry(t).or_insert(0) += c *)
Fixpoint tc_add (t c : N) (m : list (N * N)) : list (N * N) :=
  match m with
  | [] => [(t, add_u32 0 c)]
  | (t', c') :: r =>
      if t <? t' then (t, add_u32 0 c) :: m
      else if t =? t' then (t, add_u32 c' c) :: r
      else (t', c') :: tc_add t c r
  end.
(** merge_time_counts (:113-118) *)
Definition merge_time_counts (lhs rhs : list (N * N)) : list (N * N) :=
  fold_left (fun m tc => tc_add (fst tc) (snd tc) m) rhs lhs.

(** compare_time_counts (:586-622): the loop over the two reversed iterators.  At most
    one of the two ends first, and nothing is compared in the round where one ends. *)
Fixpoint compare_rev (lhs rhs : list (N * N)) : comparison :=
  match lhs, rhs with
  | [], [] => Eq
  | [], _ :: _ => Gt
  | _ :: _, [] => Lt
  | (lt, lc) :: l, (rt, rc) :: r =>
      if rt <? lt then Lt
      else if lt <? rt then Gt
      else if rc <? lc then Lt
      else if lc <? rc then Gt
      else compare_rev l r
  end.
Definition compare_time_counts (lhs rhs : list (N * N)) : comparison := compare_rev (rev lhs) (rev rhs).

(** ** What is known of a subtree *)
(** DevInfo (:120-130) *)
Record dev_info := mkdev {
  di_b : N; di_nr_devices : N; di_nr_mappings : N; di_low : N; di_high : N; di_tc : list (N * N);
  di_age : N; di_highest : N; di_pushed : bool }.
Definition dev_new (b : N) : dev_info := mkdev b 0 0 0 0 [] 0 0 false.      (* :133-145 *)
(** DevInfo::push_child (:147-167) *)
Definition dev_push (i c : dev_info) : res dev_info :=
  if di_pushed i && (di_low c <=? di_high i) then Err else
  Ok (mkdev (di_b i) (add64 (di_nr_devices i) (di_nr_devices c)) (add64 (di_nr_mappings i) (di_nr_mappings c))
        (if di_pushed i then di_low i else di_low c) (di_high c) (merge_time_counts (di_tc i) (di_tc c))
        (N.max (di_age i) (di_age c)) (N.max (di_highest i) (di_highest c)) true).

(** MappingsInfo (:170-179) *)
Record map_info := mkmi {
  mi_b : N; mi_nr_mappings : N; mi_low : N; mi_high : N; mi_tc : list (N * N);
  mi_age : N; mi_highest : N; mi_pushed : bool }.
Definition map_new (b : N) : map_info := mkmi b 0 0 0 [] 0 0 false.         (* :182-193 *)
(** MappingsInfo::push_child (:195-214) *)
Definition map_push (i c : map_info) : res map_info :=
  if mi_pushed i && (mi_low c <=? mi_high i) then Err else
  Ok (mkmi (mi_b i) (add64 (mi_nr_mappings i) (mi_nr_mappings c))
        (if mi_pushed i then mi_low i else mi_low c) (mi_high c) (merge_time_counts (mi_tc i) (mi_tc c))
        (N.max (mi_age i) (mi_age c)) (N.max (mi_highest i) (mi_highest c)) true).

(** DetailsInfo (:217-226) *)
Record det_info := mkdet {
  ti_b : N; ti_nr_devices : N; ti_nr_mappings : N; ti_low : N; ti_high : N; ti_max_tid : N; ti_age : N; ti_pushed : bool }.
Definition det_new (b : N) : det_info := mkdet b 0 0 0 0 0 0 false.         (* :229-240 *)
(** DetailsInfo::push_child (:242-258) *)
Definition det_push (i c : det_info) : res det_info :=
  if ti_pushed i && (ti_low c <=? ti_high i) then Err else
  Ok (mkdet (ti_b i) (add64 (ti_nr_devices i) (ti_nr_devices c)) (add64 (ti_nr_mappings i) (ti_nr_mappings c))
        (if ti_pushed i then ti_low i else ti_low c) (ti_high c) (N.max (ti_max_tid i) (ti_max_tid c))
        (N.max (ti_age i) (ti_age c)) true).

(** NodeInfo (:261-265) *)
Inductive ninfo := NDev (i : dev_info) | NMap (i : map_info) | NDet (i : det_info).

(** ** The leaves *)
(** keys[0] and keys[keys.len() - 1], when there are entries *)
Definition low_key (ks : list N) : N := hd 0 ks.
Definition high_key (ks : list N) : N := last ks 0.

(** gather_mapping_leaf_info (:408-431) *)
Definition mapping_leaf_info (h : node_header) (ks : list N) (vs : list block_time) : map_info :=
  fold_left (fun i bt => mkmi (mi_b i) (mi_nr_mappings i) (mi_low i) (mi_high i)
                           (tc_add (bt_time bt) 1 (mi_tc i)) (N.max (mi_age i) (bt_time bt))
                           (N.max (bt_block bt) (mi_highest i)) (mi_pushed i)) vs
    (mkmi (nh_block h) (nh_nr_entries h) (low_key ks) (high_key ks) [] 0 0 false).
(** gather_details_leaf_info (:433-456) *)
Definition details_leaf_info (h : node_header) (ks : list N) (vs : list device_detail) : det_info :=
  fold_left (fun i dd => mkdet (ti_b i) (ti_nr_devices i) (add64 (ti_nr_mappings i) (dd_mapped dd)) (ti_low i) (ti_high i)
                           (N.max (ti_max_tid i) (dd_tid dd))
                           (N.max (N.max (ti_age i) (dd_ctime dd)) (dd_stime dd)) (ti_pushed i)) vs
    (mkdet (nh_block h) (nh_nr_entries h) 0 (low_key ks) (high_key ks) 0 0 false).

(** ** NodeCollector (:267-274): which blocks have been examined, which are the children of
    a valid node, and what is known of the valid ones.  The bit sets have nr_blocks bits;
    setting a bit beyond that panics. *)
Record col := mkcol { k_examined : N -> bool; k_referenced : N -> bool; k_infos : N -> option ninfo }.
Definition col_new : col := mkcol (fun _ => false) (fun _ => false) (fun _ => None).   (* :277-287 *)

Section Collect.
Context (nr : N) (eng : N -> option (list N)).

(** maybe_top_level (:458-470) *)
Definition maybe_top_level (vs : list N) : bool :=
  match vs with [] => false | _ => forallb (fun v => v <=? nr) vs end.

Section Node.
(** get_info on the children of the node at hand *)
Context (get : N -> col -> col * res ninfo).

(** The loops of gather_dev_subtree_info, gather_mappings_subtree_info and
    gather_details_subtree_info (:289-347) differ only in the kind of child. *)
Fixpoint push_children {I} (sel : ninfo -> option I) (push : I -> I -> res I) (i : I) (bs : list N) (s : col)
  : col * res I :=
  match bs with
  | [] => (s, Ok i)
  | b :: r =>
      match get b s with
      | (s1, Ok c) =>
          match sel c with
          | Some c => match push i c with Ok i' => push_children sel push i' r s1 | Err => (s1, Err) | Panic => (s1, Panic) end
          | None => (s1, Err)
          end
      | (s1, Err) => (s1, Err)
      | (s1, Panic) => (s1, Panic)
      end
  end.
Definition sel_dev (n : ninfo) : option dev_info := match n with NDev i => Some i | _ => None end.
Definition sel_map (n : ninfo) : option map_info := match n with NMap i => Some i | _ => None end.
Definition sel_det (n : ninfo) : option det_info := match n with NDet i => Some i | _ => None end.
Definition wrap {I} (f : I -> ninfo) (x : col * res I) : col * res ninfo :=
  (fst x, match snd x with Ok i => Ok (f i) | Err => Err | Panic => Panic end).

(** self.referenced.set(b, true), for every child (:368-370) *)
Fixpoint set_referenced (bs : list N) (s : col) : col * res unit :=
  match bs with
  | [] => (s, Ok tt)
  | b :: r => if b <? nr then set_referenced r (mkcol (k_examined s) (upd (k_referenced s) b true) (k_infos s)) else (s, Panic)
  end.

(** gather_subtree_info (:349-373) *)
Definition subtree_info (h : node_header) (bs : list N) (s : col) : col * res ninfo :=
  if nh_nr_entries h =? 0 then (s, Err) else
  match get (hd 0 bs) s with
  | (s1, Ok first) =>
      match match first with
            | NDev _ => wrap NDev (push_children sel_dev dev_push (dev_new (nh_block h)) bs s1)
            | NMap _ => wrap NMap (push_children sel_map map_push (map_new (nh_block h)) bs s1)
            | NDet _ => wrap NDet (push_children sel_det det_push (det_new (nh_block h)) bs s1)
            end with
      | (s2, Ok i) => match set_referenced bs s2 with (s3, Ok _) => (s3, Ok i) | (s3, _) => (s3, Panic) end
      | x => x
      end
  | x => x
  end.

(** gather_dev_leaf_info (:375-406), the loop over the subtree roots *)
Definition dev_add (i : dev_info) (c : map_info) : dev_info :=
  mkdev (di_b i) (di_nr_devices i) (add64 (di_nr_mappings i) (mi_nr_mappings c)) (di_low i) (di_high i)
    (merge_time_counts (di_tc i) (mi_tc c)) (N.max (di_age i) (mi_age c)) (N.max (di_highest i) (mi_highest c)) (di_pushed i).
Fixpoint dev_leaf_loop (i : dev_info) (bs : list N) (s : col) : col * res dev_info :=
  match bs with
  | [] => (s, Ok i)
  | b :: r =>
      match get b s with
      | (s1, Ok (NMap c)) => dev_leaf_loop (dev_add i c) r s1
      | (s1, Panic) => (s1, Panic)
      | (s1, _) => (s1, Err)
      end
  end.
Definition dev_leaf_info (h : node_header) (ks bs : list N) (s : col) : col * res ninfo :=
  wrap NDev (dev_leaf_loop (mkdev (nh_block h) (nh_nr_entries h) 0 (low_key ks) (high_key ks) [] 0 0 false) bs s).

(** gather_info (:500-535), to_dev_leaf_info (:472-484), to_details_leaf_info (:486-498).
    [c] is one of the two codecs for the values of a leaf. *)
Definition gather_info (b : N) (s : col) : col * res ninfo :=
  match eng b with
  | None => (s, Err)
  | Some data =>
      match metadata_block_type data with
      | NODE =>
          match nh_unpack data with
          | Ok (hdr, _) =>
              if nh_value_size hdr =? 8 then
                match unpack_node_raw u64_codec data true true with
                | Ok (Internal h ks bs) => subtree_info h bs s
                | Ok (Leaf h ks bs) =>
                    if maybe_top_level bs then dev_leaf_info h ks bs s
                    else match unpack_node_raw bt_codec data true true with
                         | Ok (Leaf h ks vs) => (s, Ok (NMap (mapping_leaf_info h ks vs)))
                         | Ok (Internal _ _ _) => (s, Err)
                         | Err => (s, Err)
                         | Panic => (s, Panic)
                         end
                | Err => (s, Err)
                | Panic => (s, Panic)
                end
              else if nh_value_size hdr =? 24 then
                match unpack_node_raw dd_codec data true true with
                | Ok (Leaf h ks vs) => (s, Ok (NDet (details_leaf_info h ks vs)))
                | Ok (Internal _ _ _) => (s, Err)
                | Err => (s, Err)
                | Panic => (s, Panic)
                end
              else (s, Err)
          | Err => (s, Err)
          | Panic => (s, Panic)
          end
      | _ => (s, Err)
      end
  end.
End Node.

(** get_info (:543-554).  [fuel] bounds the depth of the recursion, which the program
    leaves to the examined bits; running out of it is a Panic here, so a run that ends
    any other way is a run of the program (C45_no_panic shows that the fuel suffices). *)
Fixpoint get_info (fuel : nat) (b : N) (s : col) : col * res ninfo :=
  if k_examined s b then (s, match k_infos s b with Some i => Ok i | None => Err end) else
  if negb (b <? nr) then (s, Panic) else
  let s1 := mkcol (upd (k_examined s) b true) (k_referenced s) (k_infos s) in
  match fuel with
  | O => (s1, Panic)
  | S fuel =>
      match gather_info (get_info fuel) b s1 with
      | (s2, Ok i) => (mkcol (k_examined s2) (k_referenced s2) (upd (k_infos s2) b (Some i)), Ok i)
      | (s2, e) => (s2, e)
      end
  end.

(** collect_infos (:556-561): the errors are ignored *)
Fixpoint collect_blocks (bs : list N) (s : col) : res col :=
  match bs with
  | [] => Ok s
  | b :: r => match get_info (N.to_nat nr) b s with (_, Panic) => Panic | (s1, _) => collect_blocks r s1 end
  end.
Definition collect_infos : res col := collect_blocks (range 0 nr) col_new.

(** gather_roots (:563-582) *)
Definition gather_roots (s : col) : list dev_info * list det_info :=
  let orphans := flat_map (fun b => if k_referenced s b then [] else match k_infos s b with Some i => [i] | None => [] end)
                   (range 0 nr) in
  (flat_map (fun n => match n with NDev i => [i] | _ => [] end) orphans,
   flat_map (fun n => match n with NDet i => [i] | _ => [] end) orphans).
End Collect.

(** ** Pairing the roots *)
(** btree_to_key_set (btree_walker.rs:439-449), KeyCollector::visit (:415-430): the
    set of keys as an increasing list *)
Definition collect_keys {V} (log : list (wcall V)) : list N :=
  map fst (fold_left (fun m x => match x with
                        | CVisit _ _ _ ks _ => fold_left (fun m k => bmap_insert k tt m) ks m
                        | _ => m
                        end) log []).
Definition btree_to_key_set {V} (c : codec V) (nr : N) (eng : N -> option (list N)) (ignore_non_fatal : bool) (root : N)
  : res (list N) :=
  match walk c ignore_non_fatal eng (fun _ _ => true) [0] root (walker_new nr) with
  | (s, None) => Ok (collect_keys (w_log s))
  | (_, Some _) => Err
  end.
Fixpoint list_eqb (a b : list N) : bool :=
  match a, b with
  | [], [] => true
  | x :: a, y :: b => (x =? y) && list_eqb a b
  | _, _ => false
  end.
(** devices_identical (:51-73) *)
Definition devices_identical (nr : N) (eng : N -> option (list N)) (ignore_non_fatal : bool) (dev_root details_root : N) : bool :=
  match btree_to_key_set u64_codec nr eng ignore_non_fatal dev_root,
        btree_to_key_set dd_codec nr eng ignore_non_fatal details_root with
  | Ok a, Ok b => list_eqb a b
  | _, _ => false
  end.

(** lower_bound (:76-92), upper_bound (:95-111): [less] is the test on infos[mid].  Each
    round shrinks the range, so [length infos] rounds are enough. *)
Fixpoint bound_loop (fuel : nat) (less : det_info -> bool) (infos : list det_info) (b e : nat) : nat :=
  match fuel with
  | O => b
  | S fuel =>
      if (b <? e)%nat then
        let mid := (b + (e - b) / 2)%nat in
        match nth_error infos mid with
        | Some i => if less i then bound_loop fuel less infos (S mid) e else bound_loop fuel less infos b mid
        | None => b
        end
      else b
  end.
Definition lower_bound (infos : list det_info) (key : N) : nat :=
  bound_loop (length infos) (fun i => ti_nr_mappings i <? key) infos 0 (length infos).
Definition upper_bound (infos : list det_info) (key : N) : nat :=
  bound_loop (length infos) (fun i => ti_nr_mappings i <=? key) infos 0 (length infos).

(** filter_details_roots (:624-637) *)
Definition filter_details_roots (roots : list det_info) (nr_devices : list N) : list det_info :=
  filter (fun r => existsb (N.eqb (ti_nr_devices r)) nr_devices) roots.

Section Pairs.
Context (nr : N) (eng : N -> option (list N)).
(** sort_unstable_by (:644) and sort_unstable_by_key (:655): the order of equal elements
    is not specified, so the two sorts are parameters. *)
Context (sort_devs : list dev_info -> list dev_info) (sort_details : list det_info -> list det_info).

(** find_root_pairs (:639-671); the vector nr_devices without its duplicates *)
Definition find_root_pairs (dev_roots : list dev_info) (details_roots : list det_info)
  : list dev_info * list (dev_info * det_info) :=
  let dev_roots := sort_devs dev_roots in
  let nr_devices := nodup N.eq_dec (map di_nr_devices dev_roots) in
  let details := sort_details (filter_details_roots details_roots nr_devices) in
  (dev_roots,
   flat_map (fun dev =>
     let lower := lower_bound details (di_nr_mappings dev) in
     let upper := upper_bound details (di_nr_mappings dev) in
     map (fun det => (dev, det))
       (filter (fun det => devices_identical nr eng true (di_b dev) (ti_b det))
          (firstn (upper - lower) (skipn lower details)))) dev_roots).

(** RootPair, TreeRoots (:32-40), FoundRoots (:42-49) *)
Inductive tree_roots := TOnDisk (mapping_root details_root : N) | TInCore (devs : list (N * (N * N))).
Record found_roots := mkfr { fr_devices : tree_roots; fr_time : N; fr_tid : N; fr_nr_data : N }.

(** to_found_roots (:673-683) *)
Definition to_found_roots (dev : dev_info) (det : det_info) : found_roots :=
  mkfr (TOnDisk (di_b dev) (ti_b det)) (N.max (di_age dev) (ti_age det)) (add64 (ti_max_tid det) 1) (add64 (di_highest dev) 1).

(** to_partial_found_roots (:685-719), get_ro_info (:537-541) *)
Fixpoint partial_devices (s : col) (roots : list (N * N)) : res (list (N * (N * N))) :=
  match roots with
  | [] => Ok []
  | (id, root) :: r =>
      match k_infos s root with
      | Some (NMap m) => rest <- partial_devices s r ;; Ok ((id, (root, mi_nr_mappings m)) :: rest)
      | _ => Err
      end
  end.
Definition to_partial_found_roots (s : col) (dev : dev_info) : res found_roots :=
  roots <- btree_to_map u64_codec nr eng true (di_b dev) ;;
  devs <- partial_devices s roots ;;
  Ok (mkfr (TInCore devs) (add_u32 (di_age dev) 1) 1 (add64 (di_highest dev) 1)).
Fixpoint mapM_res {A B} (f : A -> res B) (l : list A) : res (list B) :=
  match l with [] => Ok [] | x :: r => y <- f x ;; ys <- mapM_res f r ;; Ok (y :: ys) end.

(** find_roots (:754-786); log_results only reports *)
Definition find_roots : res (list found_roots) :=
  s <- collect_infos nr eng ;;
  let '(devs, dets) := gather_roots nr s in
  let '(devs, pairs) := find_root_pairs devs dets in
  match pairs with
  | [] => match devs with [] => Err | _ => mapM_res (to_partial_found_roots s) devs end
  | _ => Ok (map (fun p => to_found_roots (fst p) (snd p)) pairs)
  end.

(** check_data_block_size (:788-793) *)
Definition check_data_block_size (bs : N) : res N :=
  if negb ((128 <=? bs) && (bs <=? 2097152)) || negb (N.land bs 127 =? 0) then Err else Ok bs.

(** is_superblock_consistent_ (:825-836): the test *)
Definition superblock_consistent (sb : thin_sb) (found : list found_roots) : bool :=
  existsb (fun r => match fr_devices r with
                    | TOnDisk m d => (ts_mapping_root sb =? m) && (ts_details_root sb =? d)
                    | TInCore _ => false
                    end) found.

(** CoreSuperblock (thin/metadata.rs:54-62) and ThinSuperblock (:64-67) *)
Record core_superblock := mkcore {
  co_devices : list (N * (N * device_detail)); co_needs_check : bool; co_version : N; co_time : N;
  co_tid : N; co_block_size : N; co_nr_data_blocks : N }.
Inductive thin_superblock := OnDisk (sb : thin_sb) | InCore (sb : core_superblock).

(** build_devices (:838-854) *)
Definition build_devices (devs : list (N * (N * N))) (tid time : N) : list (N * (N * device_detail)) :=
  map (fun d => (fst d, (fst (snd d), mkdd (snd (snd d)) tid time time))) devs.

(** Option::or_else, then filter(|x| x > least).unwrap_or(least) *)
Definition or_else {A} (a b : option A) : option A := match a with Some _ => a | None => b end.
Definition at_least (x : option N) (least : N) : N :=
  match x with Some n => if least <? n then n else least | None => least end.

(** rebuild_superblock (:856-936) *)
Definition rebuild_superblock (roots : found_roots) (ref_sb : option thin_sb) (o : overrides) : res thin_superblock :=
  bs <- match or_else (ov_data_block_size o) (option_map ts_data_block_size ref_sb) with
        | Some bs => check_data_block_size bs
        | None => Err
        end ;;
  let tid := at_least (or_else (ov_transaction_id o) (option_map ts_transaction_id ref_sb)) (fr_tid roots) in
  let ref_nr := match ref_sb with
                | Some sb => match smroot_unpack (ts_data_sm_root sb) with Ok (r, _) => Some (sr_nr_blocks r) | _ => None end
                | None => None
                end in
  let nr_data := at_least (or_else (ov_nr_data_blocks o) ref_nr) (fr_nr_data roots) in
  let time := match ref_sb with Some sb => N.max (ts_time sb) (fr_time roots) | None => fr_time roots end in
  droot <- pack_root (mksmroot nr_data 0 0 0) SPACE_MAP_ROOT_SIZE ;;
  match fr_devices roots with
  | TOnDisk m d => Ok (OnDisk (mktsb false 0 2 time tid 0 droot (repeat 0 SPACE_MAP_ROOT_SIZE) m d bs 0))
  | TInCore devs => Ok (InCore (mkcore (build_devices devs (tid - 1) (fr_time roots)) false 2 time tid bs nr_data))
  end.

(** read_or_rebuild_superblock (:966-986).  The reference superblock is carried by the
    error of is_superblock_consistent_; the errors of read_superblock and of overrides do
    not carry one. *)
Definition read_sb (loc : N) : res thin_sb :=
  match eng loc with Some data => thin_read_superblock (fun _ => data) 0 | None => Err end.
Definition read_or_rebuild_superblock (loc : N) (o : overrides) : res thin_superblock :=
  found <- find_roots ;;
  let rebuild ref_sb :=
    match found with [] => Panic | r :: _ => rebuild_superblock r ref_sb o end in
  match read_sb loc with
  | Ok sb =>
      if superblock_consistent sb found then
        match override_sb o sb with Ok sb' => Ok (OnDisk sb') | Err => rebuild None | Panic => Panic end
      else rebuild (Some sb)
  | Err => rebuild None
  | Panic => Panic
  end.
End Pairs.
