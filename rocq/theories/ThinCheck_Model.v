(** thin/check.rs: thin_check. *)
From Verif Require Import Base Csum_Model Codec_Model SpaceMap_Model Utils_Model Walker_Model SmCheck_Model Repair_Model.

(** MIN_ENTRIES (:28) *)
Definition MIN_ENTRIES : N := 84.

(** ** Summaries *)
(** NodeSummary (:75-82); nr_entries and nr_errors are u8 *)
Record summary := mksum { s_low : N; s_high : N; s_nr : N; s_entries : N; s_errors : N }.
Definition sum_default : summary := mksum 0 0 0 0 0.
Definition sum_error : summary := mksum 0 0 0 0 1.                            (* :103-111 *)
(** from_leaf (:85-101) *)
Definition sum_leaf (ks : list N) : summary :=
  mksum (match ks with [] => 0 | k :: _ => k end) (last ks 0) (nlen ks) (nlen ks mod 256) 0.
(** append (:113-129): None when the keys overlap, and then nothing has been changed.  u64
    and u8 additions wrap in a release build. *)
Definition sum_append (s c : summary) : option summary :=
  let finish low high := Some (mksum low high ((s_nr s + s_nr c) mod W64) ((s_entries s + 1) mod 256) (N.min (s_errors s + s_errors c) 255)) in
  if s_nr s =? 0 then finish (s_low c) (s_high c)
  else if 0 <? s_nr c then (if s_low c <=? s_high s then None else finish (s_low s) (s_high c))
  else finish (s_low s) (s_high s).

(** InternalNodeInfo (:69-73), and the NodeMap of Utils_Model with it; the errors are not
    distinguished. *)
Definition ninfo_t : Type := list N * list N.
Definition nmap : Type := node_map ninfo_t unit.

Section Summarize.
Context (nodes : nmap) (ignore_non_fatal : bool).
(** The summaries known so far, by block: HashVec is a map (C53). *)
Definition sums := N -> option summary.

(** summarize_tree (:403-486).  The path is for error messages, left out.  [fuel] bounds the
    depth of the recursion; None: it has run out (see C43_loop_refuted). *)
Section Children.
Context (rec : key_range -> N -> sums -> option (sums * summary)).
Fixpoint sum_children (krs : list key_range) (bs : list N) (acc : summary) (ss : sums) : option (sums * summary) :=
  match krs, bs with
  | kr :: krs, b :: bs =>
      match rec kr b ss with
      | None => None
      | Some (ss, c) => sum_children krs bs (match sum_append acc c with Some acc' => acc' | None => acc end) ss
      end
  | _, _ => Some (ss, acc)
  end.
End Children.
Fixpoint summarize_tree (fuel : nat) (is_root : bool) (kr : key_range) (root : N) (ss : sums) : option (sums * summary) :=
  match fuel with
  | O => None
  | S fuel =>
      match ss root with
      | Some sum =>
          Some (ss,
            if negb ignore_non_fatal && negb is_root && (s_entries sum <? MIN_ENTRIES) then sum_error
            else if (0 <? s_nr sum) &&
                    (match kr_start kr with Some n => s_low sum <? n | None => false end ||
                     match kr_end kr with Some n => n <? s_high sum | None => false end) then sum_error
            else sum)
      | None =>
          match nm_get_type nodes root with
          | NTInternal =>
              match hv_get (nm_info nodes) root with
              | Ok (Some (keys, children)) =>
                  if negb ignore_non_fatal && negb is_root && (nlen keys <? MIN_ENTRIES) then Some (ss, sum_error)
                  else match split_key_ranges kr keys with
                       | Ok krs =>
                           match sum_children (summarize_tree fuel false) krs children sum_default ss with
                           | None => None
                           | Some (ss, sum) => Some (upd ss root (Some sum), sum)
                           end
                       | _ => Some (ss, sum_error)
                       end
              | _ => Some (ss, sum_error)
              end
          | _ => Some (ss, sum_error)
          end
      end
  end.

(** count_mapped_blocks (:742-761); roots are truncated to u32 *)
Fixpoint count_mapped_blocks (fuel : nat) (roots : list N) (ss : sums) : option sums :=
  match roots with
  | [] => Some ss
  | r :: rs => match summarize_tree fuel true full_range (r mod W32) ss with
               | None => None
               | Some (ss, _) => count_mapped_blocks fuel rs ss
               end
  end.
End Summarize.

(** ** Reading the nodes *)
Section Read.
Context (nr : N) (eng : N -> option (list N)) (ignore_non_fatal : bool).

(** The metadata map and the node map.  The insertions return errors that are ignored;
    a panic of the bit sets is not. *)
Definition rst : Type := wsm * nmap.
Definition ins (s : rst) (r : res nmap) : res rst :=
  match r with Ok n => Ok (fst s, n) | Err => Ok s | Panic => Panic end.

(** is_seen (:247-251) *)
Definition is_seen (loc : N) (sm : wsm) : wsm * res bool :=
  match wsm_inc sm loc 1 with
  | (sm, Ok _) => (sm, Ok (1 <? match wsm_get sm loc with Ok c => c | _ => 0 end))
  | (sm, Err) => (sm, Err)
  | (sm, Panic) => (sm, Panic)
  end.

(** read_node_ (:254-318), the loop that filters out the visited children *)
Fixpoint new_children (last_level : bool) (vs : list N) (s : rst) : res (rst * list N) :=
  match vs with
  | [] => Ok (s, [])
  | v :: vs =>
      let u := v mod W32 in
      let '(sm, r) := is_seen u (fst s) in
      let s := (sm, snd s) in
      match r with
      | Ok seen =>
          let keep := negb seen ||
            match nm_get_type (snd s) u with NTLeaf => negb last_level | NTNone => last_level | _ => false end in
          ' (s, l) <- new_children last_level vs s ;;
          Ok (s, if keep then v :: l else l)
      | Err => new_children last_level vs s
      | Panic => Panic
      end
  end.
Fixpoint insert_leaves (vs : list N) (s : rst) : res rst :=
  match vs with
  | [] => Ok s
  | v :: vs => s <- ins s (nm_insert_leaf (snd s) (v mod W32)) ;; insert_leaves vs s
  end.
(** read_node_.  [depth] is the number of levels of internal nodes below this one.  A failed
    read_many has the same effect as the failure of each of its blocks. *)
Fixpoint read_node (depth : nat) (b : N) (data : list N) (s : rst) : res rst :=
  match check_and_unpack_node u64_codec (mkblock b data) ignore_non_fatal true with
  | Err => ins s (nm_insert_error (snd s) (b mod W32) tt)
  | Panic => Panic
  | Ok (Leaf _ _ _) => Ok s
  | Ok (Internal _ keys values) =>
      s <- ins s (nm_insert_internal (snd s) (b mod W32) (keys, map (fun v => v mod W32) values)) ;;
      match depth with
      | O => ' (s, vs) <- new_children true values s ;; insert_leaves vs s
      | S depth =>
          ' (s, vs) <- new_children false values s ;;
          (fix go (vs : list N) (s : rst) : res rst :=
             match vs with
             | [] => Ok s
             | v :: vs =>
                 s <- match eng v with
                      | Some data => read_node depth v data s
                      | None => ins s (nm_insert_error (snd s) (v mod W32) tt)
                      end ;;
                 go vs s
             end) vs s
      end
  end.

(** get_depth (:337-366).  [fuel] bounds the recursion; [None]: an error (or no fuel). *)
Fixpoint get_depth (fuel : nat) (path : list N) (root : N) (is_root : bool) : option nat :=
  match fuel with
  | O => None
  | S fuel =>
      match eng root with
      | None => None
      | Some data =>
          match check_and_unpack_node bt_codec (mkblock root data) true is_root with
          | Ok (Internal _ _ vs) =>
              (fix go (vs : list N) : option nat :=
                 match vs with
                 | [] => None
                 | v :: vs =>
                     if existsb (N.eqb v) path then go vs
                     else match get_depth fuel (path ++ [v]) v false with
                          | Some n => Some (S n)
                          | None => go vs
                          end
                 end) vs
          | Ok (Leaf _ _ _) => Some O
          | _ => None
          end
      end
  end.

(** read_internal_nodes (:368-401); get_depth never goes deeper than [nr] + 2 levels, see
    depth_enough in ThinRead_Proofs *)
Definition read_internal_nodes (root : N) (s : rst) : res rst :=
  let '(sm, r) := is_seen root (fst s) in
  let s := (sm, snd s) in
  match r with
  | Panic => Panic
  | Err | Ok true => Ok s
  | Ok false =>
      match get_depth (S (S (N.to_nat nr))) [] root true with
      | None => Ok s
      | Some O => ins s (nm_insert_leaf (snd s) root)
      | Some (S depth) =>
          match eng root with
          | Some data => read_node depth root data s
          | None => ins s (nm_insert_error (snd s) root tt)
          end
      end
  end.
(** collect_nodes_in_use (:536-549); get_nr_blocks() as u32 *)
Fixpoint read_roots (roots : list N) (s : rst) : res rst :=
  match roots with
  | [] => Ok s
  | r :: rs => s <- read_internal_nodes (r mod W32) s ;; read_roots rs s
  end.
Definition collect_nodes_in_use (roots : list N) (sm : wsm) : res rst := read_roots roots (sm, nm_new (nr mod W32)).

(** read_leaf_nodes (:631-727) with unpacker (:551-592) and summariser (:594-629): one leaf.
    The node map, the data map and the summaries are each updated under a lock by one leaf at
    a time; errors on the increments are ignored.  A block that cannot be read is skipped (a
    failed read_many as a whole records an error for each block instead, which has the same
    effect on what follows: there is no summary). *)
Definition lst : Type := nmap * wsm * sums.
Fixpoint inc_data (vs : list block_time) (dsm : wsm) : wsm :=
  match vs with [] => dsm | v :: vs => inc_data vs (fst (wsm_inc dsm (bt_block v) 1)) end.
Definition read_leaf (b : N) (s : lst) : res lst :=
  let '(nodes, dsm, ss) := s in
  match eng b with
  | None => Ok s
  | Some data =>
      match check_and_unpack_node bt_codec (mkblock b data) ignore_non_fatal true with
      | Ok (Leaf h ks vs) => Ok (nodes, inc_data vs dsm, upd ss (nh_block h mod W32) (Some (sum_leaf ks)))
      | Ok (Internal _ _ _) => Ok s
      | Err => match nm_insert_error nodes (b mod W32) tt with Ok nodes => Ok (nodes, dsm, ss) | Err => Ok s | Panic => Panic end
      | Panic => Panic
      end
  end.
(** The leaves reach the summariser in any order: [order] is some permutation of the leaves
    in disk order. *)
Fixpoint read_leaves (order : list N) (s : lst) : res lst :=
  match order with [] => Ok s | b :: r => s <- read_leaf b s ;; read_leaves r s end.
Definition leaves_of (nodes : nmap) : list N := filter (bs_contains (nm_leaves nodes)) (range 0 (bs_cap (nm_leaves nodes))).

(** check_mappings_bottom_level_ (:488-534).  [order] is how the threads happen to deliver
    the leaves. *)
Definition check_mappings_bottom_level (fuel : nat) (order : list N -> list N) (roots : list N) (msm dsm : wsm)
  : wsm * wsm * res sums :=
  match collect_nodes_in_use roots msm with
  | Ok (msm, nodes) =>
      match read_leaves (order (leaves_of nodes)) (nodes, dsm, fun _ => None) with
      | Ok (nodes, dsm, ss) =>
          (msm, dsm, match count_mapped_blocks nodes ignore_non_fatal fuel roots ss with Some ss => Ok ss | None => Panic end)
      | _ => (msm, dsm, Panic)
      end
  | _ => (msm, dsm, Panic)
  end.
End Read.

(** ** The check *)
(** check_mapped_blocks (:765-809); the messages are left out *)
Definition mapped_ok (ss : sums) (dev : N * (N * device_detail)) : bool :=
  let '(_, (root, details)) := dev in
  match ss (root mod W32) with
  | Some sum => (s_errors sum =? 0) && (s_nr sum =? dd_mapped details)
  | None => false
  end.
Definition check_mapped_blocks (devs : list (N * (N * device_detail))) (ss : sums) : res unit :=
  if forallb (mapped_ok ss) devs then Ok tt else Err.

(** ThinCheckOptions (:41-52), without the paths *)
Record check_opts := mkco {
  o_sb_only : bool; o_skip_mappings : bool; o_ignore_non_fatal : bool; o_auto_repair : bool; o_clear_needs_check : bool;
  o_metadata_snap : bool; o_mapping_root : option N; o_details_root : option N }.

(** btree_to_map_with_sm (btree_walker.rs:335-349) *)
Definition btree_to_map_with_sm {V} (c : codec V) (nr : N) (eng : N -> option (list N)) (inf : bool) (root : N) (sm : wsm)
  : wsm * res (list (N * V)) :=
  if negb (wsm_nr sm =? nr) then (sm, Panic) else
  let '(s, r) := walk c inf eng (fun _ _ => true) [0] root (mkwst sm (fun _ => None) []) in
  (w_sm s, match r with None => Ok (collect_values (w_log s)) | Some _ => Err end).

Section Check.
Context (nr : N) (fuel : nat) (order : list N -> list N) (o : check_opts).

(** create_metadata_sm (:854-891) *)
Definition create_metadata_sm (eng : N -> option (list N)) (sb : thin_sb) (sb_snap : option (res thin_sb)) : res core_sm :=
  let inf := o_ignore_non_fatal o in
  match btree_to_map_with_sm u64_codec nr eng inf (ts_mapping_root sb) (WRestricted (rsm_new nr)) with
  | (sm, r) =>
      roots <- r ;;
      n <- match sb_snap with
           | Some (Ok sbs) =>
               rs <- snd (btree_to_map_with_sm u64_codec nr eng inf (ts_mapping_root sbs) sm) ;;
               Ok (nlen roots + nlen rs)
           | _ => Ok (nlen roots)
           end ;;
      Ok (core_sm_for nr (n mod W32))
  end.
(** inc_superblock (:30-37) *)
Definition inc_superblock (sm : wsm) (snap : N) : wsm * res unit :=
  match wsm_inc sm 0 1 with
  | (sm, Ok _) => if 0 <? snap then wsm_inc sm snap 1 else (sm, Ok tt)
  | x => x
  end.
(** get_devices_ (:893-920): the device details and the roots *)
Definition get_devices (eng : N -> option (list N)) (sb : thin_sb) (sm : wsm) : wsm * res (list (N * device_detail) * list (N * N)) :=
  let inf := o_ignore_non_fatal o in
  match btree_to_map_with_sm dd_codec nr eng inf (ts_details_root sb) sm with
  | (sm, Ok devs) =>
      match btree_to_map_with_sm u64_codec nr eng inf (ts_mapping_root sb) sm with
      | (sm, Ok roots) => (sm, Ok (devs, roots))
      | (sm, Err) => (sm, Err)
      | (sm, Panic) => (sm, Panic)
      end
  | (sm, Err) => (sm, Err)
  | (sm, Panic) => (sm, Panic)
  end.
(** zip of the roots with the details, positionally *)
Definition zip_devices (roots : list (N * N)) (devs : list (N * device_detail)) : list (N * (N * device_detail)) :=
  map (fun x => (fst (fst x), (snd (fst x), snd (snd x)))) (combine roots devs).
(** get_thins_from_superblock (:922-952): the thins and their roots *)
Definition get_thins (eng : N -> option (list N)) (sb : thin_sb) (sm : wsm) : wsm * res (list (N * (N * device_detail)) * list N) :=
  match get_devices eng sb sm with
  | (sm, Ok (devs, roots)) =>
      (sm, if list_eqb (map fst roots) (map fst devs) then Ok (zip_devices roots devs, map snd roots) else Err)
  | (sm, Err) => (sm, Err)
  | (sm, Panic) => (sm, Panic)
  end.
(** get_thins_from_metadata_snap (:954-1017) *)
Definition get_thins_snap (eng : N -> option (list N)) (sbs : thin_sb) (thins : list (N * (N * device_detail))) (sm : wsm)
  : wsm * res (list (N * (N * device_detail)) * list N) :=
  if negb (devices_identical nr eng (o_ignore_non_fatal o) (ts_mapping_root sbs) (ts_details_root sbs)) then (sm, Err) else
  match get_devices eng sbs sm with
  | (sm, Ok (devs, roots)) =>
      let known (id root : N) := existsb (fun t => (fst t =? id) && (fst (snd t) =? root)) thins in
      let roots_excl := filter (fun r => negb (known (fst r) (snd r))) roots in
      let devs_excl := filter (fun d => existsb (fun r => fst r =? fst d) roots_excl) devs in
      (sm, if list_eqb (map fst devs_excl) (map fst roots_excl) then Ok (zip_devices roots_excl devs_excl, map snd roots) else Err)
  | (sm, Err) => (sm, Err)
  | (sm, Panic) => (sm, Panic)
  end.
(** create_data_sm (:1048-1058) *)
Definition create_data_sm (sb : thin_sb) (nr_devs : N) : res wsm :=
  ' (root, _) <- smroot_unpack (ts_data_sm_root sb) ;;
  Ok (if nr_devs <=? 1 then WRestricted (rsm_new (sr_nr_blocks root)) else WCore (core_sm_for (sr_nr_blocks root) nr_devs)).
(** What the checker sees of a space map: its counts. *)
Definition as_core (s : wsm) : core_sm :=
  match s with
  | WCore s => s
  | WRestricted r => mksm (r_nr r) 1 (r_nalloc r) (r_begin r) (fun b => if r_bits r b then 1 else 0)
  end.

(** The metadata device: [readable] and [writable] tell which blocks can be read and written.
    It is opened for writing only for a repair (mk_context, :816-822); otherwise writes fail. *)
Context (readable writable : N -> bool).
Definition can_write (b : N) : bool := (o_auto_repair o || o_clear_needs_check o) && writable b.
Definition dev (d : disk) (b : N) : option (list N) := if (b <? nr) && readable b then Some (d b) else None.
(** clear_needs_check_flag (:1292-1299) *)
Definition clear_flag (d : disk) : disk * res bool :=
  match read_sb (dev d) 0 with
  | Ok sb =>
      if ts_needs_check sb then
        let sb := mktsb false (ts_block sb) (ts_version sb) (ts_time sb) (ts_transaction_id sb) (ts_metadata_snap sb)
                    (ts_data_sm_root sb) (ts_metadata_sm_root sb) (ts_mapping_root sb) (ts_details_root sb)
                    (ts_data_block_size sb) (ts_nr_metadata_blocks sb) in
        match thin_write_superblock d 0 sb with
        | Ok d' => if can_write 0 then (d', Ok true) else (d, Err)
        | Err => (d, Err)
        | Panic => (d, Panic)
        end
      else (d, Ok false)
  | Err => (d, Err)
  | Panic => (d, Panic)
  end.
Definition done {A} (x : disk * res A) : disk * res unit :=
  (fst x, match snd x with Ok _ => Ok tt | Err => Err | Panic => Panic end).
Definition fails {A B} (d : disk) (r : res A) : disk * res B := (d, match r with Panic => Panic | _ => Err end).

(** check (:1060-1290), from the point where the mappings and the counts are known: the
    leaks are repaired or reported, then the flag is cleared. *)
Definition fix_leaks (sm : core_sm) (lks : list leak) (d : disk) : disk * res unit :=
  match lks with
  | [] => (d, Ok tt)
  | _ => if o_auto_repair o || o_clear_needs_check o then repair_space_map (fun b => (b <? nr) && readable b) can_write sm lks d
         else (d, if o_ignore_non_fatal o then Ok tt else Err)
  end.
Definition finish_check (dsm msm : core_sm) (dleaks mleaks : list leak) (d : disk) : disk * res unit :=
  match fix_leaks dsm dleaks d with
  | (d, Ok _) =>
      match fix_leaks msm mleaks d with
      | (d, Ok _) => if o_auto_repair o || o_clear_needs_check o then done (clear_flag d) else (d, Ok tt)
      | x => x
      end
  | x => x
  end.
(** The space maps. *)
Definition check_space_maps (sb : thin_sb) (dsm msm : wsm) (d : disk) : disk * res unit :=
  let inf := o_ignore_non_fatal o in
  match smroot_unpack (ts_data_sm_root sb) with
  | Ok (droot, _) =>
      match check_disk_space_map nr (dev d) inf droot (as_core dsm) (as_core msm) with
      | (msm, Ok (_, dleaks)) =>
          match smroot_unpack (ts_metadata_sm_root sb) with
          | Ok (mroot, _) =>
              match check_metadata_space_map nr (dev d) inf mroot msm with
              | (msm, Ok (_, mleaks)) => finish_check (as_core dsm) msm dleaks mleaks d
              | (_, r) => fails d r
              end
          | r => fails d r
          end
      | (_, r) => fails d r
      end
  | r => fails d r
  end.
(** The mappings. *)
Definition check_mappings (sb : thin_sb) (thins : list (N * (N * device_detail)))
    (thins_snap : res (list (N * (N * device_detail)))) (roots : list N) (msm : wsm) (d : disk) : disk * res unit :=
  match create_data_sm sb (if o_metadata_snap o then 1 else nlen roots mod W32) with
  | Ok dsm =>
      match smroot_unpack (ts_metadata_sm_root sb) with
      | Ok _ =>
          match check_mappings_bottom_level nr (dev d) (o_ignore_non_fatal o) fuel order roots msm dsm with
          | (msm, dsm, Ok ss) =>
              match check_mapped_blocks thins ss with
              | Ok _ =>
                  match thins_snap with
                  | Ok ts =>
                      match check_mapped_blocks ts ss with
                      | Ok _ => if o_metadata_snap o then (d, Ok tt) else check_space_maps sb dsm msm d
                      | r => fails d r
                      end
                  | r => fails d r
                  end
              | r => fails d r
              end
          | (_, _, r) => fails d r
          end
      | r => fails d r
      end
  | r => fails d r
  end.
(** check (:1060-1290).  print_info's errors are ignored. *)
Definition thin_check (d : disk) : disk * res unit :=
  if (o_auto_repair o || o_clear_needs_check o) &&
     (o_metadata_snap o || match o_mapping_root o with Some _ => true | None => false end
                        || match o_details_root o with Some _ => true | None => false end) then (d, Err) else
  match read_sb (dev d) 0 with
  | Ok sb =>
      let sb := mktsb (ts_needs_check sb) (ts_block sb) (ts_version sb) (ts_time sb) (ts_transaction_id sb) (ts_metadata_snap sb)
                  (ts_data_sm_root sb) (ts_metadata_sm_root sb)
                  (match o_mapping_root o with Some r => r | None => ts_mapping_root sb end)
                  (match o_details_root o with Some r => r | None => ts_details_root sb end)
                  (ts_data_block_size sb) (ts_nr_metadata_blocks sb) in
      let snap := if 0 <? ts_metadata_snap sb then Some (read_sb (dev d) (ts_metadata_snap sb)) else None in
      if o_metadata_snap o && match snap with Some (Ok _) => false | _ => true end then (d, Err) else
      if o_sb_only o then (if o_clear_needs_check o then done (clear_flag d) else (d, Ok tt)) else
      match (if o_metadata_snap o then Ok (WRestricted (rsm_new nr))
             else sm <- create_metadata_sm (dev d) sb snap ;; Ok (WCore sm)) with
      | Ok msm =>
          match inc_superblock msm (ts_metadata_snap sb) with
          | (msm, Ok _) =>
              match (if o_metadata_snap o then (msm, Ok ([], [])) else get_thins (dev d) sb msm) with
              | (msm, Ok (thins, roots)) =>
                  let '(msm, x) :=
                    match snap with
                    | Some (Ok sbs) => get_thins_snap (dev d) sbs thins msm
                    | Some r => (msm, match r with Panic => Panic | _ => Err end)
                    | None => (msm, Ok ([], []))
                    end in
                  match x with
                  | Panic => (d, Panic)
                  | _ =>
                      let all_roots := roots ++ match x with Ok (_, rs) => rs | _ => [] end in
                      let thins_snap := match x with Ok (ts, _) => Ok ts | _ => Err end in
                      if o_skip_mappings o then done (clear_flag d)
                      else check_mappings sb thins thins_snap all_roots msm d
                  end
              | (_, r) => fails d r
              end
          | (_, r) => fails d r
          end
      | r => fails d r
      end
  | r => fails d r
  end.
End Check.
