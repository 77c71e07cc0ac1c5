(** thin/ls.rs: thin_ls. *)
From Verif Require Import Base Csum_Model Codec_Model SpaceMap_Model Utils_Model Walker_Model Repair_Model ThinCheck_Model Writeback_Model Dump_Model.

(** ** Summaries *)
(** NodeSummary (:232-240); nr_entries and nr_errors are u8 *)
Record lsum := mkls { ls_low : N; ls_high : N; ls_nr : N; ls_shared : N; ls_entries : N; ls_errors : N }.
Definition lsum_default : lsum := mkls 0 0 0 0 0 0.
Definition lsum_error : lsum := mkls 0 0 0 0 0 1.                             (* :262-271 *)
(** from_leaf (:243-260) *)
Definition lsum_leaf (ks : list N) (nr_shared : N) : lsum :=
  mkls (match ks with [] => 0 | k :: _ => k end) (last ks 0) (nlen ks) nr_shared (nlen ks mod 256) 0.
(** append (:273-290): None when the keys overlap, and then nothing has been changed *)
Definition lsum_append (s c : lsum) : option lsum :=
  let finish low high := Some (mkls low high ((ls_nr s + ls_nr c) mod W64) ((ls_shared s + ls_shared c) mod W64)
                                 ((ls_entries s + 1) mod 256) (N.min (ls_errors s + ls_errors c) 255)) in
  if ls_nr s =? 0 then finish (ls_low c) (ls_high c)
  else if 0 <? ls_nr c then (if ls_low c <=? ls_high s then None else finish (ls_low s) (ls_high c))
  else finish (ls_low s) (ls_high s).

(** The NodeMap (:303-404) is that of thin/check.rs: Utils_Model, and nmap of ThinCheck_Model. *)

(** inc and get of RestrictedTwoSpaceMap (space_map/base.rs:324-334, 363-381), here with the
    panic of FixedBitSet::insert past the end; get gives 0 there. *)
Definition two_inc (s : tsm) (b : N) : res tsm := if b <? t_nr s then Ok (tsm_inc1 s b) else Panic.
Definition two_get (s : tsm) (b : N) : N := if b <? t_nr s then tsm_get s b else 0.

Section Read.
Context (nr : N) (eng : N -> option (list N)) (ignore_non_fatal : bool).

(** The metadata map and the node map; errors of the insertions are ignored. *)
Definition lst2 : Type := tsm * nmap.
Definition lins (s : lst2) (r : res nmap) : res lst2 :=
  match r with Ok n => Ok (fst s, n) | Err => Ok s | Panic => Panic end.
(** is_seen (:408-412) *)
Definition ls_seen (loc : N) (sm : tsm) : res (tsm * bool) :=
  sm <- two_inc sm loc ;; Ok (sm, 1 <? two_get sm loc).

(** read_node_ (:415-480), the loop that filters out the visited children (:440-453) *)
Fixpoint ls_new_children (last_level : bool) (vs : list N) (s : lst2) : res (lst2 * list N) :=
  match vs with
  | [] => Ok (s, [])
  | v :: vs =>
      let u := v mod W32 in
      ' (sm, seen) <- ls_seen u (fst s) ;;
      let s := (sm, snd s) in
      let keep := negb seen ||
        match nm_get_type (snd s) u with NTLeaf => negb last_level | NTNone => last_level | _ => false end in
      ' (s, l) <- ls_new_children last_level vs s ;;
      Ok (s, if keep then v :: l else l)
  end.
Fixpoint ls_insert_leaves (vs : list N) (s : lst2) : res lst2 :=
  match vs with
  | [] => Ok s
  | v :: vs => s <- lins s (nm_insert_leaf (snd s) (v mod W32)) ;; ls_insert_leaves vs s
  end.
(** read_node_ (:415-480) and read_node (:485-494).  A failed read_many has the same effect as
    the failure of each of its blocks. *)
Fixpoint ls_read_node (depth : nat) (b : N) (data : list N) (s : lst2) : res lst2 :=
  match check_and_unpack_node u64_codec (mkblock b data) ignore_non_fatal true with
  | Err => lins s (nm_insert_error (snd s) (b mod W32) tt)
  | Panic => Panic
  | Ok (Leaf _ _ _) => Ok s
  | Ok (Internal _ keys values) =>
      s <- lins s (nm_insert_internal (snd s) (b mod W32) (keys, map (fun v => v mod W32) values)) ;;
      match depth with
      | O => ' (s, vs) <- ls_new_children true values s ;; ls_insert_leaves vs s
      | S depth =>
          ' (s, vs) <- ls_new_children false values s ;;
          (fix go (vs : list N) (s : lst2) : res lst2 :=
             match vs with
             | [] => Ok s
             | v :: vs =>
                 s <- match eng v with
                      | Some data => ls_read_node depth v data s
                      | None => lins s (nm_insert_error (snd s) (v mod W32) tt)
                      end ;;
                 go vs s
             end) vs s
      end
  end.
(** read_internal_nodes (:528-562); get_depth (:498-526) is that of thin/check.rs *)
Definition ls_read_internal (root : N) (s : lst2) : res lst2 :=
  ' (sm, seen) <- ls_seen root (fst s) ;;
  let s := (sm, snd s) in
  if seen then Ok s else
  match get_depth eng (S (S (N.to_nat nr))) [] root true with
  | None => Ok s
  | Some O => lins s (nm_insert_leaf (snd s) root)
  | Some (S depth) =>
      match eng root with
      | Some data => ls_read_node depth root data s
      | None => lins s (nm_insert_error (snd s) root tt)
      end
  end.
(** collect_nodes_in_use (:564-577) *)
Fixpoint ls_read_roots (roots : list N) (s : lst2) : res lst2 :=
  match roots with
  | [] => Ok s
  | r :: rs => s <- ls_read_internal (r mod W32) s ;; ls_read_roots rs s
  end.
Definition ls_collect (roots : list N) (sm : tsm) : res lst2 := ls_read_roots roots (sm, nm_new (nr mod W32)).

(** The summaries, by block: HashVec is a map (C53). *)
Definition lsums := N -> option lsum.

(** summarize_tree (:583-667).  The path is for error messages.  [fuel] bounds the depth of the
    recursion; None: it has run out. *)
Section Summarize.
Context (nodes : nmap) (msm : tsm).
Section Children.
Context (rec : key_range -> N -> lsums -> option (lsums * lsum)).
Fixpoint ls_children (krs : list key_range) (bs : list N) (acc : lsum) (ss : lsums) : option (lsums * lsum) :=
  match krs, bs with
  | kr :: krs, b :: bs =>
      match rec kr b ss with
      | None => None
      | Some (ss, c) => ls_children krs bs (match lsum_append acc c with Some acc' => acc' | None => acc end) ss
      end
  | _, _ => Some (ss, acc)
  end.
End Children.
Fixpoint ls_summarize (fuel : nat) (is_root : bool) (kr : key_range) (root : N) (ss : lsums) : option (lsums * lsum) :=
  match fuel with
  | O => None
  | S fuel =>
      match ss root with
      | Some sum =>
          Some (ss,
            if negb ignore_non_fatal && negb is_root && (ls_entries sum <? MIN_ENTRIES) then lsum_error
            else if (0 <? ls_nr sum) &&
                    (match kr_start kr with Some n => ls_low sum <? n | None => false end ||
                     match kr_end kr with Some n => n <? ls_high sum | None => false end) then lsum_error
            else sum)
      | None =>
          match nm_get_type nodes root with
          | NTInternal =>
              match hv_get (nm_info nodes) root with
              | Ok (Some (keys, children)) =>
                  if negb ignore_non_fatal && negb is_root && (nlen keys <? MIN_ENTRIES) then Some (ss, lsum_error)
                  else match split_key_ranges kr keys with
                       | Ok krs =>
                           match ls_children (ls_summarize fuel false) krs children lsum_default ss with
                           | None => None
                           | Some (ss, sum) =>
                               let sum := if 1 <? two_get msm root
                                          then mkls (ls_low sum) (ls_high sum) (ls_nr sum) (ls_nr sum) (ls_entries sum) (ls_errors sum)
                                          else sum in
                               Some (upd ss root (Some sum), sum)
                           end
                       | _ => Some (ss, lsum_error)
                       end
              | _ => Some (ss, lsum_error)
              end
          | _ => Some (ss, lsum_error)
          end
      end
  end.
(** count_mapped_blocks (:669-692) *)
Fixpoint ls_count (fuel : nat) (roots : list N) (ss : lsums) : option lsums :=
  match roots with
  | [] => Some ss
  | r :: rs => match ls_summarize fuel true full_range (r mod W32) ss with
               | None => None
               | Some (ss, _) => ls_count fuel rs ss
               end
  end.
End Summarize.

(** One leaf going through unpacker (:696-739) and summariser (:741-786); see read_leaf in
    ThinCheck_Model for what is left out. *)
Definition llst : Type := nmap * tsm * lsums.
Fixpoint ls_inc_data (vs : list block_time) (dsm : tsm) : res tsm :=
  match vs with [] => Ok dsm | v :: vs => dsm <- two_inc dsm (bt_block v) ;; ls_inc_data vs dsm end.
Definition ls_leaf (msm : tsm) (b : N) (s : llst) : res llst :=
  let '(nodes, dsm, ss) := s in
  match eng b with
  | None => Ok s
  | Some data =>
      match check_and_unpack_node bt_codec (mkblock b data) ignore_non_fatal true with
      | Ok (Leaf h ks vs) =>
          dsm <- ls_inc_data vs dsm ;;
          Ok (nodes, dsm, if 1 <? two_get msm (nh_block h) then upd ss (nh_block h mod W32) (Some (lsum_leaf ks (nlen ks))) else ss)
      | Ok (Internal _ _ _) => Ok s
      | Err => match nm_insert_error nodes (b mod W32) tt with Ok nodes => Ok (nodes, dsm, ss) | Err => Ok s | Panic => Panic end
      | Panic => Panic
      end
  end.
(** The same with exclusive_leaves_summariser (:788-834) *)
Definition ls_excl_leaf (msm : tsm) (b : N) (s : llst) : res llst :=
  let '(nodes, dsm, ss) := s in
  match eng b with
  | None => Ok s
  | Some data =>
      match check_and_unpack_node bt_codec (mkblock b data) ignore_non_fatal true with
      | Ok (Leaf h ks vs) =>
          Ok (nodes, dsm,
              if two_get msm (nh_block h) =? 1
              then upd ss (nh_block h mod W32) (Some (lsum_leaf ks (nlen (filter (fun v => 1 <? two_get dsm (bt_block v)) vs))))
              else ss)
      | Ok (Internal _ _ _) => Ok s
      | Err => match nm_insert_error nodes (b mod W32) tt with Ok nodes => Ok (nodes, dsm, ss) | Err => Ok s | Panic => Panic end
      | Panic => Panic
      end
  end.
Fixpoint ls_leaves (f : N -> llst -> res llst) (order : list N) (s : llst) : res llst :=
  match order with [] => Ok s | b :: r => s <- f b s ;; ls_leaves f r s end.

(** read_leaf_nodes (:836-929), read_exclusive_leaves (:931-1026) and count_data_mappings_
    (:1030-1079).  [order1] and [order2] are how the threads happen to deliver the leaves. *)
Definition count_data_mappings_ (fuel : nat) (order1 order2 : list N -> list N) (roots : list N) (msm dsm : tsm) : res lsums :=
  ' (msm, nodes) <- ls_collect roots msm ;;
  ' (nodes, dsm, ss) <- ls_leaves (ls_leaf msm) (order1 (leaves_of nodes)) (nodes, dsm, fun _ => None) ;;
  ' (nodes, _, ss) <- ls_leaves (ls_excl_leaf msm) (order2 (filter (fun b => two_get msm b =? 1) (leaves_of nodes))) (nodes, dsm, ss) ;;
  match ls_count nodes msm fuel roots ss with Some ss => Ok ss | None => Panic end.

(** count_data_mappings (:1081-1132): the summaries of the roots, up to the first with errors;
    an error unless there is one for every root *)
Fixpoint good_sums (ss : lsums) (roots : list N) : list lsum :=
  match roots with
  | [] => []
  | r :: rs => match ss (r mod W32) with
               | Some sum => if ls_errors sum =? 0 then sum :: good_sums ss rs else []
               | None => []
               end
  end.
Definition count_data_mappings (fuel : nat) (order1 order2 : list N -> list N) (sb : thin_sb) (mapping_root : N) : res (list lsum) :=
  roots <- btree_to_value_vec u64_codec nr eng ignore_non_fatal mapping_root ;;
  ' (data_root, _) <- smroot_unpack (ts_data_sm_root sb) ;;
  ' (_, _) <- smroot_unpack (ts_metadata_sm_root sb) ;;
  ss <- count_data_mappings_ fuel order1 order2 roots (tsm_new nr) (tsm_new (sr_nr_blocks data_root)) ;;
  let l := good_sums ss roots in
  if nlen l =? nlen roots then Ok l else Err.
End Read.

(** ** The table *)
(** OutputField (:35-60): the columns with numbers; Mapped, Exclusive, Shared and HighestMapped
    are the columns in bytes pretty-printed (C51) *)
Inductive amount := AMapped | AExclusive | AShared | AHighest.
Inductive unit_of := UBlocks | USectors | UBytes.
Inductive field := FDevice | FTransaction | FCreated | FSnapped | FAmount (a : amount) (u : unit_of).
(** A row, as passed to push_row (:166-213) *)
Record row := mkrow { rw_dev : N; rw_detail : device_detail; rw_mapped : N; rw_shared : N; rw_highest : N }.
(** The number in a cell (:184-206): u64 arithmetic that wraps *)
Definition sub64 (a b : N) : N := (a + (W64 - b mod W64)) mod W64.
Definition shl9 (x : N) : N := (x * 512) mod W64.
Definition cell (bs : N) (r : row) (f : field) : N :=
  let ex := sub64 (rw_mapped r) (rw_shared r) in
  let sectors n := (n * bs) mod W64 in
  match f with
  | FDevice => rw_dev r
  | FTransaction => dd_tid (rw_detail r)
  | FCreated => dd_ctime (rw_detail r)
  | FSnapped => dd_stime (rw_detail r)
  | FAmount AHighest UBlocks => rw_highest r
  | FAmount AHighest USectors => sub64 (((rw_highest r + 1) mod W64 * bs) mod W64) 1
  | FAmount AHighest UBytes => sub64 (shl9 (((rw_highest r + 1) mod W64 * bs) mod W64)) 1
  | FAmount a u =>
      let n := match a with AMapped => rw_mapped r | AExclusive => ex | _ => rw_shared r end in
      match u with UBlocks => n | USectors => sectors n | UBytes => shl9 (sectors n) end
  end.
(** some_counting_fields (:1158-1173) *)
Definition counting (fs : list field) : bool := existsb (fun f => match f with FAmount _ _ => true | _ => false end) fs.

(** ls (:1175-1221): the rows, and the block size the cells are computed with *)
Definition thin_ls (nr : N) (eng : N -> option (list N)) (fuel : nat) (order1 order2 : list N -> list N) (use_snap : bool) (fs : list field)
  : res (N * list row) :=
  sb <- (if use_snap then read_sb_snap eng else read_sb eng 0) ;;
  if negb (devices_identical nr eng false (ts_mapping_root sb) (ts_details_root sb)) then Err else
  details <- btree_to_map dd_codec nr eng false (ts_details_root sb) ;;
  if counting fs then
    actual <- read_sb eng 0 ;;
    mapped <- count_data_mappings nr eng false fuel order1 order2 actual (ts_mapping_root sb) ;;
    Ok (ts_data_block_size sb,
        map (fun x => mkrow (fst (fst x)) (snd (fst x)) (ls_nr (snd x)) (ls_shared (snd x)) (ls_high (snd x))) (combine details mapped))
  else Ok (ts_data_block_size sb, map (fun d => mkrow (fst d) (snd d) 0 0 0) details).
