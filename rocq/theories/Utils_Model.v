(** Model of the small utilities: run iteration, HashVec, the node map of
    thin_check/thin_ls, key ranges, size units and size estimates. *)
From Coq Require Import String Ascii.
From Verif Require Import Base Csum_Model Codec_Model.
Import ListNotations.
Open Scope N_scope.

(** ** src/run_iter.rs:6-20  struct RunIter and new.  The RoaringBitmap is its
    membership function. *)
Record run_iter := mkri { ri_len : N; ri_current : N; ri_bits : N -> bool }.

Definition ri_new (bits : N -> bool) (len : N) : run_iter := mkri len 0 bits.

(** src/run_iter.rs:32-34  the while loop: at most [fuel] = len - current steps,
    which is when its condition turns false anyway. *)
Fixpoint ri_extend (bits : N -> bool) (len : N) (b : bool) (fuel : nat) (cur : N) : N :=
  match fuel with
  | O => cur
  | S f => if (cur <? len) && Bool.eqb (bits cur) b
           then ri_extend bits len b f (cur + 1) else cur
  end.

(** src/run_iter.rs:25-37  next *)
Definition ri_next (r : run_iter) : option ((bool * (N * N)) * run_iter) :=
  if ri_current r =? ri_len r then None
  else
    let b := ri_bits r (ri_current r) in
    let start := ri_current r in
    let cur := ri_extend (ri_bits r) (ri_len r) b
                 (N.to_nat (ri_len r - (start + 1))) (start + 1) in
    Some ((b, (start, cur)), mkri (ri_len r) cur (ri_bits r)).

(** Iterator::collect: call next until None (the number of calls is bounded
    by [fuel]; [ri_collect] below passes len+1). *)
Fixpoint ri_collect_ (fuel : nat) (r : run_iter) : list (bool * (N * N)) :=
  match fuel with
  | O => []
  | S f => match ri_next r with
           | None => []
           | Some (x, r') => x :: ri_collect_ f r'
           end
  end.
Definition ri_collect (bits : N -> bool) (len : N) : list (bool * (N * N)) :=
  ri_collect_ (S (N.to_nat len)) (ri_new bits len).

(** ** src/utils/hashvec.rs:7-65  HashVec.  The HashMap is a partial function. *)
Record hashvec (T : Type) := mkhv { hv_map : N -> option N; hv_entries : list T }.
Arguments mkhv {T}. Arguments hv_map {T}. Arguments hv_entries {T}.

Definition hv_new {T} : hashvec T := mkhv (fun _ => None) [].

(** Vec index assignment; panics when out of range. *)
Definition vec_set {T} (l : list T) (i : N) (v : T) : res (list T) :=
  if i <? nlen l
  then Ok (firstn (N.to_nat i) l ++ v :: skipn (S (N.to_nat i)) l)
  else Panic.

Definition vec_get {T} (l : list T) (i : N) : res T :=
  match nth_error l (N.to_nat i) with Some v => Ok v | None => Panic end.

(** src/utils/hashvec.rs:34-44  insert *)
Definition hv_insert {T} (h : hashvec T) (k : N) (v : T) : res (hashvec T) :=
  match hv_map h k with
  | Some e => es <- vec_set (hv_entries h) e v ;; Ok (mkhv (hv_map h) es)
  | None =>
      let es := hv_entries h ++ [v] in
      let i := (nlen es - 1) mod W32 in
      Ok (mkhv (fun k' => if k' =? k then Some i else hv_map h k') es)
  end.

(** src/utils/hashvec.rs:46-48  get *)
Definition hv_get {T} (h : hashvec T) (k : N) : res (option T) :=
  match hv_map h k with
  | None => Ok None
  | Some i => v <- vec_get (hv_entries h) i ;; Ok (Some v)
  end.

(** src/utils/hashvec.rs:50-52  len *)
Definition hv_len {T} (h : hashvec T) : N := nlen (hv_entries h).

(** ** src/thin/check.rs:141-241 (= src/thin/ls.rs:304-404)  NodeMap *)
Inductive node_type := NTNone | NTInternal | NTLeaf | NTError.

(** FixedBitSet: a membership function and a capacity. contains is false and
    insert/toggle panic beyond the capacity. *)
Record bitset := mkbs { bs_cap : N; bs_bits : N -> bool }.
Definition bs_contains (b : bitset) (i : N) : bool := (i <? bs_cap b) && bs_bits b i.
Definition bs_insert (b : bitset) (i : N) : res bitset :=
  if i <? bs_cap b then Ok (mkbs (bs_cap b) (fun j => if j =? i then true else bs_bits b j))
  else Panic.
Definition bs_toggle (b : bitset) (i : N) : res bitset :=
  if i <? bs_cap b then Ok (mkbs (bs_cap b) (fun j => if j =? i then negb (bs_bits b j) else bs_bits b j))
  else Panic.

Section NodeMap.
Context {Info Er : Type}.

Record node_map := mknm {
  nm_type : bitset; nm_leaves : bitset; nm_nr_leaves : N;
  nm_info : hashvec Info; nm_errors : hashvec Er }.

(** check.rs:154-163  new *)
Definition nm_new (nr_blocks : N) : node_map :=
  mknm (mkbs (nr_blocks * 2) (fun _ => false)) (mkbs nr_blocks (fun _ => false)) 0 hv_new hv_new.

(** check.rs:165-178  get_type *)
Definition nm_get_type (m : node_map) (b : N) : node_type :=
  let lsb := bs_contains (nm_type m) (b * 2) in
  let msb := bs_contains (nm_type m) (b * 2 + 1) in
  if negb lsb && msb then NTError
  else if lsb && negb msb then NTLeaf
  else if lsb && msb then NTInternal
  else NTNone.

(** check.rs:180-208  set_type_.  nr_leaves is a u32 with wrapping arithmetic. *)
Definition nm_set_type (m : node_map) (b : N) (t : node_type) : res node_map :=
  match t with
  | NTLeaf =>
      ty <- bs_insert (nm_type m) (b * 2) ;;
      lf <- bs_insert (nm_leaves m) b ;;
      Ok (mknm ty lf ((nm_nr_leaves m + 1) mod W32) (nm_info m) (nm_errors m))
  | NTInternal =>
      ty <- bs_insert (nm_type m) (b * 2) ;;
      ty <- bs_insert ty (b * 2 + 1) ;;
      if bs_contains (nm_leaves m) b then
        lf <- bs_toggle (nm_leaves m) b ;;
        Ok (mknm ty lf ((nm_nr_leaves m + (W32 - 1)) mod W32) (nm_info m) (nm_errors m))
      else Ok (mknm ty (nm_leaves m) (nm_nr_leaves m) (nm_info m) (nm_errors m))
  | NTError =>
      ty <- bs_insert (nm_type m) (b * 2 + 1) ;;
      if bs_contains (nm_leaves m) b then
        ty <- bs_toggle ty (b * 2) ;;
        lf <- bs_toggle (nm_leaves m) b ;;
        Ok (mknm ty lf ((nm_nr_leaves m + (W32 - 1)) mod W32) (nm_info m) (nm_errors m))
      else Ok (mknm ty (nm_leaves m) (nm_nr_leaves m) (nm_info m) (nm_errors m))
  | NTNone => Ok m
  end.

(** check.rs:210-219  insert_internal_node *)
Definition nm_insert_internal (m : node_map) (b : N) (i : Info) : res node_map :=
  match nm_get_type m b with
  | NTNone | NTLeaf =>
      info <- hv_insert (nm_info m) b i ;;
      nm_set_type (mknm (nm_type m) (nm_leaves m) (nm_nr_leaves m) info (nm_errors m)) b NTInternal
  | _ => Err
  end.

(** check.rs:221-228  insert_leaf *)
Definition nm_insert_leaf (m : node_map) (b : N) : res node_map :=
  match nm_get_type m b with
  | NTNone => nm_set_type m b NTLeaf
  | _ => Err
  end.

(** check.rs:230-239  insert_error *)
Definition nm_insert_error (m : node_map) (b : N) (e : Er) : res node_map :=
  match nm_get_type m b with
  | NTNone | NTLeaf =>
      errs <- hv_insert (nm_errors m) b e ;;
      nm_set_type (mknm (nm_type m) (nm_leaves m) (nm_nr_leaves m) (nm_info m) errs) b NTError
  | _ => Err
  end.

(** check.rs:242-244  len (u32 arithmetic) *)
Definition nm_len (m : node_map) : N :=
  (hv_len (nm_info m) mod W32 + nm_nr_leaves m) mod W32.
End NodeMap.
Arguments node_map : clear implicits.

(** ** src/pdata/btree_error.rs:12-106  KeyRange and split *)
Record key_range := mkkr { kr_start : option N; kr_end : option N }.

Definition kr_split (kr : key_range) (n : N) : option (key_range * key_range) :=
  match kr_start kr, kr_end kr with
  | None, None => Some (mkkr None (Some n), mkkr (Some n) None)
  | None, Some e =>
      if n <? e then Some (mkkr None (Some n), mkkr (Some n) (Some e)) else None
  | Some s, None =>
      if s <? n then Some (mkkr (Some s) (Some n), mkkr (Some n) None) else None
  | Some s, Some e =>
      if (s <? n) && (n <? e)
      then Some (mkkr (Some s) (Some n), mkkr (Some n) (Some e)) else None
  end.

(** btree_error.rs:188-196  split_one *)
Definition split_one (kr : key_range) (k : N) : res (key_range * key_range) :=
  match kr_split kr k with None => Err | Some p => Ok p end.

(** btree_error.rs:211-217  the loop over the keys after the first *)
Fixpoint split_loop (kr : key_range) (ks : list N) : res (list key_range) :=
  match ks with
  | [] => Ok [kr]
  | k :: r => ' (a, rest) <- split_one kr k ;; l <- split_loop rest r ;; Ok (a :: l)
  end.

(** btree_error.rs:198-220  split_key_ranges *)
Definition split_key_ranges (kr : key_range) (keys : list N) : res (list key_range) :=
  match keys with
  | [] => Err
  | k0 :: r => split_loop (mkkr (Some k0) (kr_end kr)) r
  end.

(** ** src/units.rs *)
(** units.rs:7-22 *)
Inductive units :=
| Byte | Sector
| Kilobyte | Megabyte | Gigabyte | Terabyte | Petabyte | Exabyte
| Kibibyte | Mebibyte | Gibibyte | Tebibyte | Pebibyte | Exbibyte.

(** units.rs:25-46  Units::size_bytes *)
Definition unit_bytes (u : units) : N :=
  match u with
  | Byte => 1
  | Sector => 512
  | Kibibyte => 1024
  | Mebibyte => 1048576
  | Gibibyte => 1073741824
  | Tebibyte => 1099511627776
  | Pebibyte => 1125899906842624
  | Exbibyte => 1152921504606846976
  | Kilobyte => 1000
  | Megabyte => 1000000
  | Gigabyte => 1000000000
  | Terabyte => 1000000000000
  | Petabyte => 1000000000000000
  | Exabyte => 1000000000000000000
  end.

Local Open Scope string_scope.
(** units.rs:48-70  to_string_short *)
Definition to_string_short (u : units) : string :=
  match u with
  | Byte => "b" | Sector => "s"
  | Kibibyte => "KiB" | Mebibyte => "MiB" | Gibibyte => "GiB"
  | Tebibyte => "Tib" | Pebibyte => "PiB" | Exbibyte => "EiB"
  | Kilobyte => "kB" | Megabyte => "MB" | Gigabyte => "GB"
  | Terabyte => "TB" | Petabyte => "PB" | Exabyte => "EB"
  end.

(** units.rs:72-95  to_letter *)
Definition to_letter (u : units) : string :=
  match u with
  | Byte => "b" | Sector => "s"
  | Kibibyte => "k" | Mebibyte => "m" | Gibibyte => "g"
  | Tebibyte => "t" | Pebibyte => "p" | Exbibyte => "e"
  | Kilobyte => "K" | Megabyte => "M" | Gigabyte => "G"
  | Terabyte => "T" | Petabyte => "P" | Exabyte => "E"
  end.

(** units.rs:124-150  Display for Units *)
Definition unit_display (u : units) : string :=
  match u with
  | Byte => "byte" | Sector => "sector"
  | Kibibyte => "kibibyte" | Mebibyte => "mebibyte" | Gibibyte => "gibibyte"
  | Tebibyte => "terabyte" | Pebibyte => "pebibyte" | Exbibyte => "exbibyte"
  | Kilobyte => "kilobyte" | Megabyte => "megabyte" | Gigabyte => "gigabyte"
  | Terabyte => "terabyte" | Petabyte => "petabyte" | Exabyte => "exabyte"
  end.

(** units.rs:98-122  FromStr for Units: the match arms in order *)
Definition unit_arms : list (list string * units) :=
  [ (["byte"; "b"], Byte); (["sector"; "s"], Sector);
    (["kibibyte"; "KiB"; "k"], Kibibyte); (["mebibyte"; "MiB"; "m"], Mebibyte);
    (["gibibyte"; "GiB"; "g"], Gibibyte); (["tebibyte"; "TiB"; "t"], Tebibyte);
    (["pebibyte"; "PiB"; "p"], Pebibyte); (["exbibyte"; "EiB"; "e"], Exbibyte);
    (["kilobyte"; "kB"; "K"], Kilobyte); (["megabyte"; "MB"; "M"], Megabyte);
    (["gigabyte"; "GB"; "G"], Gigabyte); (["terabyte"; "TB"; "T"], Terabyte);
    (["petabyte"; "PB"; "P"], Petabyte); (["exabyte"; "EB"; "E"], Exabyte) ].

Fixpoint unit_match (arms : list (list string * units)) (s : string) : res units :=
  match arms with
  | [] => Err
  | (pats, u) :: r => if existsb (String.eqb s) pats then Ok u else unit_match r s
  end.
Definition unit_from_str (s : string) : res units := unit_match unit_arms s.
Local Close Scope string_scope.

(** units.rs:158-171  StorageSize::new *)
Record storage_size := mkss { ss_multiple : N; ss_unit : units }.
Definition ss_new (m : N) (u : units) : res storage_size :=
  if (W64 - 1) / unit_bytes u <? m then Err else Ok (mkss m u).

(** units.rs:205-207  size_bytes (u64, wrapping) *)
Definition ss_size_bytes (s : storage_size) : N :=
  (ss_multiple s * unit_bytes (ss_unit s)) mod W64.

(** char::is_ascii_digit *)
Definition digit_of (c : ascii) : option N :=
  let n := N_of_ascii c in if (48 <=? n) && (n <=? 57) then Some (n - 48) else None.

(** str::parse::<u64> on a run of ASCII digits (the only strings passed to it):
    error when empty, checked multiplication and addition. *)
Fixpoint parse_digits (acc : N) (s : string) : res N :=
  match s with
  | EmptyString => Ok acc
  | String c r =>
      match digit_of c with
      | None => Err
      | Some d => if acc * 10 + d <? W64 then parse_digits (acc * 10 + d) r else Err
      end
  end.
Definition parse_u64 (s : string) : res N :=
  match s with EmptyString => Err | _ => parse_digits 0 s end.

(** str::find of the first non-digit, and the two slices around it *)
Fixpoint split_digits (s : string) : string * string :=
  match s with
  | EmptyString => (EmptyString, EmptyString)
  | String c r =>
      match digit_of c with
      | Some _ => let '(a, b) := split_digits r in (String c a, b)
      | None => (EmptyString, s)
      end
  end.

(** units.rs:210-223  FromStr for StorageSize *)
Definition ss_from_str (s : string) : res storage_size :=
  match split_digits s with
  | (d, EmptyString) => m <- parse_u64 d ;; ss_new m Sector
  | (d, u) => m <- parse_u64 d ;; u <- unit_from_str u ;; ss_new m u
  end.

(** u64's Display: decimal without leading zeros *)
Definition digit_char (d : N) : ascii := ascii_of_N (48 + d).
Fixpoint dec_loop (fuel : nat) (n : N) (acc : string) : string :=
  let acc := String (digit_char (n mod 10)) acc in
  match fuel with
  | O => acc
  | S f => if n <? 10 then acc else dec_loop f (n / 10) acc
  end.
Definition dec_display (n : N) : string := dec_loop (N.to_nat (N.log2 n)) n EmptyString.

(** units.rs:225-229  Display for StorageSize *)
Definition ss_display (s : storage_size) : string :=
  append (dec_display (ss_multiple s)) (to_string_short (ss_unit s)).

(** units.rs:237-259  to_pretty_print_size.  63 - leading_zeros is log2.  The
    f64 division and round: the operand is below 2^20, so the division by 1024
    is exact and round (half away from zero) is (m + 512) / 1024. *)
Definition pretty_units : list units :=
  [Byte; Kibibyte; Mebibyte; Gibibyte; Tebibyte; Pebibyte; Exbibyte].
Definition to_pretty_print_size (bytes : N) : res (N * units) :=
  let i := if 0 <? bytes then N.log2 bytes / 10 - 1 else 0 in
  let multiple := N.shiftr bytes (10 * i) in
  let '(multiple, i) :=
    if 8192 <? multiple then ((multiple + 512) / 1024, i + 1) else (multiple, i) in
  match nth_error pretty_units (N.to_nat i) with
  | Some u => Ok (multiple, u)
  | None => Panic
  end.

(** ** src/thin/metadata_size.rs *)
(** space_map/metadata.rs:17-18 MAX_METADATA_BLOCKS *)
Definition MAX_METADATA_BLOCKS : N := 255 * 16320.

(** thin/metadata_size.rs:19-29  check_data_block_size *)
Definition check_data_block_size (bs : N) : res unit :=
  if (bs =? 0) || negb (N.land bs (65536 - 1) =? 0) then Err
  else if 1073741824 <? bs then Err else Ok tt.

(** math.rs:5-10 div_up on u64 (wrapping addition) *)
Definition div_up_u64 (v d : N) : N := ((v + (d - 1)) mod W64) / d.

(** thin/metadata_size.rs:32-43  metadata_size; all arithmetic is u64 *)
Definition thin_metadata_size (nr_blocks max_thins : N) : N :=
  let entries_per_node := calc_max_entries bt_codec / 2 in
  let nr_leaves := div_up_u64 nr_blocks entries_per_node in
  let nr := (1 + nr_leaves + max_thins) mod W64 in
  let nr := N.min nr MAX_METADATA_BLOCKS in
  (nr * 4096) mod W64.

(** commands/thin_metadata_size.rs:134-147  from sizes to options *)
Definition thin_size_options (pool_size block_size max_thins : N) : res (N * N) :=
  _ <- check_data_block_size block_size ;;
  if pool_size <? block_size then Err else Ok (pool_size / block_size, max_thins).

(** cache/metadata_size.rs:15-25  check_cache_block_size *)
Definition check_cache_block_size (bs : N) : res unit :=
  if (bs =? 0) || negb (N.land bs (32768 - 1) =? 0) then Err
  else if 1073741824 <? bs then Err else Ok tt.

(** cache/metadata_size.rs:28-41  metadata_size; all arithmetic is u64 *)
Definition cache_metadata_size (nr_blocks hint_width : N) : N :=
  let mapping_size := (N.shiftl nr_blocks 4) mod W64 in
  let hint_size := (nr_blocks * ((hint_width + 8) mod W64)) mod W64 in
  let size := (4 * 1024 * 1024 + mapping_size + hint_size) mod W64 in
  N.min size (MAX_METADATA_BLOCKS * 4096).

(** commands/cache_metadata_size.rs:122-133  number of blocks from sizes *)
Definition cache_nr_blocks (device_size block_size : N) : res N :=
  _ <- check_cache_block_size block_size ;;
  if device_size <? block_size then Err else Ok (div_up_u64 device_size block_size).
