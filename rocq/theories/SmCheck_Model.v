(** pdata/space_map/checker.rs: comparing space maps with expected counts, and repairing
    leaks. *)
From Verif Require Import Base Csum_Model Codec_Model SpaceMap_Model Utils_Model Walker_Model.

(** BitmapLeak (:17-20) *)
Record leak := mkleak { lk_first : N; lk_loc : N }.

(** OverflowChecker::visit (:36-57); sm.get(k).unwrap() panics out of range.  u32 values
    are compared in full. *)
Fixpoint overflow_visit (sm : core_sm) (kvs : list (N * N)) : res unit :=
  match kvs with
  | [] => Ok tt
  | (k, v) :: r => match sm_get sm k with
                   | Ok expected => if negb (expected =? v) then Err else overflow_visit sm r
                   | _ => Panic
                   end
  end.
Definition overflow_call (sm : core_sm) (x : wcall N) : res unit :=
  match x with CVisit _ _ _ ks vs => overflow_visit sm (combine ks vs) | _ => Ok tt end.
Definition overflow_accepts (sm : core_sm) (_ : list (wcall N)) (x : wcall N) : bool :=
  match overflow_call sm x with Ok _ => true | _ => false end.
Definition panicked (sm : core_sm) (log : list (wcall N)) : bool :=
  existsb (fun x => match overflow_call sm x with Panic => true | _ => false end) log.

(** inc_entries (:70-77): the map afterwards, also when it fails. *)
Fixpoint inc_entries (sm : core_sm) (ies : list index_entry) : core_sm * res unit :=
  match ies with
  | [] => (sm, Ok tt)
  | ie :: r => match sm_inc sm (ie_blocknr ie) 1 with
               | (sm, Ok _) => inc_entries sm r
               | (sm, e) => (sm, e)
               end
  end.

(** check_low_ref_counts (:82-174).  The state of the loop: blocknr, leaks, failed,
    contains_leak. *)
Record cst := mkcst { c_block : N; c_leaks : N; c_failed : bool; c_has : bool }.
Fixpoint check_entries (sm : core_sm) (es : list bitmap_entry) (s : cst) : res cst :=
  match es with
  | [] => Ok s
  | e :: r =>
      if sm_nr sm <=? c_block s then Ok s
      else
        expected <- sm_get sm (c_block s) ;;
        let s :=
          match e with
          | Small actual =>
              if (actual =? 1) && (expected =? 0) then mkcst (c_block s) (c_leaks s + 1) (c_failed s) true
              else if negb (actual =? expected mod 256) then mkcst (c_block s) (c_leaks s) true (c_has s)
              else s
          | Overflow => if expected <? 3 then mkcst (c_block s) (c_leaks s) true (c_has s) else s
          end in
        check_entries sm r (mkcst (c_block s + 1) (c_leaks s) (c_failed s) (c_has s))
  end.
Fixpoint check_bitmaps (eng : N -> option (list N)) (sm : core_sm) (locs : list N) (s : cst) (out : list leak)
  : res (cst * list leak) :=
  match locs with
  | [] => Ok (s, out)
  | loc :: r =>
      match eng loc with
      | None => Err
      | Some data =>
          let failed := match metadata_block_type data with BITMAP => c_failed s | _ => true end in
          ' (bm, _) <- bitmap_unpack data ;;
          s' <- check_entries sm (bm_entries bm) (mkcst (c_block s) (c_leaks s) failed false) ;;
          check_bitmaps eng sm r s' (if c_has s' then out ++ [mkleak (c_block s) loc] else out)
      end
  end.
(** The number of leaks reported, and the bitmaps that contain them. *)
Definition check_low_ref_counts (eng : N -> option (list N)) (sm : core_sm) (ies : list index_entry) : res (N * list leak) :=
  ' (s, out) <- check_bitmaps eng sm (map ie_blocknr ies) (mkcst 0 0 false false) [] ;;
  if c_failed s then Err else Ok (c_leaks s, out).

Definition core_of (s : wsm) (dflt : core_sm) : core_sm := match s with WCore s => s | WRestricted _ => dflt end.
Definition walker_on {V} (sm : core_sm) : wst V := mkwst (WCore sm) (fun _ => None) [].

(** check_disk_space_map (:213-241) with gather_disk_index_entries (:176-194); [nr]: the
    blocks of the metadata device.  new_with_sm asserts that the map has as many
    (btree_walker.rs:58-61).  The metadata map afterwards, and the result. *)
Definition check_disk_space_map (nr : N) (eng : N -> option (list N)) (ignore_non_fatal : bool) (root : sm_root)
    (disk_sm metadata_sm : core_sm) : core_sm * res (N * list leak) :=
  if negb (sm_nr metadata_sm =? nr) then (metadata_sm, Panic) else
  match walk ie_codec ignore_non_fatal eng (fun _ _ => true) [0] (sr_bitmap_root root) (walker_on metadata_sm) with
  | (s, Some _) => (core_of (w_sm s) metadata_sm, Err)
  | (s, None) =>
      let ies := map snd (collect_values (w_log s)) in
      match inc_entries (core_of (w_sm s) metadata_sm) ies with
      | (sm, Ok _) =>
          let '(s, e) := walk u32_codec ignore_non_fatal eng (overflow_accepts disk_sm) [0] (sr_ref_count_root root) (walker_on sm) in
          let sm := core_of (w_sm s) sm in
          if panicked disk_sm (w_log s) then (sm, Panic)
          else match e with
               | Some _ => (sm, Err)
               | None => (sm, check_low_ref_counts eng disk_sm ies)
               end
      | (sm, Err) => (sm, Err)
      | (sm, Panic) => (sm, Panic)
      end
  end.

(** check_metadata_space_map (:246-281) with gather_metadata_index_entries (:196-207). *)
Definition check_metadata_space_map (nr : N) (eng : N -> option (list N)) (ignore_non_fatal : bool) (root : sm_root)
    (metadata_sm : core_sm) : core_sm * res (N * list leak) :=
  if negb (sm_nr metadata_sm =? nr) then (metadata_sm, Panic) else
  match count_btree_blocks u32_codec eng false [0] (sr_ref_count_root root) metadata_sm with
  | (s, Some _) => (core_of s metadata_sm, Err)
  | (s, None) =>
      let sm := core_of s metadata_sm in
      match eng (sr_bitmap_root root) with
      | None => (sm, Err)
      | Some data =>
          match load_metadata_index (mkblock (sr_bitmap_root root) data) (sr_nr_blocks root) with
          | Ok m =>
              match sm_inc sm (sr_bitmap_root root) 1 with
              | (sm, Ok _) =>
                  match inc_entries sm (mi_indexes m) with
                  | (sm, Ok _) =>
                      let '(s, e) := walk u32_codec ignore_non_fatal eng (overflow_accepts sm) [0] (sr_ref_count_root root) (walker_new nr) in
                      if panicked sm (w_log s) then (sm, Panic)
                      else match e with
                           | Some _ => (sm, Err)
                           | None => (sm, check_low_ref_counts eng sm (mi_indexes m))
                           end
                  | (sm, Err) => (sm, Err)
                  | (sm, Panic) => (sm, Panic)
                  end
              | (sm, Err) => (sm, Err)
              | (sm, Panic) => (sm, Panic)
              end
          | Err => (sm, Err)
          | Panic => (sm, Panic)
          end
      end
  end.

(** repair_space_map (:285-338).  The entries of one bitmap, from block [b] on. *)
Fixpoint repair_entries (sm : core_sm) (b : N) (es : list bitmap_entry) : res (list bitmap_entry) :=
  match es with
  | [] => Ok []
  | e :: r =>
      if sm_nr sm <=? b then Ok es
      else
        e <- match e with
             | Small actual =>
                 expected <- sm_get sm b ;;
                 Ok (if (actual =? 1) && (expected =? 0) then Small 0 else e)
             | Overflow => Ok e
             end ;;
        r <- repair_entries sm (b + 1) r ;;
        Ok (e :: r)
  end.
(** The blocks to write. *)
Fixpoint repair_blocks (eng : N -> option (list N)) (sm : core_sm) (lks : list leak) : res (list block) :=
  match lks with
  | [] => Ok []
  | lk :: r =>
      match eng (lk_loc lk) with
      | None => Err
      | Some data =>
          ' (bm, _) <- bitmap_unpack data ;;
          es <- repair_entries sm (lk_first lk) (bm_entries bm) ;;
          packed <- bitmap_pack (mkbitmap (bm_blocknr bm) es) ;;
          data <- overwrite data packed ;;
          data <- write_checksum data BITMAP ;;
          bs <- repair_blocks eng sm r ;;
          Ok (mkblock (lk_loc lk) data :: bs)
      end
  end.
(** write_many, in order; [good b]: can block [b] be written? *)
Fixpoint write_blocks (good : N -> bool) (bs : list block) (d : disk) : disk :=
  match bs with
  | [] => d
  | b :: r => write_blocks good r (if good (b_loc b) then upd d (b_loc b) (b_data b) else d)
  end.
Definition repair_space_map (readable good : N -> bool) (sm : core_sm) (lks : list leak) (d : disk) : disk * res unit :=
  match repair_blocks (fun b => if readable b then Some (d b) else None) sm lks with
  | Ok bs => (write_blocks good bs d, if forallb (fun b => good (b_loc b)) bs then Ok tt else Err)
  | Err => (d, Err)
  | Panic => (d, Panic)
  end.
