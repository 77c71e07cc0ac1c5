(** What a space map on a device says, independently of how it is written. *)
From Verif Require Import Base Csum_Model Codec_Model SpaceMap_Model Batcher_Model Builder_Model Builder_Spec.

(** Block [b] is a valid bitmap block with the given entries; it always has 16320, the
    missing ones are free. *)
Definition bitmap_at (d : disk) (b : N) (es : list bitmap_entry) : Prop :=
  bytes (d b) /\ nlen (d b) = 4096 /\ metadata_block_type (d b) = BITMAP /\
  exists rest, bitmap_unpack (d b) = Ok (mkbitmap b (es ++ repeat (Small 0) (N.to_nat 16320 - length es)), rest).

(** The two bits for a reference count. *)
Definition entry_for (count : N) : bitmap_entry := if count <? 3 then Small count else Overflow.

(** The blocks in use among the [len] blocks from [begin]. *)
Definition used_in (counts : N -> N) (begin len : N) : N :=
  nlen (filter (fun i => negb (counts (begin + i) =? 0)) (range 0 len)).

(** Index entry [ie] describes the blocks [bm * 16320 ..] of a device of [nr] blocks with
    these counts: right bitmap, right number of free entries (a bitmap has 16320), and no
    free block before none_free_before (which is then the first free one, if any). *)
Definition bitmap_len (nr bm : N) : N := N.min (nr - bm * 16320) 16320.
Definition describes (d : disk) (counts : N -> N) (nr bm : N) (ie : index_entry) : Prop :=
  let begin := bm * 16320 in
  let len := bitmap_len nr bm in
  bitmap_at d (ie_blocknr ie) (map (fun i => entry_for (counts (begin + i))) (range 0 len)) /\
  ie_nr_free ie + used_in counts begin len = 16320 /\
  (forall i, i < ie_none_free_before ie -> i < len -> counts (begin + i) <> 0).
Definition first_free (counts : N -> N) (nr bm : N) (ie : index_entry) : Prop :=
  let begin := bm * 16320 in
  let len := bitmap_len nr bm in
  ie_none_free_before ie <= len /\
  (ie_none_free_before ie < len -> counts (begin + ie_none_free_before ie) = 0).

(** The entries of the reference count tree: exactly the counts above 2. *)
Definition big_counts (counts : N -> N) (lo hi : N) : list (N * N) :=
  map (fun b => (b, counts b)) (filter (fun b => 3 <=? counts b) (range lo hi)).

(** What a reader makes of one entry; [counts_root] is the reference count tree. *)
Definition entry_count (fuel : nat) (d : disk) (counts_root : N) (blk : list N) (b : N) : res (option N) :=
  ' (bm, _) <- bitmap_unpack blk ;;
  match nth_error (bm_entries bm) (N.to_nat (b mod 16320)) with
  | Some (Small c) => Ok (Some c)
  | Some Overflow => btree_lookup fuel u32_codec d true counts_root b
  | None => Ok None
  end.
(** The count of block [b] as the kernel reads it from a data space map (dm-space-map-disk.c):
    index entry of its bitmap, the two bits, and the reference count tree for large counts. *)
Definition disk_count (fuel : nat) (d : disk) (r : sm_root) (b : N) : res (option N) :=
  if sr_nr_blocks r <=? b then Err
  else
    o <- btree_lookup fuel ie_codec d true (sr_bitmap_root r) (b / 16320) ;;
    match o with
    | None => Ok None
    | Some ie => match metadata_block_type (d (ie_blocknr ie)) with
                 | BITMAP => entry_count fuel d (sr_ref_count_root r) (d (ie_blocknr ie)) b
                 | _ => Err
                 end
    end.
