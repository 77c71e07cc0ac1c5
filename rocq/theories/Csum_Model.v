(** Model of src/checksum.rs and of the crc32c crate's checksum function. *)
From Verif Require Import Base.

(** crc32c crate (external dependency, reflected Castagnoli polynomial
    0x82F63B78), one zero-input step of the shift register. *)
Definition crc_poly : N := 2197175160. (* 0x82F63B78 *)

Definition crc_shift (s : N) : N :=
  if N.odd s then N.lxor (N.div2 s) crc_poly else N.div2 s.

Fixpoint iterN {A} (n : nat) (f : A -> A) (x : A) : A :=
  match n with O => x | S n' => iterN n' f (f x) end.

(** One byte: xor into the low bits and shift 8 times. *)
Definition crc_byte (s b : N) : N := iterN 8 crc_shift (N.lxor s b).

(** crc32c(data): initial and final inversion. *)
Definition ones32 : N := 4294967295.
Definition crc32c (data : list N) : N :=
  N.lxor (fold_left crc_byte data ones32) ones32.

(** checksum.rs:7-14 *)
Definition BLOCK_SIZE : nat := N.to_nat 4096.
Definition THIN_SUPERBLOCK_CSUM_XOR : N := 160774.
Definition CACHE_SUPERBLOCK_CSUM_XOR : N := 9031977.
Definition ERA_SUPERBLOCK_CSUM_XOR : N := 146538381.
Definition BITMAP_CSUM_XOR : N := 240779.
Definition INDEX_CSUM_XOR : N := 160478.
Definition BTREE_CSUM_XOR : N := 121107.
Definition ARRAY_CSUM_XOR : N := 595846735.

(** checksum.rs:16-18 *)
Definition checksum (buf : list N) : N := N.lxor (crc32c (skipn 4 buf)) ones32.

(** checksum.rs:23-32 *)
Inductive BT := THIN_SUPERBLOCK | CACHE_SUPERBLOCK | ERA_SUPERBLOCK | NODE
              | INDEX | BITMAP | ARRAY | UNKNOWN.

Definition BT_eqb (a b : BT) : bool :=
  match a, b with
  | THIN_SUPERBLOCK, THIN_SUPERBLOCK | CACHE_SUPERBLOCK, CACHE_SUPERBLOCK
  | ERA_SUPERBLOCK, ERA_SUPERBLOCK | NODE, NODE | INDEX, INDEX
  | BITMAP, BITMAP | ARRAY, ARRAY | UNKNOWN, UNKNOWN => true
  | _, _ => false
  end.

(** checksum.rs:34-55.  [read_u32] of the first four bytes cannot fail on a
    buffer of 4096 bytes. *)
Definition metadata_block_type (buf : list N) : BT :=
  if negb (Nat.eqb (length buf) BLOCK_SIZE) then UNKNOWN else
  let sum_on_disk := le_dec (firstn 4 buf) in
  let csum := checksum buf in
  let btype := N.lxor csum sum_on_disk in
  if btype =? THIN_SUPERBLOCK_CSUM_XOR then THIN_SUPERBLOCK else
  if btype =? CACHE_SUPERBLOCK_CSUM_XOR then CACHE_SUPERBLOCK else
  if btype =? ERA_SUPERBLOCK_CSUM_XOR then ERA_SUPERBLOCK else
  if btype =? BTREE_CSUM_XOR then NODE else
  if btype =? BITMAP_CSUM_XOR then BITMAP else
  if btype =? INDEX_CSUM_XOR then INDEX else
  if btype =? ARRAY_CSUM_XOR then ARRAY else UNKNOWN.

(** checksum.rs:57-80.  The buffer is returned instead of updated in place:
    writing a u32 through a Cursor overwrites the first four bytes. *)
Definition csum_salt (kind : BT) : option N :=
  match kind with
  | THIN_SUPERBLOCK => Some THIN_SUPERBLOCK_CSUM_XOR
  | CACHE_SUPERBLOCK => Some CACHE_SUPERBLOCK_CSUM_XOR
  | ERA_SUPERBLOCK => Some ERA_SUPERBLOCK_CSUM_XOR
  | NODE => Some BTREE_CSUM_XOR
  | BITMAP => Some BITMAP_CSUM_XOR
  | INDEX => Some INDEX_CSUM_XOR
  | ARRAY => Some ARRAY_CSUM_XOR
  | UNKNOWN => None
  end.

Definition write_checksum (buf : list N) (kind : BT) : res (list N) :=
  if negb (Nat.eqb (length buf) BLOCK_SIZE) then Err else
  match csum_salt kind with
  | None => Err
  | Some salt =>
      let csum := N.lxor (checksum buf) salt in
      Ok (le_enc 4 csum ++ skipn 4 buf)
  end.
