(** Specification side of the pack properties. *)
From Verif Require Import Base Csum_Model Codec_Model Codec_Spec.

(** A sequence of 64-bit words. *)
Definition all_u64 (ns : list N) : Prop := Forall (fun n => n < 2 ^ 64) ns.

(** The little-endian bytes of a sequence of 64-bit words. *)
Fixpoint le_words (ns : list N) : list N :=
  match ns with [] => [] | n :: r => le_enc 8 n ++ le_words r end.

(** A leaf node header that claims 508 entries (so that the keys fill the block
    to the last byte) of a value size other than 8: no tool writes such a
    node, since a node must also have room for its values. *)
Definition keys_fill_block (blk : list N) : Prop :=
  word32_at blk 4 = 2 /\ word32_at blk 24 <> 8 /\ word32_at blk 20 = 508.

(** The header's claims fit the block: keys, and 8-byte values where the node
    is internal or holds 64-bit values, lie within 4096 bytes. *)
Definition node_claims_fit (blk : list N) : Prop :=
  32 + 8 * word32_at blk 20 <= 4096 /\
  (word32_at blk 4 = 2 /\ word32_at blk 24 <> 8 \/ 32 + 16 * word32_at blk 20 <= 4096).
