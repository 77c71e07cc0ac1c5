(** What the check of a cache's mappings is to find out. *)
From Verif Require Import Base Csum_Model Codec_Model Walker_Model Array_Model Array_Spec CacheCheck_Model.

(** Block [b] reads as an array block with the values [vs]. *)
Definition reads_as {V} (c : codec V) (eng : N -> option (list N)) (b : N) (vs : list V) : Prop :=
  exists data h, eng b = Some data /\ metadata_block_type data = ARRAY /\ unpack_array_block c data = Ok (mkab h vs).
(** The entries of array blocks numbered from [j] on, 509 to a block, with their numbers. *)
Fixpoint numbered {V} (j : N) (vss : list (list V)) : list (N * V) :=
  match vss with
  | [] => []
  | vs :: r => combine (range (j * 509) (j * 509 + nlen vs)) vs ++ numbered (j + 1) r
  end.

(** A mapping is fine: it is valid, inside the origin, with no flags but, in version 1, dirty;
    or it is all zero, and in version 2 its dirty bit is not set. *)
Definition fine (version limit : N) (dirty : N -> bool) (i : N) (m : cmapping) : Prop :=
  (cm_oblock m < limit /\ (cm_flags m = 1 \/ (version = 1 /\ cm_flags m = 3))) \/
  (cm_oblock m = 0 /\ cm_flags m = 0 /\ (version = 2 -> dirty i = false)).
(** A table is fine: all its mappings are, and no origin block is mapped twice. *)
Definition table_fine (version limit : N) (dirty : N -> bool) (es : list (N * cmapping)) : Prop :=
  (forall i m, In (i, m) es -> fine version limit dirty i m) /\
  NoDup (map (fun e => cm_oblock (snd e)) (filter (fun e => N.testbit (cm_flags (snd e)) 0) es)).

(** The number of blocks of the origin, if it is known. *)
Definition origin_limit (sb : cache_sb) (limit : N) : Prop :=
  (cs_clean_shutdown sb = true /\ 0 < cs_discard_block_size sb /\ 0 < cs_discard_nr_blocks sb /\ 0 < cs_data_block_size sb /\
   cs_discard_block_size sb * cs_discard_nr_blocks sb < 2 ^ 64 /\
   limit = cs_discard_block_size sb * cs_discard_nr_blocks sb / cs_data_block_size sb) \/
  ((cs_clean_shutdown sb = false \/ cs_discard_block_size sb = 0 \/ cs_discard_nr_blocks sb = 0) /\ limit = 2 ^ 48).
