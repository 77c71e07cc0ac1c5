(** What cache_writeback is to do. *)
From Verif Require Import Base Codec_Model Array_Model Array_Spec Copier_Model Writeback_Model.

(** The blocks can be read. *)
Definition readable (e : menv) (bs : list N) : Prop := forall b, In b bs -> b < e_nr e /\ e_rd e b = true.

(** The metadata has the mappings [maps]: the array of the superblock, intact, in the array
    blocks [blocks]. *)
Definition mappings_on (e : menv) (d : disk) (sb : cache_sb) (maps : list cmapping) (blocks foot : list N) : Prop :=
  array_at cm_codec d (cs_mapping_root sb) maps foot blocks /\ NoDup (blocks ++ foot) /\ readable e (blocks ++ foot) /\
  e_nr e < 2 ^ 64 /\ nlen maps < 2 ^ 32.
(** The dirty bits of version 2: bit [i mod 64] of word [i / 64]. *)
Definition bits_on (e : menv) (d : disk) (sb : cache_sb) (ws : list N) (blocks foot : list N) : Prop :=
  exists root, cs_dirty_root sb = Some root /\
  array_at u64_codec d root ws foot blocks /\ NoDup (blocks ++ foot) /\ readable e (blocks ++ foot) /\
  e_nr e < 2 ^ 64 /\ cs_cache_blocks sb < 2 ^ 32.
Definition bit_at (ws : list N) (i : N) : bool := N.testbit (nth (N.to_nat (i / 64)) ws 0) (i mod 64).

(** Cache block [i] has the valid mapping [m] and is to be written back: it is dirty
    according to the format, or the cache was not shut down. *)
Definition to_copy (sb : cache_sb) (maps : list cmapping) (ws : list N) (i : N) (m : cmapping) : Prop :=
  nth_error maps (N.to_nat i) = Some m /\ cm_valid m = true /\
  (cs_clean_shutdown sb = false \/
   (cs_version sb = 1 /\ cm_dirty m = true) \/
   (cs_version sb = 2 /\ i < cs_cache_blocks sb /\ bit_at ws i = true)).

(** No two cache blocks are mapped to one origin block. *)
Definition distinct_origins (maps : list cmapping) : Prop :=
  forall i j m n, nth_error maps i = Some m -> nth_error maps j = Some n -> cm_valid m = true -> cm_valid n = true ->
  cm_oblock m = cm_oblock n -> i = j.

(** The copiers read the fast device [false] and write the origin [true]. *)
Definition copier_ok {P} (m : mem (list P)) (c : copier P) : Prop :=
  match c with
  | CSync ks _ => forall n, k_src (ks n) = false /\ k_dst (ks n) = true /\ (1 <= k_chunk (ks n))%nat
  | CRescue _ pages _ => forall b, length (m false b) = pages
  end.

(** ** The metadata afterwards *)

(** The mappings after clearing the dirty flag (bit 1) of the blocks [cl]. *)
Definition flags_cleared (cl : list N) (maps maps' : list cmapping) : Prop :=
  length maps' = length maps /\
  forall i m, nth_error maps (N.to_nat i) = Some m ->
    nth_error maps' (N.to_nat i) = Some (if in_dec N.eq_dec i cl then mkcm (cm_oblock m) (N.clearbit (cm_flags m) 1) else m).
(** The words after clearing the bits [cl]. *)
Definition bits_cleared (cl : list N) (ws ws' : list N) : Prop :=
  length ws' = length ws /\
  forall i, i < 64 * nlen ws -> bit_at ws' i = if in_dec N.eq_dec i cl then false else bit_at ws i.

(** From [d] to [d'] the array in [blocks] has got the values [vs'], and nothing else has
    changed; or, if it is not [finished], a write has failed, and every array block but the one
    of that write is as it was or has its new values. *)
Definition array_changed {V} (c : codec V) (e : menv) (d d' : disk) (root : N) (blocks foot : list N) (vs' : list V) (finished : bool) : Prop :=
  (forall b, ~ In b blocks -> d' b = d b) /\
  if finished then array_at c d' root vs' foot blocks
  else exists bad n, In bad blocks /\ e_wr e n = false /\ d' bad = e_wjunk e n /\
    let per := (4096 - 24) / N.of_nat (csize c) in
    forall j b, nth_error blocks j = Some b -> b <> bad ->
      d' b = d b \/ array_block_at c d' b (firstn (N.to_nat per) (skipn (j * N.to_nat per) vs')).

(** Memory that is allocated has the size of a block. *)
Definition fresh_ok (e : menv) : Prop := forall n, bytes (e_fresh e n) /\ nlen (e_fresh e n) = 4096.

(** The dirty flags or bits of [cl] have been cleared in the format of the superblock. *)
Definition cleared_on (e : menv) (sb : cache_sb) (d d' : disk) (maps : list cmapping) (blocks foot : list N) (ws wblocks wfoot : list N) (cl : list N) (finished : bool) : Prop :=
  (cs_version sb = 1 /\ exists maps', flags_cleared cl maps maps' /\ array_changed cm_codec e d d' (cs_mapping_root sb) blocks foot maps' finished) \/
  (cs_version sb = 2 /\ exists root ws', cs_dirty_root sb = Some root /\ bits_cleared cl ws ws' /\ array_changed u64_codec e d d' root wblocks wfoot ws' finished).

(** From the devices [m] to [m']: the fast device is as it was, on the origin only the blocks
    of mappings that are to be written back have changed, and the blocks [cl], which are among
    those, have been copied. *)
Definition written_back {P} (sb : cache_sb) (maps : list cmapping) (ws : list N) (m m' : mem (list P)) (cl : list N) : Prop :=
  (forall b, m' false b = m false b) /\
  (forall b, (forall i mp, to_copy sb maps ws i mp -> cm_oblock mp <> b) -> m' true b = m true b) /\
  increasing cl /\
  (forall i, In i cl -> exists mp, to_copy sb maps ws i mp /\ m' true (cm_oblock mp) = m false i).
(** The format of the superblock, and the words of the dirty bits if it is version 2. *)
Definition format (e : menv) (d : disk) (sb : cache_sb) (maps : list cmapping) (ws wblocks wfoot : list N) : Prop :=
  cs_version sb = 1 \/
  (cs_version sb = 2 /\ bits_on e d sb ws wblocks wfoot /\ nlen ws <= div_up (cs_cache_blocks sb) 64 /\ nlen maps <= 64 * nlen ws).
