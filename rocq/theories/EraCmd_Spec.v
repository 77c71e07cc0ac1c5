(** What era_check is to find out. *)
From Verif Require Import Base Csum_Model Codec_Model SpaceMap_Model Walker_Model Builder_Spec Array_Model Array_Spec CacheCheck_Spec CacheCmd_Spec EraCmd_Model.

(** The parts of era metadata: the archived writesets, the blocks of the tree of writesets, and
    for each writeset its array blocks and the blocks of the index; the blocks of the era
    array, and of its index. *)
Record eparts := mkep {
  q_sets : list (N * writeset); q_tree : list N; q_bits : list (list N * list N);
  q_eras : list N; q_eras_index : list N }.
Definition q_used (m : eparts) : list N :=
  [0] ++ q_tree m ++ flat_map (fun p => snd p ++ fst p) (q_bits m) ++ q_eras_index m ++ q_eras m.
(** The device has these parts, the tree and the indexes can be read and no block is used
    twice; an array block holds as many entries as fit.  Nothing else is said of array blocks. *)
Definition era_with (nr : N) (d : disk) (eng : N -> option (list N)) (sb : era_sb) (m : eparts) : Prop :=
  nr < 2 ^ 32 /\ eng 0 = Some (d 0) /\ era_read_superblock d 0 = Ok sb /\
  (exists depth, tree ws_codec d true depth (es_writeset_tree_root sb) (q_sets m) (q_tree m)) /\ increasing (map fst (q_sets m)) /\
  Forall2 (fun s p => indexed d (ws_root (snd s)) (fst p) (snd p)) (q_sets m) (q_bits m) /\
  indexed d (es_era_array_root sb) (q_eras m) (q_eras_index m) /\
  (forall b, In b (q_tree m ++ flat_map snd (q_bits m) ++ q_eras_index m) -> eng b = Some (d b)) /\
  NoDup (q_used m) /\ (forall b, In b (q_used m) -> b < nr) /\
  (forall b data a, In b (flat_map fst (q_bits m)) -> eng b = Some data -> unpack_array_block u64_codec data = Ok a -> ah_max (ab_hdr a) = 509) /\
  (forall b data a, In b (q_eras m) -> eng b = Some data -> unpack_array_block u32_codec data = Ok a -> ah_max (ab_hdr a) = 1018) /\
  nlen (q_eras m) * 1018 < 2 ^ 32.

(** The verdict: the version is known; every writeset can be read and has no block beyond its
    last bit; every block of the era array can be read, and no era in it is in the future. *)
Definition era_fine (eng : N -> option (list N)) (sb : era_sb) (m : eparts) : Prop :=
  es_version sb <= 1 /\
  Forall2 (fun s p => bitset_fine eng (ws_nr_bits (snd s)) (fst p)) (q_sets m) (q_bits m) /\
  forall b, In b (q_eras m) -> exists eras, reads_as u32_codec eng b eras /\ Forall (fun e => e <= es_current_era sb) eras.
