(** What era_restore is to do. *)
From Verif Require Import Base Csum_Model Codec_Model Codec_Spec SpaceMap_Model Batcher_Model Builder_Model Builder_Spec Walker_Model Array_Model Array_Spec SmWrite_Model SmWrite_Spec Era_Spec CacheIo_Spec EraIo_Model.

(** ** Documents *)
(** A writeset: its era, the number of blocks it covers and the ranges (begin, length) that
    are marked. *)
Record eset := mkeset { ew_era : N; ew_bits : N; ew_marked : list (N * N) }.
(** A document: superblock, writesets and the era array as (block, era), in the order of the
    calls a reader of the xml format makes. *)
Record edoc := mkedoc { ed_sb : eir_sb; ed_sets : list eset; ed_eras : list (N * N) }.
Definition eset_events (s : eset) : list eevent :=
  EWsB (ew_era s) (ew_bits s) :: map (fun r => EBlocks (fst r) (snd r)) (ew_marked s) ++ [EWsE].
Definition edoc_events (d : edoc) : list eevent :=
  [ESbB (ed_sb d)] ++ flat_map eset_events (ed_sets d) ++ [EEraB] ++ map (fun e => EEra (fst e) (snd e)) (ed_eras d) ++ [EEraE; ESbE; EEof].
(** The numbers fit their fields; no era has two writesets; the marked ranges of a writeset
    are not empty, in order, disjoint and inside. *)
Definition edoc_fits (d : edoc) : Prop :=
  ei_block_size (ed_sb d) < 2 ^ 32 /\ ei_nr_blocks (ed_sb d) < 2 ^ 32 /\ ei_current_era (ed_sb d) < 2 ^ 32 /\
  Forall (fun s => ew_era s < 2 ^ 32 /\ ew_bits s < 2 ^ 32 /\ marked_ranges 0 (ew_bits s) (ew_marked s)) (ed_sets d) /\
  NoDup (map ew_era (ed_sets d)) /\
  Forall (fun e => snd e < 2 ^ 32) (ed_eras d).
(** The blocks of the era array are in order and exist. *)
Definition eras_in_order (d : edoc) : Prop :=
  increasing (map fst (ed_eras d)) /\ Forall (fun e => fst e < ei_nr_blocks (ed_sb d)) (ed_eras d).
(** The writesets C35 has something against: of no blocks, or with a range across a boundary
    between 64-bit words. *)
Definition awkward (s : eset) : Prop := ew_bits s = 0 \/ ~ Forall within_word (ew_marked s).
(** What it says about a block in the era array; 0 if nothing. *)
Definition doc_era (d : edoc) (i : N) : N :=
  match find (fun e => fst e =? i) (ed_eras d) with Some e => snd e | None => 0 end.

(** ** What restore leaves on the device *)
(** A writeset and its words as the document has it: no marked block is lost, and if it is
    not awkward no other bit is set. *)
Definition same_set (s : eset) (e : N) (ws : writeset) (words : list N) : Prop :=
  e = ew_era s /\ ws_nr_bits ws = ew_bits s /\
  (forall x, marked (ew_marked s) x -> bit_at 64 words x = true) /\
  (~ awkward s -> forall x, bit_at 64 words x = true -> marked (ew_marked s) x).
Definition same_era_superblock (s : era_sb) (sb : eir_sb) : Prop :=
  es_data_block_size s = ei_block_size sb /\ es_nr_blocks s = ei_nr_blocks sb /\ es_current_era s = ei_current_era sb.
Definition era_restored (D : disk) (n : N) (d : edoc) : Prop :=
  let eng b := if b <? n then Some (D b) else None in
  exists s sets eras,
    era_read_superblock D 0 = Ok s /\ era_sb_range s /\ same_era_superblock s (ed_sb d) /\ es_version s = 1 /\ es_clean_shutdown s = true /\
    es_current_writeset s = mkws (ei_nr_blocks (ed_sb d)) 0 /\ es_metadata_snap s = 0 /\
    (* the archived writesets *)
    readable_tree eng D n (es_writeset_tree_root s) (map fst sets) /\ increasing (map fst (map fst sets)) /\
    Forall (fun t => readable_set eng D n (snd (fst t)) (snd t) /\ exists m, In m (ed_sets d) /\ same_set m (fst (fst t)) (snd (fst t)) (snd t)) sets /\
    (forall m, In m (ed_sets d) -> In (ew_era m) (map fst (map fst sets))) /\
    (* the era array *)
    readable_array u32_codec eng D n (es_era_array_root s) eras /\ nlen eras = ei_nr_blocks (ed_sb d) /\
    (forall i, i < ei_nr_blocks (ed_sb d) -> nth_error eras (N.to_nat i) = Some (doc_era d i)) /\
    (* exactly the blocks in use are counted, once *)
    exists sblocks tdepth tfoot abl afoot sms,
      Forall2 (fun t bl => array_at u64_codec D (ws_root (snd (fst t))) (snd t) (snd bl) (fst bl)) sets sblocks /\
      tree ws_codec D true tdepth (es_writeset_tree_root s) (map fst sets) tfoot /\
      array_at u32_codec D (es_era_array_root s) eras afoot abl /\
      let used := 0 :: flat_map (fun bl => fst bl ++ snd bl) sblocks ++ tfoot ++ (abl ++ afoot) ++ sms in
      NoDup used /\ (forall b, In b used -> b < n) /\ counts_on D n (es_metadata_sm_root s) used.
