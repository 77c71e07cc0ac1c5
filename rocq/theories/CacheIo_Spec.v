(** What cache_restore and cache_dump are to do. *)
From Verif Require Import Base Csum_Model Codec_Model Codec_Spec SpaceMap_Model Batcher_Model Builder_Model Builder_Spec Walker_Model Array_Model Array_Spec SmWrite_Model SmWrite_Spec Era_Spec CacheIo_Model.

(** ** Documents *)
(** The document of a cache: a superblock, mappings and hints, in the order of the calls a
    reader of the xml format makes. *)
Record cdoc := mkcdoc { cd_sb : cir_sb; cd_maps : list cir_map; cd_hints : list cir_hint }.
Definition cdoc_events (d : cdoc) : list cevent :=
  [CSbB (cd_sb d); CMapsB] ++ map CMap (cd_maps d) ++ [CMapsE; CHintsB] ++ map CHint (cd_hints d) ++ [CHintsE; CSbE; CEof].
(** The numbers fit their fields; the policy name has at most 16 bytes, none of them 0; a hint has 4 bytes. *)
Definition cdoc_fits (d : cdoc) : Prop :=
  ci_block_size (cd_sb d) < 2 ^ 32 /\ ci_nr_cache_blocks (cd_sb d) < 2 ^ 32 /\ ci_hint_width (cd_sb d) < 2 ^ 32 /\
  Forall (fun c => 0 < c < 256) (ci_policy (cd_sb d)) /\ nlen (ci_policy (cd_sb d)) <= 16 /\
  Forall (fun m => cm_origin m < 2 ^ 48) (cd_maps d) /\
  Forall (fun h => length (ch_data h) = 4%nat /\ bytes (ch_data h)) (cd_hints d).
(** The cache blocks are in order and exist. *)
Definition blocks_in_order (d : cdoc) (bs : list N) : Prop :=
  increasing bs /\ Forall (fun b => b < ci_nr_cache_blocks (cd_sb d)) bs.
Definition doc_in_order (d : cdoc) : Prop :=
  blocks_in_order d (map cm_cblock (cd_maps d)) /\ blocks_in_order d (map ch_cblock (cd_hints d)).
(** What it says about cache block [i]: the origin block it caches and whether it is dirty; its hint. *)
Definition doc_state (d : cdoc) (i : N) : option (N * bool) :=
  option_map (fun m => (cm_origin m, cm_isdirty m)) (find (fun m => cm_cblock m =? i) (cd_maps d)).
Definition doc_hint (d : cdoc) (i : N) : option (list N) :=
  option_map ch_data (find (fun h => ch_cblock h =? i) (cd_hints d)).

(** ** Metadata *)
(** The arrays the superblock [s] points to are intact and can be read; [ws]: the dirty bits
    of version 2, 64 to a word. *)
Definition cache_on (eng : N -> option (list N)) (D : disk) (nr : N) (s : cache_sb) (maps : list cmapping) (ws : list N) (hints : list (list N)) : Prop :=
  readable_array cm_codec eng D nr (cs_mapping_root s) maps /\ nlen maps = cs_cache_blocks s /\
  readable_array hint_codec eng D nr (cs_hint_root s) hints /\ nlen hints = cs_cache_blocks s /\
  (cs_version s = 1 \/
   cs_version s = 2 /\ exists root, cs_dirty_root s = Some root /\ readable_array u64_codec eng D nr root ws /\ nlen ws = div_up (cs_cache_blocks s) 64).
(** What it says about cache block [i]: flag 0 of a mapping means it is valid, and flag 1 of
    version 1 or the bit of version 2 that it is dirty. *)
Definition block_state (s : cache_sb) (maps : list cmapping) (ws : list N) (i : N) : option (N * bool) :=
  match nth_error maps (N.to_nat i) with
  | Some m => if N.testbit (cm_flags m) 0
              then Some (cm_oblock m, if cs_version s =? 1 then N.testbit (cm_flags m) 1 else bit_at 64 ws i)
              else None
  | None => None
  end.
Definition same_superblock (s : cache_sb) (sb : cir_sb) : Prop :=
  cs_data_block_size s = ci_block_size sb /\ cs_cache_blocks s = ci_nr_cache_blocks sb /\ cs_policy_name s = ci_policy sb /\ cs_policy_hint_size s = ci_hint_width sb.

(** The metadata space map with the given root: [n] blocks, of which those in [used] have one
    reference and the others none. *)
Definition counts_on (D : disk) (n : N) (root : list N) (used : list N) : Prop :=
  exists r rest m enough, smroot_unpack root = Ok (r, rest) /\ sr_nr_blocks r = n /\ sr_nr_allocated r = nlen used /\
    load_metadata_index (mkblock (sr_bitmap_root r) (D (sr_bitmap_root r))) n = Ok m /\
    forall fuel b, (enough <= fuel)%nat -> b < n ->
      exists ie, nth_error (mi_indexes m) (N.to_nat (b / 16320)) = Some ie /\ metadata_block_type (D (ie_blocknr ie)) = BITMAP /\
        entry_count fuel D (sr_ref_count_root r) (D (ie_blocknr ie)) b = Ok (Some (if in_dec N.eq_dec b used then 1 else 0)).

(** Its parts: the index, bitmaps and an empty tree of large counts, in the blocks [sms]. *)
Definition map_parts_on (D : disk) (n : N) (root : list N) (used sms : list N) : Prop :=
  exists r rest ies depth foot, smroot_unpack root = Ok (r, rest) /\ sr_nr_blocks r = n /\
    load_metadata_index (mkblock (sr_bitmap_root r) (D (sr_bitmap_root r))) n = Ok (mkmi (sr_bitmap_root r) ies) /\ nlen ies = div_up n 16320 /\
    (forall i ie, nth_error ies i = Some ie -> bitmap_at D (ie_blocknr ie)
       (map (fun x => Small (if in_dec N.eq_dec (N.of_nat i * 16320 + x) used then 1 else 0)) (range 0 (bitmap_len n (N.of_nat i))))) /\
    tree u32_codec D true depth (sr_ref_count_root r) [] foot /\ sms = map ie_blocknr ies ++ foot ++ [sr_bitmap_root r].
(** Nothing is stored beyond what the document says: no flags but valid and, in version 1, dirty;
    unused cache blocks have no flags, no origin block and no dirty bit; no discards. *)
Definition plain_contents (s : cache_sb) (maps : list cmapping) (ws : list N) (d : cdoc) : Prop :=
  Forall (fun m => m = mkcm 0 0 \/ cm_flags m = 1 \/ cs_version s = 1 /\ cm_flags m = 3) maps /\
  (cs_version s = 2 -> forall i, i < cs_cache_blocks s -> bit_at 64 ws i = match doc_state d i with Some (_, b) => b | None => false end) /\
  cs_discard_block_size s = 0 /\ cs_discard_nr_blocks s = 0.

(** ** What restore leaves on the device *)
Definition cache_restored (D : disk) (n version : N) (clean : bool) (d : cdoc) : Prop :=
  let eng b := if b <? n then Some (D b) else None in
  exists s maps ws hints,
    cache_read_superblock D 0 = Ok s /\ cache_sb_range s /\ same_superblock s (cd_sb d) /\ cs_version s = version /\ cs_clean_shutdown s = clean /\ cs_needs_check s = false /\
    cache_on eng D n s maps ws hints /\
    (forall i, i < cs_cache_blocks s -> block_state s maps ws i = doc_state d i) /\
    (forall i, i < cs_cache_blocks s -> nth_error hints (N.to_nat i) = Some (match doc_hint d i with Some h => h | None => [0; 0; 0; 0] end)) /\
    exists fm bm fd bd fh bh fx sms,
      array_at cm_codec D (cs_mapping_root s) maps fm bm /\
      match cs_dirty_root s with Some root => array_at u64_codec D root ws fd bd | None => fd = [] /\ bd = [] end /\
      array_at hint_codec D (cs_hint_root s) hints fh bh /\
      array_at u64_codec D (cs_discard_root s) [] fx [] /\
      let used := 0 :: fx ++ (bm ++ fm) ++ (bd ++ fd) ++ (bh ++ fh) ++ sms in
      NoDup used /\ (forall b, In b used -> b < n) /\ counts_on D n (cs_metadata_sm_root s) used /\ map_parts_on D n (cs_metadata_sm_root s) used sms /\ plain_contents s maps ws d.
