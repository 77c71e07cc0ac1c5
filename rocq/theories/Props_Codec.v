(** C02-C06: on-disk codecs. *)
From Verif Require Import Base Csum_Model Csum_Proofs Codec_Model Codec_Spec Codec_Proofs
  NodeCodec_Proofs SbCodec_Proofs.

(** * C04: fixed-size records *)

Theorem C04_u64 : lossless u64_codec (fun v => v < 2 ^ 64).
Proof. exact u64_lossless. Qed.
Theorem C04_u32 : lossless u32_codec (fun v => v < 2 ^ 32).
Proof. exact u32_lossless. Qed.
Theorem C04_block_time : lossless bt_codec bt_range.
Proof. exact bt_lossless. Qed.
Theorem C04_device_detail : lossless dd_codec dd_range.
Proof. exact dd_lossless. Qed.
Theorem C04_index_entry : lossless ie_codec ie_range.
Proof. exact ie_lossless. Qed.
Theorem C04_space_map_root : lossless smroot_codec smroot_range.
Proof. exact smroot_lossless. Qed.
Theorem C04_writeset : lossless ws_codec ws_range.
Proof. exact ws_lossless. Qed.
Theorem C04_cache_mapping : lossless cm_codec cm_range.
Proof. exact cm_lossless. Qed.

(** Hints: the four bytes themselves; short input panics instead of failing. *)
Theorem C04_cache_hint : forall h rest, length h = 4%nat ->
  length (cpack hint_codec h) = csize hint_codec /\
  cunpack hint_codec (cpack hint_codec h ++ rest) = Ok (h, rest).
Proof.
  intros h rest Hl. cbn [hint_codec cpack cunpack csize]. split; auto. unfold hint_unpack.
  rewrite app_length, Hl. cbn [Nat.ltb Nat.leb Nat.add].
  rewrite firstn_length_app, skipn_length_app; auto.
Qed.
Theorem C04_cache_hint_short_panics : forall i, (length i < 4)%nat -> cunpack hint_codec i = Panic.
Proof.
  intros. cbn [hint_codec cunpack]. unfold hint_unpack.
  destruct (Nat.ltb_spec (length i) 4); [auto|lia].
Qed.

(** The advertised sizes are the ones of the kernel's structures. *)
Theorem C04_sizes :
  csize u64_codec = 8%nat /\ csize u32_codec = 4%nat /\ csize bt_codec = 8%nat /\
  csize dd_codec = 24%nat /\ csize ie_codec = 16%nat /\ csize smroot_codec = 32%nat /\
  csize ws_codec = 12%nat /\ csize cm_codec = 8%nat /\ csize hint_codec = 4%nat.
Proof. repeat split. Qed.

(** Layout of a mapping: data block in the high 40 bits, time in the low 24. *)
Theorem C04_block_time_layout : forall b, bt_range b ->
  le_dec (bt_pack b) = bt_block b * 2 ^ 24 + bt_time b.
Proof.
  intros b H. unfold bt_pack. rewrite pack_pair_bt by auto. apply le_dec_enc.
  destruct H. change (256 ^ N.of_nat 8) with 18446744073709551616.
  change (2 ^ 40) with 1099511627776 in *. change (2 ^ 24) with 16777216 in *. lia.
Qed.
Theorem C04_cache_mapping_layout : forall m, cm_range m ->
  le_dec (cm_pack m) = cm_oblock m * 2 ^ 16 + cm_flags m.
Proof.
  intros b H. unfold cm_pack. rewrite pack_pair_cm by auto. apply le_dec_enc.
  destruct H. change (256 ^ N.of_nat 8) with 18446744073709551616.
  change (2 ^ 48) with 281474976710656 in *. change (2 ^ 16) with 65536 in *. lia.
Qed.

(** Outside the representable range the block_time record is not preserved:
    a time of 2^24 moves the mapping to another data block. *)
Theorem C04_block_time_time_overflow_refuted :
  exists b, bt_time b < 2 ^ 32 /\ bt_block b < 2 ^ 40 /\
    exists b', bt_unpack (bt_pack b) = Ok (b', []) /\ bt_block b' <> bt_block b.
Proof.
  exists (mkbt 0 16777216). repeat split; try reflexivity.
  exists (mkbt 1 0). split; [vm_compute; reflexivity|discriminate].
Qed.

(** A metadata index block: packing, checksumming and loading gives the entries
    back (entries point to real blocks, and there are as many as the device
    needs). *)
Theorem C04_metadata_index : forall m, mi_blocknr m < 2 ^ 64 ->
  Forall (fun e => ie_range e /\ ie_blocknr e <> 0) (mi_indexes m) ->
  nlen (mi_indexes m) <= 255 ->
  exists l blk, mi_pack m = Ok l /\ (b <- to_block l ;; write_checksum b INDEX) = Ok blk /\
    forall nr_blocks, nlen (mi_indexes m) <= div_up nr_blocks 16320 ->
      load_metadata_index (mkblock (mi_blocknr m) blk) nr_blocks = Ok m.
Proof. exact mi_roundtrip. Qed.

(** * C02: node round trip *)

(** Packing a node that satisfies the on-disk constraints over any old buffer
    contents, and reading the block at the node's own location, gives the node
    back: with the lenient reader always, with the strict reader if it is a root
    or at least a third full. *)
Theorem C02_node_roundtrip : forall V (c : codec V) range old n,
  lossless c range -> N.of_nat (csize c) + 8 < 2 ^ 32 ->
  bytes old -> nlen old = 4096 -> node_fits c range n ->
  exists blk, node_block c old n = Ok blk /\ nlen blk = 4096 /\
    metadata_block_type blk = NODE /\
    forall ig root,
      (ig = false -> root = false ->
         nh_max_entries (get_header n) / 3 <= nh_nr_entries (get_header n)) ->
      check_and_unpack_node c (mkblock (nh_block (get_header n)) blk) ig root = Ok n.
Proof.
  intros. destruct (node_block_roundtrip c range old n) as (blk & H4 & _ & H5 & H6 & H7); auto.
  exists blk. auto.
Qed.

(** At any other location the block is refused. *)
Theorem C02_wrong_location_refused : forall V (c : codec V) range old n blk loc ig root,
  lossless c range -> N.of_nat (csize c) + 8 < 2 ^ 32 ->
  bytes old -> nlen old = 4096 -> node_fits c range n ->
  node_block c old n = Ok blk -> loc <> nh_block (get_header n) ->
  check_and_unpack_node c (mkblock loc blk) ig root = Err.
Proof.
  intros V c range old n blk loc ig root L Hc Hb Hl Hf E Hloc.
  destruct (node_block_roundtrip c range old n) as (blk' & E' & Hbb & H5 & H6 & H7); auto.
  assert (blk' = blk) as -> by congruence.
  pose proof (H7 true true ltac:(discriminate)) as E2.
  unfold check_and_unpack_node in *. cbn [b_data b_loc] in *. rewrite H6 in *.
  destruct (unpack_node_raw c blk true true) as [n1| |] eqn:U; try discriminate.
  cbn [bind] in E2. destruct (negb _) in E2; [discriminate|]. injection E2 as ->.
  apply unpack_node_sound with (range := range) in U as [UL _]; auto.
  pose proof (unpack_node_nopanic c range blk ig root L Hbb) as NP.
  destruct (unpack_node_raw c blk ig root) as [n2| |] eqn:U2; cbn [bind]; [|auto|congruence].
  apply unpack_node_sound with (range := range) in U2 as [UL2 _]; auto.
  assert (n = n2) as <- by (eapply node_layout_det; eauto).
  destruct (N.eqb_spec (nh_block (get_header n)) loc); [congruence|]. reflexivity.
Qed.

(** [calc_max_entries] always gives a number of entries that fits. *)
Theorem C02_max_entries_fit : forall V (c : codec V), (0 < csize c)%nat ->
  (8 + N.of_nat (csize c)) * calc_max_entries c + 32 <= 4096 /\ calc_max_entries c mod 3 = 0.
Proof.
  intros V c Hc. unfold calc_max_entries.
  set (e := 8 + N.of_nat (csize c)).
  assert (0 < e) as He by (unfold e; lia).
  pose proof (N.mul_div_le (4096 - 32) e ltac:(lia)) as H.
  set (t := (4096 - 32) / e) in *. split.
  - assert (t / 3 * 3 <= t) by dlia. change (4096 - 32) with 4064 in H. nia.
  - apply N.mod_mul. discriminate.
Qed.

(** * C03: the node reader accepts exactly the well-formed nodes *)

Theorem C03_reader_accepts_iff_wellformed : forall V (c : codec V) range b ignore_non_fatal is_root n,
  lossless c range -> N.of_nat (csize c) + 8 < 2 ^ 32 ->
  bytes (b_data b) -> nlen (b_data b) = 4096 ->
  check_and_unpack_node c b ignore_non_fatal is_root = Ok n <->
  metadata_block_type (b_data b) = NODE /\
  nh_block (get_header n) = b_loc b /\
  node_layout c range (b_data b) n /\
  node_wf (negb ignore_non_fatal) is_root n.
Proof.
  intros V c range b ig root n L Hc Hb Hl. unfold check_and_unpack_node. split.
  - destruct (metadata_block_type (b_data b)) eqn:T; try discriminate. intros H.
    destruct (unpack_node_raw c (b_data b) ig root) as [n'| |] eqn:U; try discriminate.
    cbn [bind] in H. destruct (N.eqb_spec (nh_block (get_header n')) (b_loc b)) as [E|]; [|discriminate].
    cbn [negb] in H. injection H as ->. split; auto. split; auto.
    eapply unpack_node_sound; eauto.
  - intros (-> & H2 & H3 & H4).
    rewrite (unpack_node_complete c range (b_data b) ig root n) by auto. cbn [bind].
    rewrite H2, N.eqb_refl. reflexivity.
Qed.

(** It never panics (in particular never indexes out of bounds), whatever the
    bytes. *)
Theorem C03_reader_total : forall V (c : codec V) range b ignore_non_fatal is_root,
  lossless c range -> bytes (b_data b) ->
  check_and_unpack_node c b ignore_non_fatal is_root <> Panic.
Proof.
  intros V c range b ig root L Hb. unfold check_and_unpack_node.
  pose proof (unpack_node_nopanic c range (b_data b) ig root L Hb).
  destruct (metadata_block_type (b_data b)); try discriminate.
  destruct (unpack_node_raw c (b_data b) ig root); cbn [bind]; try congruence.
  destruct (negb _); discriminate.
Qed.

(** Every key of an accepted node can be found at its slot: consequences a user
    can read off directly. *)
Theorem C03_accepted_keys_increasing : forall V (c : codec V) range b ig root n,
  lossless c range -> N.of_nat (csize c) + 8 < 2 ^ 32 ->
  bytes (b_data b) -> nlen (b_data b) = 4096 ->
  check_and_unpack_node c b ig root = Ok n ->
  forall i j, i < j < word32_at (b_data b) 16 ->
    word64_at (b_data b) (32 + 8 * i) < word64_at (b_data b) (32 + 8 * j).
Proof.
  intros V c range b ig root n L Hc Hb Hl H i j Hij.
  apply (C03_reader_accepts_iff_wellformed V c range) in H as (_ & _ & HL & HW); auto.
  destruct HL as (_ & _ & H3 & _ & _ & H6 & H7 & _). destruct HW as (Hinc & _).
  rewrite <- H3 in Hij. rewrite <- !H7 by lia.
  set (ks := get_keys n) in *. clearbody ks. unfold nlen in H6.
  assert (N.to_nat i < N.to_nat j < length ks)%nat as Hn by lia.
  clear -Hinc Hn. revert Hinc Hn. generalize (N.to_nat i) (N.to_nat j). clear i j.
  induction ks as [|k ks IH]; intros i j Hinc Hn; [cbn [length] in Hn; lia|].
  apply increasing_strong in Hinc as [H1 H2]. destruct j; [lia|]. cbn [length] in Hn.
  destruct i; cbn [nth].
  - apply H1. apply nth_In. lia.
  - apply IH; auto. lia.
Qed.

(** * C05: superblocks *)

Theorem C05_thin_superblock : forall d loc s, thin_sb_range s ->
  exists d', thin_write_superblock d loc s = Ok d' /\ thin_read_superblock d' 0 = Ok s /\
    (forall b, b <> 0 -> d' b = d b) /\
    cache_read_superblock d' 0 = Err /\ era_read_superblock d' 0 = Err.
Proof.
  intros d loc s H. destruct (thin_roundtrip d loc s H) as (d' & H1 & H2 & H3 & H4).
  exists d'. unfold cache_read_superblock, era_read_superblock. rewrite H4. repeat split; auto.
Qed.
Theorem C05_cache_superblock : forall d loc s, cache_sb_range s ->
  exists d', cache_write_superblock d loc s = Ok d' /\ cache_read_superblock d' 0 = Ok s /\
    (forall b, b <> 0 -> d' b = d b) /\
    thin_read_superblock d' 0 = Err /\ era_read_superblock d' 0 = Err.
Proof.
  intros d loc s H. destruct (cache_roundtrip d loc s H) as (d' & H1 & H2 & H3 & H4).
  exists d'. unfold thin_read_superblock, era_read_superblock. rewrite H4. repeat split; auto.
Qed.
Theorem C05_era_superblock : forall d loc s, era_sb_range s ->
  exists d', era_write_superblock d loc s = Ok d' /\ era_read_superblock d' 0 = Ok s /\
    (forall b, b <> 0 -> d' b = d b) /\
    thin_read_superblock d' 0 = Err /\ cache_read_superblock d' 0 = Err.
Proof.
  intros d loc s H. destruct (era_roundtrip d loc s H) as (d' & H1 & H2 & H3 & H4).
  exists d'. unfold thin_read_superblock, cache_read_superblock. rewrite H4. repeat split; auto.
Qed.

(** A policy name of more than 16 bytes crashes the writer. *)
Theorem C05_cache_long_policy_name_panics : forall d loc s,
  16 < nlen (cs_policy_name s) -> cache_write_superblock d loc s = Panic.
Proof.
  intros d loc s H. unfold cache_write_superblock, cache_sb_pack.
  destruct (Nat.ltb_spec 16 (length (cs_policy_name s))); [reflexivity|unfold nlen in *; lia].
Qed.

(** * C06: space-map bitmaps *)

(** Pack, checksum, read back; a short list is padded with zero counts. *)
Theorem C06_bitmap_roundtrip : forall b,
  bm_blocknr b < 2 ^ 64 -> Forall entry_ok (bm_entries b) -> nlen (bm_entries b) <= 16320 ->
  exists l blk, bitmap_pack b = Ok l /\ (x <- to_block l ;; write_checksum x BITMAP) = Ok blk /\
    metadata_block_type blk = BITMAP /\
    exists rest, bitmap_unpack blk =
      Ok (mkbitmap (bm_blocknr b)
            (bm_entries b ++ repeat (Small 0) (N.to_nat 16320 - length (bm_entries b))), rest).
Proof. exact bitmap_pack_ok. Qed.

(** A count that needs more than two bits is refused. *)
Theorem C06_bitmap_pack_refuses : forall b,
  ~ Forall entry_ok (bm_entries b) -> bitmap_pack b = Err.
Proof.
  intros b H. unfold bitmap_pack, chunks. rewrite pack_chunks_err by auto. reflexivity.
Qed.

(** Any block decodes to 16320 entries; entry [i] is determined by bits
    2(i mod 32) and 2(i mod 32)+1 of word i/32, and re-packing gives the block
    number and entry bytes back. *)
Theorem C06_bitmap_decode : forall blk, bytes blk -> nlen blk = 4096 ->
  exists bm, bitmap_unpack blk = Ok (bm, []) /\ nlen (bm_entries bm) = 16320 /\
    bm_blocknr bm = word64_at blk 8 /\ Forall entry_ok (bm_entries bm) /\
    (forall i, i < 16320 ->
       let w := word64_at blk (16 + 8 * (i / 32)) in
       let k := 2 * (i mod 32) in
       nth (N.to_nat i) (bm_entries bm) Overflow = decode_entry (N.testbit w k) (N.testbit w (k + 1))) /\
    exists l, bitmap_pack bm = Ok l /\ nlen l = 4096 /\ skipn 8 l = skipn 8 blk.
Proof. exact bitmap_unpack_block. Qed.

(** * The hypotheses are met by concrete values *)
Example ex_bt : bt_range (mkbt 1234567 42).
Proof. split; reflexivity. Qed.
Definition ex_leaf : node block_time :=
  Leaf (mknh 7 true 3 252 8) [1; 5; 9] [mkbt 10 0; mkbt 11 1; mkbt 500 2].
Example ex_leaf_fits : node_fits bt_codec bt_range ex_leaf.
Proof.
  unfold node_fits, ex_leaf; cbn -[N.pow N.modulo]. repeat split; try reflexivity; try lia.
  - repeat constructor; reflexivity.
  - repeat constructor; reflexivity.
Qed.
Definition ex_leaf_block : list N :=
  match node_block bt_codec (repeat 0 BLOCK_SIZE) ex_leaf with Ok b => b | _ => [] end.
Example ex_leaf_reads_back :
  check_and_unpack_node bt_codec (mkblock 7 ex_leaf_block) false true = Ok ex_leaf /\
  check_and_unpack_node bt_codec (mkblock 7 ex_leaf_block) false false = Err /\
  check_and_unpack_node bt_codec (mkblock 8 ex_leaf_block) false true = Err.
Proof. vm_compute. repeat split. Qed.
Definition ex_thin_sb : thin_sb :=
  mktsb true 0 2 17 5 0 (repeat 3 (N.to_nat 128)) (repeat 4 (N.to_nat 128)) 100 101 128 4096.
Example ex_thin_sb_range : thin_sb_range ex_thin_sb.
Proof.
  unfold thin_sb_range, ex_thin_sb; cbn -[N.pow repeat N.to_nat].
  repeat split; try reflexivity;
    apply Forall_forall; intros x Hx; apply repeat_spec in Hx; subst; reflexivity.
Qed.
Definition ex_cache_sb : cache_sb :=
  mkcsb true false 0 2 [115; 109; 113] [2; 0; 0] 4 (repeat 1 (N.to_nat 128)) 10 (Some 11) 12 13 14 15
    128 1000 0 0 0 1 2 3 4.
Example ex_cache_sb_range : cache_sb_range ex_cache_sb.
Proof.
  unfold cache_sb_range, ex_cache_sb; cbn -[N.pow repeat N.to_nat].
  repeat split; try reflexivity; try lia;
    first [ apply Forall_forall; intros x Hx; apply repeat_spec in Hx; subst; reflexivity
          | repeat constructor; first [reflexivity | lia] ].
Qed.
Definition ex_era_sb : era_sb :=
  mkesb true 0 1 (repeat 1 (N.to_nat 128)) 128 1000 7 (mkws 1000 33) 34 35 0.
Example ex_era_sb_range : era_sb_range ex_era_sb.
Proof.
  unfold era_sb_range, ex_era_sb, ws_range; cbn -[N.pow repeat N.to_nat].
  repeat split; try reflexivity.
  apply Forall_forall; intros x Hx; apply repeat_spec in Hx; subst; reflexivity.
Qed.
Example ex_bitmap : exists l, bitmap_pack (mkbitmap 3 [Small 1; Overflow; Small 2; Small 0; Small 1]) = Ok l /\
  nth 16 l 0 = 2 + 3 * 4 + 1 * 16.
Proof. eexists. split; [vm_compute; reflexivity|reflexivity]. Qed.

Print Assumptions C02_node_roundtrip.
Print Assumptions C03_reader_accepts_iff_wellformed.
Print Assumptions C03_reader_total.
Print Assumptions C04_block_time.
Print Assumptions C04_metadata_index.
Print Assumptions C05_thin_superblock.
Print Assumptions C05_cache_superblock.
Print Assumptions C05_era_superblock.
Print Assumptions C06_bitmap_roundtrip.
Print Assumptions C06_bitmap_decode.
