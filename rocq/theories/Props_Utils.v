(** Properties C48, C50, C51, C52, C53, C55: key ranges, run iteration, size
    units, size estimates, HashVec and the node map. *)
From Coq Require Import String Ascii.
From Verif Require Import Base Csum_Model Codec_Model Utils_Model Utils_Spec Utils_Proofs UtilsNum_Proofs Pack_Proofs.
Import ListNotations.
Open Scope N_scope.

(** ** C50 *)
(** For every bitmap and length, collecting a RunIter gives consecutive
    non-empty ranges that start at 0, end at [len], are constant and have
    alternating bits. *)
Theorem C50_runs_partition : forall bits len, tiles bits 0 len (ri_collect bits len).
Proof. intros. unfold ri_collect, ri_new. apply ri_collect_spec; lia. Qed.

(** Hence no other alternating cut of the same range exists. *)
Theorem C50_runs_unique : forall bits len rs,
  tiles bits 0 len rs -> rs = ri_collect bits len.
Proof.
  intros bits len.
  assert (H : forall rs rs' from, tiles bits from len rs -> tiles bits from len rs' -> rs = rs').
  { induction rs as [|[b [s e]] rs IH]; intros [|[b' [s' e']] rs'] from; cbn [tiles]; auto.
    - intros -> [-> [? [? _]]]. lia.
    - intros [-> [? [? _]]] Hf. lia.
    - intros [-> [H1 [H2 [H3 [H4 H5]]]]] [-> [H1' [H2' [H3' [H4' H5']]]]].
      assert (b = b') as <- by (rewrite <- (H3 from), <- (H3' from); auto; lia).
      assert (He : e = e').
      { assert (Hx : forall r a c, tiles bits a len r -> a < len ->
           match r with [] => True | (b0, _) :: _ => b0 <> c end -> bits a <> c).
        { intros [|[b0 [s0 e0]] r] a c; cbn [tiles]; [intros; lia|].
          intros [-> [Ha [_ [Hb _]]]] _ Hc. rewrite (Hb a) by lia. auto. }
        destruct (N.lt_trichotomy e e') as [Hl|[He|Hl]]; auto; exfalso.
        - apply (Hx rs e b H5); auto; [lia|]. apply H3'. lia.
        - apply (Hx rs' e' b H5'); auto; [lia|]. apply H3. lia. }
      subst e'. rewrite (IH rs' e H5 H5'). reflexivity. }
  intros rs Hrs. apply (H _ _ 0 Hrs). apply C50_runs_partition.
Qed.

Example C50_example :
  ri_collect (fun k => (k =? 1) || (k =? 2) || (k =? 6)) 7 =
    [(false, (0, 1)); (true, (1, 3)); (false, (3, 6)); (true, (6, 7))].
Proof. reflexivity. Qed.

(** ** C53 *)
(** For every history of inserts with u32 keys: nothing panics, every lookup
    returns the value last inserted under the key, len is the number of
    distinct keys, and the value iterator yields one value per distinct key,
    namely the last inserted. *)
Theorem C53_map : forall (T : Type) (ops : list (N * T)),
  Forall (fun p => fst p < 4294967296) ops ->
  exists v, hv_run hv_new ops = Ok v /\
    (forall k, hv_get v k = Ok (last_value ops k)) /\
    hv_len v = nlen (distinct ops) /\
    exists ks, NoDup ks /\ (forall k, In k ks <-> In k (map fst ops)) /\
      Forall2 (fun k x => last_value ops k = Some x) ks (hv_entries v).
Proof.
  intros T ops Hb. destruct (hv_run_inv ops [] [] hv_new Hb hv_new_inv) as [v [ks [E Hi]]].
  cbn [app] in Hi. exists v. conj; auto.
  - intros k. eapply hv_get_inv; eauto.
  - eapply hv_len_inv; eauto.
  - exists ks. destruct Hi as [H1 [H2 [H3 _]]]. auto.
Qed.

Example C53_example : exists v, hv_run hv_new [(7, 1); (3, 2); (7, 5)] = Ok v /\
  hv_get v 7 = Ok (Some 5) /\ hv_get v 3 = Ok (Some 2) /\ hv_get v 4 = Ok None /\ hv_len v = 2.
Proof. eexists. split; [reflexivity|]. conj; reflexivity. Qed.

(** ** C55 *)
(** For every history of insertions of blocks of the device: nothing panics;
    exactly the operations the specification refuses are refused; every block
    has the type the accepted insertions gave it; the leaves, internal nodes
    and errors are counted exactly, with the recorded info and error of each
    block; len counts internal nodes and leaves. *)
Theorem C55_classification : forall (I E : Type) nr (ops : list (nm_op I E)),
  nr < 4294967296 -> Forall (fun o => op_block o < nr) ops ->
  exists m, nm_run (nm_new nr) ops = Ok (m, verdicts (fun _ => NTNone) ops) /\
    let c := classify (fun _ => NTNone) ops in
    (forall b, nm_get_type m b = c b) /\
    nm_nr_leaves m = how_many nr c NTLeaf /\
    hv_len (nm_info m) = how_many nr c NTInternal /\
    hv_len (nm_errors m) = how_many nr c NTError /\
    nm_len m = how_many nr c NTInternal + how_many nr c NTLeaf /\
    (forall b, hv_get (nm_info m) b = Ok (last_value (acc_info (fun _ => NTNone) ops) b)) /\
    (forall b, hv_get (nm_errors m) b = Ok (last_value (acc_err (fun _ => NTNone) ops) b)).
Proof.
  intros I E nr ops Hnr Hf.
  destruct (nm_run_inv nr ops (fun _ => NTNone) [] [] (nm_new nr) Hnr Hf (nm_new_inv nr)) as [m [Em Hi]].
  exists m. split; [exact Em|]. cbv zeta. cbn [app] in Hi.
  pose proof (fun b => nm_get_type_inv _ _ _ _ _ b Hi) as Hg.
  destruct Hi as [_ _ _ _ _ Hout Hn [ki Hki] Hik [ke Hke] Hek].
  assert (Hli : hv_len (nm_info m) = how_many nr (classify (fun _ => NTNone) ops) NTInternal)
    by (eapply hv_inv_len_count; eauto; discriminate).
  conj; auto.
  - eapply hv_inv_len_count; eauto; discriminate.
  - unfold nm_len. rewrite Hli, Hn. unfold W32.
    pose proof (how_many_sum nr (classify (fun _ => NTNone) ops) NTInternal NTLeaf ltac:(discriminate)).
    rewrite (N.mod_small (how_many _ _ NTInternal)) by lia. apply N.mod_small. lia.
  - intros b. eapply hv_get_inv; eauto.
  - intros b. eapply hv_get_inv; eauto.
Qed.

(** A block that was classified as internal or error is never accepted again,
    and a leaf is never accepted twice as a leaf. *)
Theorem C55_no_double_insert : forall (I E : Type) nr (ops : list (nm_op I E)) m vs o,
  nr < 4294967296 -> Forall (fun o => op_block o < nr) ops -> op_block o < nr ->
  nm_run (nm_new nr) ops = Ok (m, vs) ->
  nm_get_type m (op_block o) = op_type o \/ nm_get_type m (op_block o) = NTInternal \/
    nm_get_type m (op_block o) = NTError ->
  nm_step m o = Err.
Proof.
  intros I E nr ops m vs o Hnr Hf Ho Hr Ht.
  destruct (nm_run_inv nr ops (fun _ => NTNone) [] [] (nm_new nr) Hnr Hf (nm_new_inv nr)) as [m' [Em Hi]].
  rewrite Hr in Em. assert (m' = m) as -> by congruence.
  pose proof (nm_step_inv _ _ _ _ _ o Hnr Ho Hi) as Hs.
  rewrite (nm_get_type_inv _ _ _ _ _ _ Hi) in Ht.
  destruct (accepts _ _) eqn:Ea; auto. exfalso.
  destruct Ht as [Ht|[Ht|Ht]]; rewrite Ht in Ea; destruct o; discriminate.
Qed.

(** "Refuses to insert a block twice" does not hold as it stands: a leaf can be
    inserted again as an internal node or as an error (the code documents it). *)
Theorem C55_leaf_reinserted_refuted : exists m m' : node_map unit unit,
  nm_insert_leaf (nm_new 8) 3 = Ok m /\ nm_insert_internal m 3 tt = Ok m' /\
  nm_get_type m' 3 = NTInternal.
Proof. eexists _, _. split; [reflexivity|]. split; reflexivity. Qed.

(** Blocks beyond the device panic instead of being classified. *)
Theorem C55_out_of_range_panics : forall (I E : Type) nr (o : nm_op I E),
  nr <= op_block o -> op_block o < 4294967296 -> nm_step (nm_new nr) o = Panic.
Proof.
  intros I E nr o H Hw.
  pose proof (nm_get_type_inv nr (fun _ => NTNone) [] [] (nm_new nr) (op_block o) (@nm_new_inv I E nr)) as Hg.
  assert (L1 : (op_block o * 2 <? nr * 2) = false) by lia.
  assert (L2 : (op_block o * 2 + 1 <? nr * 2) = false) by lia.
  destruct o; cbn [nm_step op_block] in *; unfold nm_insert_internal, nm_insert_leaf, nm_insert_error;
    rewrite Hg; unfold nm_set_type, bs_insert; cbn [nm_new nm_type bs_cap nm_info nm_errors hv_insert hv_new hv_map bind];
    rewrite ?L1, ?L2; reflexivity.
Qed.

Example C55_example : exists m, nm_run (nm_new 10)
  [OpLeaf 1; OpInternal 2 5; OpLeaf 1; OpError 1 9; OpInternal 1 6; OpLeaf 4] =
    Ok (m, [true; true; false; true; false; true]) /\
  nm_get_type m 1 = NTError /\ nm_get_type m 2 = NTInternal /\ nm_get_type m 4 = NTLeaf /\ nm_len m = 2.
Proof. eexists. split; [reflexivity|]. conj; reflexivity. Qed.

(** ** C48 *)
(** Splitting one range in two: refused exactly when [n] does not lie strictly
    inside; otherwise the halves hold the keys below and not below [n]. *)
Theorem C48_split : forall kr n,
  match kr_split kr n with
  | None => (exists s, kr_start kr = Some s /\ n <= s) \/ (exists e, kr_end kr = Some e /\ e <= n)
  | Some (a, b) =>
      kr_has kr n /\
      (forall k, kr_has a k <-> kr_has kr k /\ k < n) /\
      (forall k, kr_has b k <-> kr_has kr k /\ n <= k)
  end.
Proof.
  intros [[s|] [e|]] n; unfold kr_split, kr_has; cbn [kr_start kr_end].
  - destruct (N.ltb_spec s n), (N.ltb_spec n e); cbn [andb kr_start kr_end]; try (conj; intros; lia);
      first [left; exists s; split; [auto|lia] | right; exists e; split; [auto|lia]].
  - destruct (N.ltb_spec s n); cbn [kr_start kr_end]; [conj; intros; lia|]. left; exists s; auto.
  - destruct (N.ltb_spec n e); cbn [kr_start kr_end]; [conj; intros; lia|]. right; exists e; auto.
  - conj; intros; lia.
Qed.

(** Splitting by a node's keys succeeds exactly when there is a key, the keys
    increase strictly and every key but the first is below the range's end;
    child [i] gets exactly the keys from key [i] up to key [i+1] (or the end). *)
Theorem C48_split_keys : forall kr keys l,
  split_key_ranges kr keys = Ok l <->
  exists k0 ks, keys = k0 :: ks /\ increasing keys /\ (forall k, In k ks -> below k (kr_end kr)) /\
    l = ranges_of k0 ks (kr_end kr).
Proof.
  intros kr [|k0 ks] l; cbn [split_key_ranges].
  - split; [discriminate|]. intros [? [? [? _]]]; discriminate.
  - rewrite split_loop_iff. split.
    + intros [-> [H1 H2]]. exists k0, ks. auto.
    + intros [k [ks' [Hk [H1 [H2 ->]]]]]. assert (k = k0) by congruence. assert (ks' = ks) by congruence.
      subst. auto.
Qed.

(** The children's ranges are ordered and disjoint and, provided the first key
    is not below the range, their union is the part of the range at or above
    the first key. *)
Theorem C48_split_partition : forall kr k0 ks l,
  split_key_ranges kr (k0 :: ks) = Ok l ->
  match kr_start kr with Some s => s <= k0 | None => True end ->
  length l = length (k0 :: ks) /\
  ForallOrdPairs (fun a b => forall x y, kr_has a x -> kr_has b y -> x < y) l /\
  (forall x, Exists (fun r => kr_has r x) l <-> kr_has kr x /\ k0 <= x).
Proof.
  intros kr k0 ks l H Hs. apply C48_split_keys in H as [k [ks' [Hk [H1 [H2 ->]]]]].
  assert (k = k0) by congruence. assert (ks' = ks) by congruence. subst. conj.
  - assert (Hl : forall ks k0 e, length (ranges_of k0 ks e) = S (length ks)).
    { clear. induction ks; intros; cbn [ranges_of length]; auto. }
    rewrite Hl. reflexivity.
  - apply ranges_of_ordered; auto.
  - intros x. rewrite ranges_of_union by auto. unfold kr_has, below.
    destruct (kr_start kr), (kr_end kr); lia.
Qed.

(** The first key is not checked against the range's start: a node whose first
    key is below its range is accepted and its children get keys outside it. *)
Theorem C48_first_key_unchecked_refuted : exists kr keys l x,
  increasing keys /\ split_key_ranges kr keys = Ok l /\
  Exists (fun r => kr_has r x) l /\ ~ kr_has kr x.
Proof.
  exists (mkkr (Some 10) (Some 20)), [5; 12], [mkkr (Some 5) (Some 12); mkkr (Some 12) (Some 20)], 7.
  conj.
  - cbn; lia.
  - reflexivity.
  - left. unfold kr_has; cbn; lia.
  - unfold kr_has; cbn; lia.
Qed.

Example C48_example : split_key_ranges (mkkr (Some 5) None) [5; 9; 30] =
  Ok [mkkr (Some 5) (Some 9); mkkr (Some 9) (Some 30); mkkr (Some 30) None].
Proof. reflexivity. Qed.

(** ** C51 *)
(** Every accepted size has a byte count below 2^64, computed exactly. *)
Theorem C51_size_no_overflow : forall m u s,
  ss_new m u = Ok s -> ss_size_bytes s = m * unit_bytes u /\ m * unit_bytes u < 18446744073709551616.
Proof.
  intros m u s H. apply ss_new_inv in H as [-> H]. unfold ss_size_bytes. cbn [ss_multiple ss_unit].
  rewrite N.mod_small by exact H. split; auto.
Qed.

Theorem C51_size_accepted_iff : forall m u,
  (exists s, ss_new m u = Ok s) <-> m * unit_bytes u < 18446744073709551616.
Proof.
  intros m u. split.
  - intros [s H]. apply ss_new_inv in H as [_ H]. exact H.
  - intros H. rewrite ss_new_ok by exact H. eauto.
Qed.

(** The same for sizes read from a string. *)
Theorem C51_parsed_no_overflow : forall str s,
  ss_from_str str = Ok s -> ss_size_bytes s = ss_multiple s * unit_bytes (ss_unit s) /\
    ss_multiple s * unit_bytes (ss_unit s) < 18446744073709551616.
Proof.
  intros str s. unfold ss_from_str. destruct (split_digits str) as [d [|c r]]; intros H; inv_bind H.
  - pose proof (ss_new_inv _ _ _ H) as [-> _]. apply C51_size_no_overflow; auto.
  - inv_bind H. pose proof (ss_new_inv _ _ _ H) as [-> _]. apply C51_size_no_overflow; auto.
Qed.

(** Parsing the displayed form gives the same size, for every accepted size in
    every unit except tebibytes. *)
Theorem C51_parse_display_partial : forall m u s,
  ss_new m u = Ok s -> u <> Tebibyte -> ss_from_str (ss_display s) = Ok s.
Proof.
  intros m u s H Hu. apply ss_new_inv in H as [-> H]. apply ss_display_parse; auto.
Qed.

(** In tebibytes the displayed form ("...Tib") is never accepted. *)
Theorem C51_parse_display_refuted : forall m s,
  ss_new m Tebibyte = Ok s -> ss_from_str (ss_display s) = Err.
Proof.
  intros m s H. apply ss_new_inv in H as [-> H]. apply ss_display_tebibyte.
  cbn [unit_bytes] in H. unfold W64 in *. lia.
Qed.

(** The one-letter form of every unit parses back; the long form does for every
    unit except tebibytes, whose long form is read as terabytes. *)
Theorem C51_letter_roundtrip : forall u, unit_from_str (to_letter u) = Ok u.
Proof. destruct u; reflexivity. Qed.
Theorem C51_long_name_partial : forall u, u <> Tebibyte -> unit_from_str (unit_display u) = Ok u.
Proof. destruct u; intros; try reflexivity; contradiction. Qed.
Theorem C51_long_name_refuted : unit_from_str (unit_display Tebibyte) = Ok Terabyte.
Proof. reflexivity. Qed.

(** A bare number counts sectors. *)
Theorem C51_default_sectors : forall n, n < 18446744073709551616 ->
  ss_from_str (dec_display n) = ss_new n Sector.
Proof.
  intros n H. unfold ss_from_str.
  pose proof (dec_display_split n EmptyString eq_refl) as Hs.
  assert (Ha : forall s, append s EmptyString = s) by (induction s; simpl; congruence).
  rewrite Ha in Hs. rewrite Hs, dec_display_parse by exact H. reflexivity.
Qed.

(** Pretty printing: for every u64, the unit index is in range, the multiple is
    at most 8192 (and at least 8 unless the unit is the byte), bytes are exact
    and the printed size differs by less than one unit. *)
Theorem C51_pretty_partial : forall bytes, bytes < 18446744073709551616 ->
  exists m u, to_pretty_print_size bytes = Ok (m, u) /\
    In u pretty_units /\ m <= 8192 /\ (u <> Byte -> 8 <= m) /\ (u = Byte -> m = bytes) /\
    dist (m * unit_bytes u) bytes < unit_bytes u.
Proof. intros. apply pretty_spec. auto. Qed.

(** "At most half a unit" is false: 1049599 bytes = 1024.999 KiB prints as 1024 KiB. *)
Theorem C51_pretty_half_unit_refuted : exists bytes m u, bytes < 18446744073709551616 /\
  to_pretty_print_size bytes = Ok (m, u) /\ unit_bytes u < 2 * dist (m * unit_bytes u) bytes.
Proof. exists 1049599, 1024, Kibibyte. conj; reflexivity. Qed.

(** Nor does the case the code's comment promises hold: 8192.5 KiB is printed
    as 8192 KiB, not 8 MiB. *)
Theorem C51_pretty_comment_refuted : to_pretty_print_size (8192 * 1024 + 512) = Ok (8192, Kibibyte).
Proof. reflexivity. Qed.

Example C51_example : ss_from_str "12MiB" = Ok (mkss 12 Mebibyte) /\
  ss_display (mkss 12 Mebibyte) = "12MiB"%string /\ ss_from_str "" = Err /\
  ss_from_str "18446744073709551616b" = Err /\ ss_from_str "1Tib" = Err /\
  to_pretty_print_size 1048064 = Ok (1024, Kibibyte) /\ to_pretty_print_size 8389632 = Ok (8, Mebibyte).
Proof. conj; vm_compute; reflexivity. Qed.

(** ** C52 *)
Theorem C52_thin_block_size : forall bs, check_data_block_size bs = Ok tt <->
  exists k, 1 <= k /\ bs = k * (64 * 1024) /\ bs <= 1024 * 1024 * 1024.
Proof. exact check_data_block_size_iff. Qed.
Theorem C52_cache_block_size : forall bs, check_cache_block_size bs = Ok tt <->
  exists k, 1 <= k /\ bs = k * (32 * 1024) /\ bs <= 1024 * 1024 * 1024.
Proof. exact check_cache_block_size_iff. Qed.

(** Never more than the largest metadata device: 255 bitmaps of 16320 blocks of
    4 KiB. *)
Theorem C52_thin_max : forall nr mt, thin_metadata_size nr mt <= 255 * 16320 * 4096.
Proof. exact thin_size_max. Qed.
Theorem C52_cache_max : forall nr hw, cache_metadata_size nr hw <= 255 * 16320 * 4096.
Proof. intros. unfold cache_metadata_size. cbv zeta. unfold MAX_METADATA_BLOCKS. lia. Qed.

(** The thin estimate for accepted pool and block sizes: one block for the
    superblock, one per 126 mappings, one per device, capped; no step
    overflows as long as there are fewer than 2^63 devices. *)
Theorem C52_thin_exact : forall pool bs mt nr mt',
  pool < 18446744073709551616 -> mt < 2 ^ 63 ->
  thin_size_options pool bs mt = Ok (nr, mt') ->
  mt' = mt /\ nr = pool / bs /\
  thin_metadata_size nr mt' = N.min (1 + (nr + 125) / 126 + mt) (255 * 16320) * 4096.
Proof.
  intros pool bs mt nr mt' Hp Hm H. unfold thin_size_options in H. inv_bind H. destruct a.
  destruct (N.ltb_spec pool bs); [discriminate|].
  assert (nr = pool / bs) by congruence. assert (mt' = mt) by congruence. subst.
  apply check_data_block_size_iff in E as [k [Hk [-> _]]]. conj; auto.
  apply thin_size_exact; auto. change (2 ^ 48) with 281474976710656.
  assert (pool / (k * 65536) <= pool / 65536).
  { apply N.div_le_compat_l. lia. }
  dlia.
Qed.

Theorem C52_thin_monotone : forall nr nr' mt mt',
  nr <= nr' -> mt <= mt' -> nr' < 2 ^ 48 -> mt' < 2 ^ 63 ->
  thin_metadata_size nr mt <= thin_metadata_size nr' mt'.
Proof.
  intros. rewrite !thin_size_exact by lia.
  apply N.mul_le_mono_r. apply N.min_le_compat_r.
  assert ((nr + 125) / 126 <= (nr' + 125) / 126) by (apply N.div_le_mono; lia). lia.
Qed.

(** Without the bound on the number of devices the sum wraps. *)
Theorem C52_thin_overflow_refuted : exists mt mt', mt <= mt' /\ mt' < 18446744073709551616 /\
  thin_metadata_size 1000 mt' < thin_metadata_size 1000 mt.
Proof. exists 1000, 18446744073709551615. conj; vm_compute; [discriminate|reflexivity|reflexivity]. Qed.

(** The cache estimate: 24 bytes plus the hint per block plus 4 MiB, capped, as
    long as the sum fits 64 bits. *)
Theorem C52_cache_exact : forall nr hw, hw < 4294967296 ->
  nr * (hw + 24) + 4194304 < 18446744073709551616 ->
  cache_metadata_size nr hw = N.min (4194304 + nr * (hw + 24)) (255 * 16320 * 4096).
Proof. intros. apply cache_size_exact; auto. Qed.

(** In particular for every accepted block size and every device size up to
    2^64 - 2^30 bytes, with hints of up to 16 KiB. *)
Theorem C52_cache_from_sizes : forall dev bs nr hw,
  dev + 1073741824 <= 18446744073709551616 -> hw <= 16384 ->
  cache_nr_blocks dev bs = Ok nr ->
  nr = (dev + bs - 1) / bs /\
  cache_metadata_size nr hw = N.min (4194304 + nr * (hw + 24)) (255 * 16320 * 4096).
Proof.
  intros dev bs nr hw Hd Hh H. unfold cache_nr_blocks in H. inv_bind H. destruct a.
  destruct (N.ltb_spec dev bs); [discriminate|].
  apply check_cache_block_size_iff in E as [k [Hk [Hbs Hmax]]].
  okinj H. unfold div_up_u64, W64. rewrite (N.mod_small (dev + (bs - 1))) by lia.
  replace (dev + (bs - 1)) with (dev + bs - 1) by lia. split; auto.
  assert (Hle : (dev + bs - 1) / bs <= 2 ^ 49).
  { rewrite Hbs at 2. eapply N.le_trans; [apply N.div_le_compat_l with (q := 32768); lia|].
    change (2 ^ 49) with 562949953421312. dlia. }
  apply cache_size_exact; [|unfold W32; lia].
  generalize dependent ((dev + bs - 1) / bs). change (2 ^ 49) with 562949953421312. unfold W64. intros q Hq.
  assert (q * (hw + 24) <= 562949953421312 * 16408) by (apply N.mul_le_mono; lia). lia.
Qed.

Theorem C52_cache_monotone : forall nr nr' hw hw',
  nr <= nr' -> hw <= hw' -> hw' < 4294967296 ->
  nr' * (hw' + 24) + 4194304 < 18446744073709551616 ->
  cache_metadata_size nr hw <= cache_metadata_size nr' hw'.
Proof.
  intros. assert (nr * (hw + 24) <= nr' * (hw' + 24)) by (apply N.mul_le_mono; lia).
  rewrite !cache_size_exact by (unfold W64, W32; lia).
  apply N.min_le_compat_r. lia.
Qed.

(** Beyond that the estimate can shrink as the cache grows, and a device within
    a block of 2^64 bytes is taken to have no blocks at all. *)
Theorem C52_cache_overflow_refuted : exists nr nr', nr <= nr' /\ nr' < 18446744073709551616 /\
  cache_metadata_size nr' 4 < cache_metadata_size nr 4.
Proof. exists 1000, 4611686018427387904. conj; vm_compute; [discriminate|reflexivity|reflexivity]. Qed.
Theorem C52_cache_nr_blocks_refuted : exists dev bs, dev < 18446744073709551616 /\ bs <= dev /\
  cache_nr_blocks dev bs = Ok 0.
Proof. exists 18446744073709550592, 32768. conj; vm_compute; [reflexivity|discriminate|reflexivity]. Qed.

Example C52_example : thin_size_options 1099511627776 65536 100 = Ok (16777216, 100) /\
  thin_metadata_size 16777216 100 = 545808384 /\ cache_metadata_size 32768 4 = 5111808.
Proof. conj; vm_compute; reflexivity. Qed.

Print Assumptions C50_runs_unique.
Print Assumptions C53_map.
Print Assumptions C55_classification.
Print Assumptions C48_split_partition.
Print Assumptions C51_pretty_partial.
Print Assumptions C52_cache_from_sizes.
