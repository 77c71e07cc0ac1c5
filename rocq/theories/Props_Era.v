(** C35 - C38: restoring, dumping and querying era metadata. *)
From Verif Require Import Base Csum_Model Codec_Model Codec_Spec Codec_Proofs SpaceMap_Model SpaceMap_Spec SpaceMap_Proofs Utils_Model Utils_Proofs
  IoMany_Proofs Batcher_Model Batcher_Proofs Builder_Model Builder_Spec Builder_Proofs BtreeBuild_Proofs BtreeRead_Proofs Walker_Model Walker_Spec Props_Btree
  ThinOut_Model Array_Model Array_Spec Array_Proofs ArrayWalk_Proofs Props_Array Props_Walker Era_Model Era_Spec EraRuns_Proofs EraRestore_Proofs EraDump_Proofs EraInval_Proofs.

(** ** C35 *)
Lemma assoc_in (kvs : list (N * N)) i v : assoc kvs i = Some v -> In (i, v) kvs.
Proof.
  induction kvs as [|[k x] kvs IH]; cbn [assoc]; [discriminate|]. destruct (N.eqb_spec i k) as [->|]; [intros E; injection E as ->; left; auto|]. right. auto.
Qed.
Lemma contents_bit kvs nr x : x / 64 < nr -> bit_at 64 (contents 0 nr kvs) x = N.testbit (value_at 0 kvs (x / 64)) (x mod 64).
Proof.
  intros H. unfold bit_at, contents. f_equal. rewrite (nth_indep _ 0 (value_at 0 kvs 0)).
  - rewrite map_nth. f_equal. rewrite nth_range; lia.
  - rewrite map_length, range_length. lia.
Qed.
Lemma contents_len kvs nr : nlen (contents 0 nr kvs) = nr.
Proof. unfold contents, nlen. rewrite map_length, range_length. lia. Qed.
Lemma contents_small kvs nr : Forall (fun kv : N * N => snd kv < 2 ^ 64) kvs -> Forall (fun w => w < 2 ^ 64) (contents 0 nr kvs).
Proof.
  intros H. unfold contents. apply Forall_forall. intros w Hw. apply in_map_iff in Hw as (i & <- & _). unfold value_at.
  destruct (assoc kvs i) as [v|] eqn:E; [|reflexivity]. apply assoc_in in E. rewrite Forall_forall in H. apply (H _ E).
Qed.
(** Restoring one writeset of [nr_bits] blocks whose marked ranges [rs] are ordered, disjoint
    and inside, and none of which crosses a boundary between 64-bit words.  Success: the
    device, once flushed, has an array of just enough words at the returned root, in which
    the bit of a block is set iff the block is marked, made of blocks that were free.  The
    only failure is that the device is full.
    Missing for C35: ranges that cross a word boundary, for which it is false (below). *)
Theorem C35_restore_writeset_partial : forall n max w nr_bits rs w' out,
  usable n max w -> 0 < nr_bits < 2 ^ 32 -> marked_ranges 0 nr_bits rs -> Forall within_word rs ->
  restore_writeset nr_bits rs w = (w', out) ->
  match out with
  | Ok root =>
      exists words blocks foot,
        array_at u64_codec (flushed w') root words foot blocks /\ nlen words = (nr_bits + 63) / 64 /\ Forall (fun v => v < 2 ^ 64) words /\
        (forall x, bit_at 64 words x = true <-> marked rs x) /\
        NoDup (blocks ++ foot) /\ (forall b, In b (blocks ++ foot) -> b < n /\ sm_counts (wb_sm w) b = 0) /\
        (forall b, 0 < sm_counts (wb_sm w) b -> flushed w' b = flushed w b)
  | Err => exhausted n max w'
  | Panic => False
  end.
Proof.
  intros n max w nr rs w' out Hu Hnr Hm Hw E. rewrite restore_is_build in E.
  destruct (ws_words_facts nr rs Hm ltac:(lia)) as (Hi & Hs & Hset & Hex). destruct (Hex Hw) as [Hex1 Hex2]. clear Hex. specialize (Hex2 ltac:(lia)).
  assert (Ed : div_up_u64 nr 64 = div_up nr 64).
  { unfold div_up_u64, div_up. rewrite N.mod_small; auto. change W64 with 18446744073709551616. change (2 ^ 32) with 4294967296 in Hnr. lia. }
  rewrite Ed in E. assert (Hdu : div_up nr 64 = (nr + 63) / 64) by reflexivity.
  pose proof (C41_array_build N u64_codec (fun v => v < 2 ^ 64) 0 n max w (div_up nr 64) (ws_words rs) w' out u64_lossless) as H.
  specialize (H ltac:(cbn; lia) ltac:(reflexivity) Hu).
  assert (Hb : div_up nr 64 < 2 ^ 32) by (rewrite Hdu; change (2 ^ 32) with 4294967296 in *; dlia).
  specialize (H ltac:(change (2 ^ 64) with 18446744073709551616; change (2 ^ 32) with 4294967296 in *; lia) Hs E). destruct out as [root| |].
  - destruct H as (_ & _ & _ & blocks & foot & A & B & C & _ & D). exists (contents 0 (div_up nr 64) (ws_words rs)), blocks, foot. conj; auto.
    + rewrite contents_len. auto.
    + apply contents_small; auto.
    + intros x. destruct (N.lt_ge_cases (x / 64) (div_up nr 64)) as [Hx|Hx].
      * rewrite contents_bit by auto. split; auto.
      * unfold bit_at. rewrite nth_overflow, N.bits_0 by (pose proof (contents_len (ws_words rs) (div_up nr 64)); unfold nlen in *; lia).
        split; [discriminate|]. intros Hmk. exfalso. specialize (Hset x Hmk). unfold value_at in Hset.
        destruct (assoc (ws_words rs) (x / 64)) as [v|] eqn:Ev; [|rewrite N.bits_0 in Hset; discriminate].
        apply assoc_in in Ev. rewrite Forall_forall in Hex2. specialize (Hex2 _ Ev). cbn [fst] in Hex2. lia.
  - destruct H as [H|[(kv & Hin & H)|H]]; auto; [contradiction|]. rewrite Forall_forall in Hex2. specialize (Hex2 _ Hin). lia.
  - auto.
Qed.
(** Whatever the ranges, no marked block is lost. *)
Theorem C35_no_block_lost : forall n max w nr_bits rs w' root,
  usable n max w -> nr_bits < 2 ^ 32 -> marked_ranges 0 nr_bits rs ->
  restore_writeset nr_bits rs w = (w', Ok root) ->
  exists words blocks foot,
    array_at u64_codec (flushed w') root words foot blocks /\ nlen words = (nr_bits + 63) / 64 /\
    forall x, marked rs x -> bit_at 64 words x = true.
Proof.
  intros n max w nr rs w' root Hu Hnr Hm E. rewrite restore_is_build in E.
  destruct (ws_words_facts nr rs Hm ltac:(lia)) as (Hi & Hs & Hset & _).
  assert (Ed : div_up_u64 nr 64 = div_up nr 64).
  { unfold div_up_u64, div_up. rewrite N.mod_small; auto. change W64 with 18446744073709551616. change (2 ^ 32) with 4294967296 in Hnr. lia. }
  rewrite Ed in E. assert (Hdu : div_up nr 64 = (nr + 63) / 64) by reflexivity.
  pose proof (C41_array_build N u64_codec (fun v => v < 2 ^ 64) 0 n max w (div_up nr 64) (ws_words rs) w' (Ok root) u64_lossless) as H.
  specialize (H ltac:(cbn; lia) ltac:(reflexivity) Hu).
  assert (Hb : div_up nr 64 < 2 ^ 32) by (rewrite Hdu; change (2 ^ 32) with 4294967296 in *; dlia).
  specialize (H ltac:(change (2 ^ 64) with 18446744073709551616; change (2 ^ 32) with 4294967296 in *; lia) Hs E). cbv beta iota in H.
  destruct H as (_ & Hk & _ & blocks & foot & A & _). exists (contents 0 (div_up nr 64) (ws_words rs)), blocks, foot. conj; auto.
  - rewrite contents_len. auto.
  - intros x Hmk. specialize (Hset x Hmk). rewrite contents_bit; auto. unfold value_at in Hset.
    destruct (assoc (ws_words rs) (x / 64)) as [v|] eqn:Ev; [|rewrite N.bits_0 in Hset; discriminate].
    apply assoc_in in Ev. rewrite Forall_forall in Hk. apply (Hk _ Ev).
Qed.

(** ** C36 *)
(** What a dump emits for a writeset, as (begin, len), covers exactly the blocks marked in
    it, in order and with gaps between.  Stray bits beyond the end do not matter, except
    that of block 2^32 - 1. *)
Theorem C36_dump_writeset : forall eng d nr ws words repair,
  nr < 2 ^ 64 -> readable_set eng d nr ws words -> bit_at 64 words (2 ^ 32 - 1) = false ->
  exists rs, dump_writeset eng nr ws repair = Ok rs /\
    separated (map (fun r => (fst r, fst r + snd r)) rs) /\
    forall x, covered (map (fun r => (fst r, fst r + snd r)) rs) x <-> marks ws words x.
Proof.
  intros eng d nr ws words repair Hnr (R & Hl & Hb & HF) Htop.
  destruct (read_words eng d nr (ws_root ws) (ws_nr_bits ws) repair words R Hnr Hb HF) as (bs & Er & Lb & Fb & Bb).
  { rewrite Hl. unfold div_up. dlia. }
  change (2 ^ 32) with 4294967296 in *.
  assert (Hlb : nlen bs * 32 <= 4294967296 /\ ws_nr_bits ws <= nlen bs * 32) by (rewrite Lb; unfold div_up; split; dlia).
  pose proof (bit_runs_spec 32 (ws_nr_bits ws) bs) as H. change (2 ^ 32) with 4294967296 in *. change (N.of_nat 32) with 32 in H. change (2 ^ 32) with 4294967296 in *.
  assert (Ht : bit_at 32 bs (4294967296 - 1) = false).
  { destruct (N.lt_ge_cases (4294967296 - 1) (32 * nlen bs)) as [Hx|Hx]; [rewrite Bb by auto; auto|].
    unfold bit_at. rewrite nth_overflow, N.bits_0; auto. unfold nlen in *. dlia. }
  specialize (H ltac:(lia) ltac:(lia) Ht Fb ltac:(lia) ltac:(lia)). destruct H as [Hs Hc].
  exists (dump_ranges (ws_nr_bits ws) bs). unfold dump_writeset. rewrite Er. cbn [bind].
  assert (Em : map (fun r => (fst r, fst r + snd r)) (dump_ranges (ws_nr_bits ws) bs) = bit_runs 32 (ws_nr_bits ws) bs).
  { unfold dump_ranges. rewrite map_map. rewrite <- (map_id (bit_runs _ _ _)) at 2. apply map_ext_in. intros [b e] Hin. cbn [fst snd].
    f_equal. assert (b < e); [|lia]. clear - Hs Hin. induction (bit_runs 32 (ws_nr_bits ws) bs) as [|[b' e'] l IH]; [easy|].
    destruct Hs as (H1 & _ & H2). destruct Hin as [Ein|Hin]; [injection Ein as -> ->; auto|auto]. }
  rewrite Em. conj; auto. intros x. rewrite Hc. unfold marks. split; intros [H1 H2]; split; auto; [rewrite <- Bb by lia; auto|rewrite Bb by lia; auto].
Qed.
(** In particular for every writeset without stray bits, or of at most 2^32 - 64 blocks. *)
Lemma top_clear ws words : ws_nr_bits ws < 2 ^ 32 -> nlen words = (ws_nr_bits ws + 63) / 64 ->
  clean_tail ws words \/ ws_nr_bits ws + 64 <= 2 ^ 32 -> bit_at 64 words (2 ^ 32 - 1) = false.
Proof.
  intros Hb Hl [H|H]; [apply H; lia|]. unfold bit_at. rewrite nth_overflow, N.bits_0; auto. unfold nlen in *. change (2 ^ 32) with 4294967296 in *.
  change ((4294967296 - 1) / 64) with 67108863. dlia.
Qed.
Theorem C36_dump_writeset_usual : forall eng d nr ws words repair,
  nr < 2 ^ 64 -> readable_set eng d nr ws words -> clean_tail ws words \/ ws_nr_bits ws + 64 <= 2 ^ 32 ->
  exists rs, dump_writeset eng nr ws repair = Ok rs /\
    separated (map (fun r => (fst r, fst r + snd r)) rs) /\
    forall x, covered (map (fun r => (fst r, fst r + snd r)) rs) x <-> marks ws words x.
Proof. intros eng d nr ws words repair Hnr R H. apply C36_dump_writeset with (d := d); auto. destruct R as (_ & Hl & Hb & _). apply (top_clear ws words); auto. Qed.

(** ** C37 *)
(** What era_invalidate reports for the archived writesets [sets] and the era array [eras]:
    in order and with gaps between, exactly the blocks of the device that are marked in an
    archived writeset of an era from [t] on, or that have an era from [t] on in the era array,
    the latter only if the archived writesets do not reach back to [t].
    Missing for C37: see the refutations below - the current writeset is not looked at, and
    the era array is not looked at when no writeset is archived. *)
Theorem C37_invalidate_partial : forall eng d nr sb sets eras t,
  nr < 2 ^ 64 -> es_nr_blocks sb + 64 <= 2 ^ 32 ->
  readable_tree eng d nr (es_writeset_tree_root sb) (map fst sets) -> increasing (map fst (map fst sets)) ->
  Forall (fun s => readable_set eng d nr (snd (fst s)) (snd s) /\ fst (fst s) < 2 ^ 32) sets ->
  readable_array u32_codec eng d nr (es_era_array_root sb) eras -> nlen eras <= es_nr_blocks sb ->
  exists rs, era_invalidate eng nr sb t = Ok rs /\ separated rs /\
    forall x, covered rs x <-> x < es_nr_blocks sb /\
      ((exists e ws words, In ((e, ws), words) sets /\ t <= e /\ bit_at 64 words x = true) \/
       (exists first e, hd_error (map (fun s => fst (fst s)) sets) = Some first /\ t < first /\ nth_error eras (N.to_nat x) = Some e /\ t <= e)).
Proof.
  intros eng d nr sb sets eras t Hnr Hbl (depth & foot & HT & HN & Hf) Hinc HG HR Hle.
  change (2 ^ 32) with 4294967296 in *.
  unfold era_invalidate, mark_blocks_since.
  rewrite (C54_btree_to_map ws_codec false eng d depth _ _ foot nr HT HN Hinc Hnr Hf). cbn [bind].
  set (bits0 := repeat 0 (N.to_nat (div_up (es_nr_blocks sb) 64))).
  assert (L0 : nlen bits0 = div_up (es_nr_blocks sb) 64) by (unfold bits0, nlen; rewrite repeat_length; lia).
  assert (Z0 : forall x, bit_at 64 bits0 x = false).
  { intros x. unfold bit_at, bits0. rewrite nth_repeat. apply N.bits_0. }
  assert (F0 : Forall (fun w => w < 2 ^ 64) bits0) by (unfold bits0; apply Forall_forall; intros y Hy; apply repeat_spec in Hy; subst; reflexivity).
  clearbody bits0.
  assert (Hd : es_nr_blocks sb <= 64 * div_up (es_nr_blocks sb) 64 /\ div_up (es_nr_blocks sb) 64 * 64 < 4294967296) by (unfold div_up; split; dlia).
  destruct (inv_sets_ok eng d nr t Hnr sets bits0 HG F0) as (bits1 & -> & L1 & F1 & B1). cbn [bind].
  assert (L1' : nlen bits1 = div_up (es_nr_blocks sb) 64) by (unfold nlen in *; lia).
  assert (Hfin : exists bits2, match map fst sets with
      | [] => Ok bits1
      | (first, _) :: _ => if t <? first mod W32 then inv_era_array eng nr (es_era_array_root sb) t bits1 else Ok bits1 end = Ok bits2 /\
      nlen bits2 = nlen bits1 /\ Forall (fun w => w < 2 ^ 64) bits2 /\
      forall x, bit_at 64 bits2 x = true <-> bit_at 64 bits1 x = true \/
       (exists first e, hd_error (map (fun s => fst (fst s)) sets) = Some first /\ t < first /\ nth_error eras (N.to_nat x) = Some e /\ t <= e)).
  { destruct sets as [|[[first ws] words] sets']; cbn [map fst hd_error].
    - exists bits1. conj; auto. intros x. split; auto. intros [H|(? & ? & H & _)]; auto. discriminate.
    - inversion HG as [|? ? [_ Hfirst] _]; subst. cbn [fst] in Hfirst. rewrite (N.mod_small first) by exact Hfirst.
      destruct (N.ltb_spec t first) as [Ht|Ht].
      + destruct (inv_era_array_ok eng d nr _ t eras bits1 HR Hnr ltac:(change (2 ^ 32) with 4294967296; lia) ltac:(lia) F1) as (bits2 & -> & L2 & F2 & B2).
        exists bits2. conj; auto. { unfold nlen. rewrite L2. auto. }
        intros x. rewrite B2, Bool.orb_true_iff. unfold old_enough. rewrite N.sub_0_r. destruct (N.leb_spec 0 x); [|lia]. cbn [andb].
        split; (intros [H'|H']; [left; auto|right]).
        * destruct (nth_error eras (N.to_nat x)) as [e|] eqn:Ee; [|discriminate]. apply N.leb_le in H'. exists first, e. auto.
        * destruct H' as (f & e & _ & _ & -> & He). apply N.leb_le. auto.
      + exists bits1. conj; auto. intros x. split; auto. intros [H|(f & e & H & H' & _)]; auto. injection H as ->. lia. }
  destruct Hfin as (bits2 & -> & L2 & F2 & B2). cbn [bind].
  pose proof (bit_runs_spec 64 (es_nr_blocks sb) bits2) as H. change (N.of_nat 64) with 64 in H. change (2 ^ 32) with 4294967296 in *.
  assert (Ht : bit_at 64 bits2 (4294967296 - 1) = false).
  { unfold bit_at. rewrite nth_overflow, N.bits_0; auto. unfold nlen in *. change ((4294967296 - 1) / 64) with 67108863. lia. }
  specialize (H ltac:(lia) ltac:(lia) Ht F2 ltac:(lia) ltac:(lia)). destruct H as [Hs Hc].
  exists (bit_runs 64 (es_nr_blocks sb) bits2). conj; auto. intros x. rewrite Hc. rewrite B2.
  split; intros [Hx H]; (split; [auto|]).
  - destruct H as [H|H]; [|auto]. left. apply B1 in H; [|lia]. rewrite Z0 in H. destruct H as [H|H]; [discriminate|auto].
  - destruct H as [H|H]; [|auto]. left. apply B1; [lia|]. auto.
Qed.
(** When the archived writesets are all there is, and every value in the era array is older
    than all of them, the answer is the one asked for. *)
Theorem C37_invalidate_archived_partial : forall eng d nr sb first sets eras t,
  nr < 2 ^ 64 -> es_nr_blocks sb + 64 <= 2 ^ 32 ->
  readable_tree eng d nr (es_writeset_tree_root sb) (map fst (first :: sets)) -> increasing (map fst (map fst (first :: sets))) ->
  Forall (fun s => readable_set eng d nr (snd (fst s)) (snd s) /\ clean_tail (snd (fst s)) (snd s) /\ ws_nr_bits (snd (fst s)) <= es_nr_blocks sb /\
                   fst (fst s) < 2 ^ 32) (first :: sets) ->
  readable_array u32_codec eng d nr (es_era_array_root sb) eras -> nlen eras <= es_nr_blocks sb -> Forall (fun e => e < fst (fst first)) eras ->
  exists rs, era_invalidate eng nr sb t = Ok rs /\ separated rs /\
    forall x, covered rs x <->
      (exists e, t <= e /\ written_in (first :: sets) e x) \/ (exists e, nth_error eras (N.to_nat x) = Some e /\ t <= e).
Proof.
  intros eng d nr sb first sets eras t Hnr Hbl HT Hinc HG HR Hle Hold.
  destruct (C37_invalidate_partial eng d nr sb (first :: sets) eras t Hnr Hbl HT Hinc) as (rs & E & Hs & Hc); auto.
  { eapply Forall_impl; [|exact HG]. cbn. tauto. }
  exists rs. conj; auto. intros x. rewrite Hc. rewrite Forall_forall in HG, Hold. split.
  - intros [Hx [(e & ws & words & Hin & He & Hb)|(f & e & Hf & Hlt & Hn & He)]].
    + left. exists e. split; auto. exists ws, words. split; auto. split; auto.
      destruct (HG _ Hin) as (_ & Hcl & _). cbn [fst snd] in Hcl. destruct (N.lt_ge_cases x (ws_nr_bits ws)) as [|H]; auto. rewrite (Hcl x H) in Hb. discriminate.
    + right. exists e. auto.
  - intros [(e & He & ws & words & Hin & Hm)|(e & Hn & He)].
    + destruct (HG _ Hin) as (_ & _ & Hb & _). cbn [fst snd] in Hb. destruct Hm as [Hx Hm]. split; [lia|]. left. exists e, ws, words. auto.
    + assert (In e eras) by (eapply nth_error_In; eauto). specialize (Hold e H).
      assert (N.to_nat x < length eras)%nat by (apply nth_error_Some; congruence). split; [unfold nlen in *; lia|].
      right. exists (fst (fst first)), e. cbn [map hd_error]. conj; auto. lia.
Qed.

(** ** C38 *)
Lemma nth_range_eras {A} (l : list (N * A)) a e : map fst l = range a e -> forall k s, nth_error l k = Some s -> fst s = a + N.of_nat k.
Proof.
  intros H k s Hk. assert (Hk' : nth_error (map fst l) k = Some (fst s)) by (apply map_nth_error; auto). rewrite H in Hk'.
  assert (k < length (range a e))%nat by (apply nth_error_Some; congruence). rewrite range_length in *.
  rewrite (nth_error_nth' _ 0) in Hk' by (rewrite range_length; auto). injection Hk' as Hk'. rewrite nth_range in Hk' by lia. lia.
Qed.
(** A logical dump lists every block of the device once, in order, each with the latest era
    in which it was written according to the writesets (archived and current), and with
    what the era array says if none of them marks it. *)
Theorem C38_logical_dump : forall eng d nr sb old sets eras a repair,
  nr < 2 ^ 64 -> es_current_era sb < 2 ^ 32 ->
  readable_tree eng d nr (es_writeset_tree_root sb) old -> increasing (map fst old) ->
  map fst sets = all_sets sb old -> sets <> [] ->
  map fst (all_sets sb old) = range a (es_current_era sb + 1) -> nlen sets < 2 ^ 32 - 1 ->
  Forall (fun s => readable_set eng d nr (snd (fst s)) (snd s) /\ clean_tail (snd (fst s)) (snd s) /\ ws_nr_bits (snd (fst s)) <= es_nr_blocks sb) sets ->
  readable_array u32_codec eng d nr (es_era_array_root sb) eras -> nlen eras = es_nr_blocks sb -> 0 < es_nr_blocks sb < 2 ^ 32 ->
  exists out, dump_metadata_logical eng nr sb repair = Ok out /\
    map fst out = range 0 (es_nr_blocks sb) /\
    Forall (fun be => latest_era sets eras (fst be) (snd be)) out.
Proof.
  intros eng d nr sb old sets eras a repair Hnr Hcur (depth & foot & HT & HN & Hf) Hinc Hsets Hne Hera Hcount HG HR Hle Hbl.
  assert (Ha : a <= es_current_era sb).
  { destruct (N.lt_ge_cases (es_current_era sb) a) as [H|H]; auto. exfalso. apply Hne. rewrite range_nil in Hera by lia.
    apply map_eq_nil in Hera. rewrite Hera in Hsets. apply map_eq_nil in Hsets. auto. }
  assert (Hlen : nlen sets = es_current_era sb + 1 - a).
  { assert (length (map fst (map fst sets)) = length (range a (es_current_era sb + 1))) as H by (rewrite Hsets, Hera; auto).
    rewrite !map_length, range_length in H. unfold nlen. lia. }
  change (2 ^ 32) with 4294967296 in *.
  unfold dump_metadata_logical, collate_writesets, get_writesets_ordered.
  rewrite (C54_btree_to_map ws_codec repair eng d depth _ _ foot nr HT HN Hinc Hnr Hf). cbn [bind].
  rewrite (order_ok sb old a) by (auto; lia). cbn [bind].
  assert (Hk : nlen (all_sets sb old) = nlen sets) by (rewrite <- Hsets; unfold nlen; rewrite map_length; auto). rewrite Hk.
  assert (Ehd : match all_sets sb old with [] => 0 | (e, _) :: _ => e end = a).
  { destruct (all_sets sb old) as [|[e ws] r]; [unfold nlen in Hk; cbn in Hk; unfold nlen in *; lia|]. rewrite range_cons in Hera by lia. cbn [map fst] in Hera. congruence. }
  rewrite Ehd. set (a0 := new_era_archive (es_nr_blocks sb) a (nlen sets mod W32)).
  assert (Hk1 : nlen sets < 4294967295) by lia.
  assert (Hw : nlen sets < a_width a0 <= 4294967296).
  { unfold a0, new_era_archive. cbn [a_width]. rewrite (N.mod_small (nlen sets)) by (change W32 with 4294967296; lia).
    unfold add32. rewrite N.mod_small by (change W32 with 4294967296; lia).
    destruct (N.ltb_spec (nlen sets + 1) 256); [change (2 ^ 8) with 256; lia|]. destruct (N.ltb_spec (nlen sets + 1) 65536); [change (2 ^ 16) with 65536; lia|].
    change (2 ^ 32) with 4294967296. lia. }
  assert (HA0 : EraDump_Proofs.AInv (es_nr_blocks sb) [] a0).
  { unfold EraDump_Proofs.AInv. conj.
    - unfold a0, new_era_archive, nlen. cbn [a_deltas]. rewrite repeat_length. lia.
    - change (0 < a_width a0). clear - Hw. lia.
    - intros x Hx. left. split; [unfold a0, new_era_archive; cbn [a_deltas]; apply nth_repeat|]. intros [|k] s H; discriminate. }
  assert (Hdig : a_digested a0 = sub32 a 1) by reflexivity. clearbody a0.
  destruct (collate_sets_ok eng d nr (es_nr_blocks sb) repair Hnr sets [] a0 HA0 HG) as (a1 & E1 & D1 & I1).
  { unfold nlen at 1. cbn [length]. lia. } { change (2 ^ 32) with 4294967296. lia. }
  change (nlen []) with 0 in E1. rewrite Hsets in E1. rewrite E1. cbn [bind app] in *.
  rewrite (dump_eras_ok eng d nr repair _ eras (logical_era a1) HR Hnr).
  2:{ intros ->. unfold nlen in Hle. cbn in Hle. lia. } 2:{ change (2 ^ 32) with 4294967296. lia. }
  eexists. split; [reflexivity|]. rewrite Hle. split.
  - rewrite map_map. cbn [fst snd].
    assert (Hgen : forall (l : list N) p, map (fun vb : N * N => snd vb) (combine l (range p (p + nlen l))) = range p (p + nlen l)).
    { induction l as [|v l IH]; intros p; cbn [combine]; [unfold nlen; cbn; rewrite N.add_0_r, range_nil by lia; auto|].
      assert (Ec : nlen (v :: l) = 1 + nlen l) by (unfold nlen; cbn [length]; lia). rewrite Ec, (range_cons p) by lia. cbn [map snd combine].
      f_equal. replace (p + (1 + nlen l)) with (p + 1 + nlen l) by lia. apply IH. }
    specialize (Hgen eras 0). rewrite N.add_0_l, Hle in Hgen. exact Hgen.
  - apply Forall_forall. intros [x e] Hin. apply in_map_iff in Hin as ([v x'] & Ep & Hin). cbn [fst snd] in *. injection Ep as -> <-.
    assert (Hv : nth_error eras (N.to_nat x) = Some v /\ x < es_nr_blocks sb).
    { apply In_nth_error in Hin as (k & Hk'). assert (Hc : forall (l : list N) p k, nth_error (combine l (range p (p + nlen l))) k = Some (v, x) -> nth_error l k = Some v /\ x = p + N.of_nat k).
      { induction l as [|y l IH]; intros p k' H; [destruct k'; discriminate|].
        assert (Ec : nlen (y :: l) = 1 + nlen l) by (unfold nlen; cbn [length]; lia). rewrite Ec, (range_cons p) in H by lia. cbn [combine] in H.
        destruct k' as [|k']; cbn [nth_error] in *; [injection H as -> ->; split; auto; lia|].
        replace (p + (1 + nlen l)) with (p + 1 + nlen l) in H by lia. apply IH in H as [H1 H2]. split; auto. lia. }
      rewrite <- Hle in Hk'. apply (Hc eras 0 k) in Hk' as [H1 ->]. rewrite N.add_0_l, Nat2N.id. split; auto.
      assert (k < length eras)%nat by (apply nth_error_Some; congruence). unfold nlen in Hle. lia. }
    destruct Hv as [Hv Hx]. destruct I1 as (Hl1 & _ & I1). specialize (I1 x Hx). unfold logical_era, archive_get.
    rewrite (nth_error_nth' _ 0) by (unfold nlen in Hl1; lia).
    assert (Hall : forall k s, nth_error sets k = Some s -> fst (fst s) = a + N.of_nat k).
    { intros k s Hs. assert (H : nth_error (all_sets sb old) k = Some (fst s)) by (rewrite <- Hsets; apply map_nth_error; auto).
      apply (nth_range_eras _ _ _ Hera) in H. auto. }
    destruct I1 as [[-> Hno]|(k & s & -> & Hs & Hm & Hmax)].
    + cbn [N.eqb]. right. split; auto. intros e' (ws & words & Hin' & Hm). apply In_nth_error in Hin' as (k & Hk'). apply (Hno _ _ Hk' Hm).
    + destruct (N.eqb_spec (N.of_nat k + 1) 0); [lia|]. left. pose proof (Hall _ _ Hs) as He.
      assert (k < length sets)%nat by (apply nth_error_Some; congruence).
      assert (Ee : add32 (a_digested a1) (N.of_nat k + 1) = a + N.of_nat k).
      { rewrite D1, Hdig. unfold add32, sub32. change W32 with 4294967296. unfold nlen in *. dlia. }
      rewrite Ee. destruct s as [[e ws] words]. cbn [fst snd] in *. split.
      * exists ws, words. rewrite <- He. split; [eapply nth_error_In; eauto|auto].
      * intros e' (ws' & words' & Hin' & Hm'). apply In_nth_error in Hin' as (k' & Hk'). pose proof (Hall _ _ Hk') as He'. cbn [fst] in He'.
        specialize (Hmax _ _ Hk' Hm'). lia.
Qed.

(** ** Concrete cases *)
(** Two archived writesets (eras 1 and 2) and the current one (era 3) of 100 blocks, an era
    array and the tree of writesets, written by the model itself on a device of 16 blocks. *)
Definition ex_meta (cur : bool) (sets : list (list (N * N))) (eras : list (N * N)) (nr_blocks : N) : st wb era_sb :=
  let fix go l := match l with [] => ret [] | rs :: l => r <~ restore_writeset 100 rs ;; v <~ go l ;; ret (mkws 100 r :: v) end in
  v <~ go sets ;;
  c <~ (if cur then r <~ restore_writeset 100 [(99, 1)] ;; ret (mkws 100 r) else ret (mkws 0 0)) ;;
  a <~ array_build u32_codec 0 nr_blocks eras ;;
  fun w => match btree_build ws_codec noop_inc (map (fun kv => PushValue (fst kv) (snd kv)) (combine (range 1 (1 + nlen v)) v)) tt w with
           | (w', Ok (t, _)) => (w', Ok (mkesb true 0 1 [] 128 nr_blocks (nlen v + if cur then 1 else 0) c t a 0))
           | (w', _) => (w', Err)
           end.
Definition ex_sets : list (list (N * N)) := [[(3, 2); (70, 1)]; [(4, 1); (60, 4); (64, 3)]].
Example C35_example :
  match restore_writeset 100 [(4, 1); (60, 4); (64, 3)] ex_w with
  | (w', Ok root) =>
      match dump_writeset (reader w') 16 (mkws 100 root) false with Ok rs => rs = [(4, 1); (60, 7)] | _ => False end
  | _ => False
  end.
Proof. vm_compute. reflexivity. Qed.
Example C35_hyps : usable 16 255 ex_w /\ marked_ranges 0 100 [(4, 1); (60, 4); (64, 3)] /\ Forall within_word [(4, 1); (60, 4); (64, 3)].
Proof. split; [apply ex_w_usable|]. split; [cbn [marked_ranges]; lia|]. repeat constructor. Qed.
Example C38_example :
  match ex_meta true ex_sets [(3, 0); (4, 0); (99, 0)] 100 ex_w with
  | (w', Ok sb) =>
      match dump_metadata_logical (reader w') 16 sb false with
      | Ok out => map (fun b => nth (N.to_nat b) out (0, 0)) [0; 3; 4; 60; 66; 67; 70; 99] = [(0, 0); (3, 1); (4, 2); (60, 2); (66, 2); (67, 0); (70, 1); (99, 3)]
      | _ => False
      end /\
      era_invalidate (reader w') 16 sb 2 = Ok [(4, 5); (60, 67)] /\ era_invalidate (reader w') 16 sb 1 = Ok [(3, 5); (60, 67); (70, 71)]
  | _ => False
  end.
Proof. vm_compute. auto. Qed.

(** That device meets the hypotheses. *)
Lemma holds_check {V} (c : codec V) (d : disk) b n : forallb (fun x => x <? 256) (d b) = true -> nlen (d b) = 4096 ->
  (forall i r, (i || r = true \/ nh_max_entries (get_header n) / 3 <= nh_nr_entries (get_header n)) -> check_and_unpack_node c (mkblock b (d b)) i r = Ok n) -> holds c d b n.
Proof.
  intros H1 H2 H3. unfold holds. conj; auto.
  - unfold bytes. apply Forall_forall. intros x Hx. rewrite forallb_forall in H1. apply N.ltb_lt. auto.
  - intros i r H. apply H3. destruct i, r; auto.
Qed.
Lemma array_block_check {V} (c : codec V) (d : disk) b vs : forallb (fun x => x <? 256) (d b) = true -> nlen (d b) = 4096 ->
  metadata_block_type (d b) = ARRAY -> unpack_array_block c (d b) = Ok (mkab (mkah ((4096 - 24) / N.of_nat (csize c)) (nlen vs) (N.of_nat (csize c)) b) vs) ->
  array_block_at c d b vs.
Proof.
  intros H1 H2 H3 H4. unfold array_block_at. conj; auto.
  unfold bytes. apply Forall_forall. intros x Hx. rewrite forallb_forall in H1. apply N.ltb_lt. auto.
Qed.
Definition ex_era_w : wb := fst (ex_meta true ex_sets [(3, 0); (4, 0); (99, 0)] 100 ex_w).
Definition ex_era_sb : era_sb := mkesb true 0 1 [] 128 100 3 (mkws 100 5) 8 7 0.
Definition ex_era_sets : list ((N * writeset) * list N) :=
  [((1, mkws 100 1), [24; 64]); ((2, mkws 100 3), [17293822569102704656; 7]); ((3, mkws 100 5), [0; 34359738368])].
Lemma leaf_tree {V} (c : codec V) (d : disk) b ks vs : let h := mknh b true (nlen ks) (calc_max_entries c) (N.of_nat (csize c)) in
  forallb (fun x => x <? 256) (d b) = true -> nlen (d b) = 4096 ->
  check_and_unpack_node c (mkblock b (d b)) true true = Ok (Leaf h ks vs) -> check_and_unpack_node c (mkblock b (d b)) true false = Ok (Leaf h ks vs) ->
  check_and_unpack_node c (mkblock b (d b)) false true = Ok (Leaf h ks vs) -> nlen ks < calc_max_entries c / 3 -> length ks = length vs -> nlen ks <= calc_max_entries c ->
  tree c d true 0 b (combine ks vs) [b].
Proof.
  intros h H1 H2 E1 E2 E3 Hn Hl Hm. cbn [tree]. exists h, ks, vs.
  assert (Hc : nlen (combine ks vs) = nlen ks) by (unfold nlen; rewrite combine_length, Hl, Nat.min_id; auto). rewrite Hc. conj; auto.
  - apply holds_check; auto. intros [|] [|] H; auto. destruct H as [H|H]; [discriminate|]. unfold h, get_header in H. cbn [nh_max_entries nh_nr_entries] in H. lia.
  - intros [=].
Qed.
Lemma one_block {V} (c : codec V) (d : disk) root b vs :
  tree u64_codec d true 0 root [(0, b)] [root] -> array_block_at c d b vs -> vs <> [] -> nlen vs <= (4096 - 24) / N.of_nat (csize c) ->
  b < 16 -> root < 16 -> readable_array c (fun b => Some (d b)) d 16 root vs.
Proof.
  intros HT Hb Hne Hl Hb1 Hr1. exists [root], [b]. split; [|split].
  - exists O, [vs]. conj; auto; [cbn [concat]; apply app_nil_r|]. intros j Hj. destruct j as [|j]; [|cbn [length] in Hj; lia]. cbn [nth]. split; auto.
    rewrite N.mul_0_l, N.sub_0_r. lia.
  - repeat constructor. intros [].
  - intros x [<-|[<-|[]]]; split; auto.
Qed.
Lemma set_here (d : disk) root b words : tree u64_codec d true 0 root [(0, b)] [root] -> array_block_at u64_codec d b words ->
  nlen words = 2 -> b < 16 -> root < 16 -> forallb (fun w => w <? 2 ^ 64) words = true -> readable_set (fun b => Some (d b)) d 16 (mkws 100 root) words.
Proof.
  intros HT Hb Hl Hb1 Hr Hs. split; [|conj; [|reflexivity|]].
  - eapply one_block; eauto; [intros ->; discriminate|]. rewrite Hl. vm_compute. discriminate.
  - rewrite Hl. reflexivity.
  - apply Forall_forall. intros x Hx. rewrite forallb_forall in Hs. apply N.ltb_lt. auto.
Qed.
Lemma clean_here words root : nlen words = 2 -> (nth 1 words 0 < 2 ^ 36) -> clean_tail (mkws 100 root) words.
Proof.
  intros Hl Hw x Hx. cbn [ws_nr_bits] in Hx. unfold bit_at. destruct (N.lt_ge_cases x 128) as [H|H].
  - assert (x / 64 = 1) as -> by dlia. change (N.to_nat 1) with 1%nat. apply N.bits_above_log2.
    assert (36 <= x mod 64) by dlia. destruct (N.eq_dec (nth 1 words 0) 0) as [->|Hz]; [cbn; lia|]. apply N.log2_lt_pow2 in Hw; lia.
  - rewrite nth_overflow, N.bits_0; auto. unfold nlen in Hl. assert (2 <= x / 64) by dlia. lia.
Qed.
Ltac here := first [eapply leaf_tree with (ks := [0]); vm_compute; first [reflexivity|discriminate]
                   |apply array_block_check; vm_compute; reflexivity|vm_compute; reflexivity].
Example C38_hyps :
  readable_tree (reader ex_era_w) (flushed ex_era_w) 16 (es_writeset_tree_root ex_era_sb) (map fst (firstn 2 ex_era_sets)) /\
  map fst ex_era_sets = all_sets ex_era_sb (map fst (firstn 2 ex_era_sets)) /\
  map fst (all_sets ex_era_sb (map fst (firstn 2 ex_era_sets))) = range 1 (es_current_era ex_era_sb + 1) /\
  Forall (fun s => readable_set (reader ex_era_w) (flushed ex_era_w) 16 (snd (fst s)) (snd s) /\ clean_tail (snd (fst s)) (snd s) /\
                   ws_nr_bits (snd (fst s)) <= es_nr_blocks ex_era_sb) ex_era_sets /\
  readable_array u32_codec (reader ex_era_w) (flushed ex_era_w) 16 (es_era_array_root ex_era_sb) (repeat 0 100) /\
  Forall (fun e => e < 1) (repeat 0 100).
Proof.
  conj; [| reflexivity | reflexivity | | |].
  - exists O, [8]. conj; [|repeat constructor; intros []|intros b [<-|[]]; split; reflexivity].
    change (map fst (firstn 2 ex_era_sets)) with (combine [1; 2] [mkws 100 1; mkws 100 3]).
    apply leaf_tree; vm_compute; first [reflexivity|discriminate].
  - repeat (constructor; [split; [cbn [fst snd]|split; [apply clean_here; reflexivity|vm_compute; discriminate]]|]); [| | |constructor].
    + apply set_here with (b := 0); [|here..]. change [(0, 0)] with (combine [0] [0]). apply leaf_tree; vm_compute; first [reflexivity|discriminate].
    + apply set_here with (b := 2); [|here..]. change [(0, 2)] with (combine [0] [2]). apply leaf_tree; vm_compute; first [reflexivity|discriminate].
    + apply set_here with (b := 4); [|here..]. change [(0, 4)] with (combine [0] [4]). apply leaf_tree; vm_compute; first [reflexivity|discriminate].
  - apply one_block with (b := 6).
    + change [(0, 6)] with (combine [0] [6]). apply leaf_tree; vm_compute; first [reflexivity|discriminate].
    + apply array_block_check; vm_compute; reflexivity.
    + discriminate.
    + vm_compute. discriminate.
    + reflexivity.
    + reflexivity.
  - apply Forall_forall. intros x Hx. apply repeat_spec in Hx. subst. reflexivity.
Qed.

(** ** Where the tools fall short *)
(** C35.  A range that crosses a word boundary marks blocks that the input does not name:
    restoring blocks 62 to 65 of 300 marks 62 to 191. *)
Theorem C35_crossing_range_refuted :
  marked_ranges 0 300 [(62, 4)] /\
  match restore_writeset 300 [(62, 4)] ex_w with
  | (w', Ok root) => dump_writeset (reader w') 16 (mkws 300 root) false = Ok [(62, 130)]
  | _ => False
  end.
Proof. split; [cbn; lia|]. vm_compute. reflexivity. Qed.
(** When such a range reaches into the last word the restore fails although nothing is wrong
    with the input. *)
Theorem C35_crossing_last_word_fails_refuted :
  marked_ranges 0 100 [(62, 4)] /\ snd (restore_writeset 100 [(62, 4)] ex_w) = Err.
Proof. split; [cbn; lia|]. vm_compute. reflexivity. Qed.
(** So does a writeset of no blocks. *)
Theorem C35_empty_writeset_fails_refuted : snd (restore_writeset 0 [] ex_w) = Err.
Proof. vm_compute. reflexivity. Qed.

(** C37.  The writeset of the current era is not looked at: block 99 was written in era 3. *)
Theorem C37_current_writeset_ignored_refuted :
  match ex_meta true ex_sets [] 100 ex_w with
  | (w', Ok sb) => es_current_era sb = 3 /\ era_invalidate (reader w') 16 sb 3 = Ok [] /\
      dump_writeset (reader w') 16 (es_current_writeset sb) false = Ok [(99, 1)]
  | _ => False
  end.
Proof. vm_compute. auto. Qed.
(** And without any archived writeset the era array is not looked at. *)
Theorem C37_era_array_ignored_refuted :
  match ex_meta false [] [(7, 5)] 100 ex_w with
  | (w', Ok sb) => era_invalidate (reader w') 16 sb 5 = Ok [] /\
      match dump_metadata (reader w') 16 sb false with Ok (_, eras) => nth 7 eras (0, 0) = (7, 5) | _ => False end
  | _ => False
  end.
Proof. vm_compute. auto. Qed.

(** C38.  With an archived writeset beyond the current era, the writesets are silently
    dropped when there are more of them than eras. *)
Theorem C38_future_writesets_dropped_refuted :
  let sb := mkesb true 0 1 [] 128 100 0 (mkws 0 0) 8 7 0 in
  order_writesets sb [(1, mkws 100 1); (2, mkws 100 3)] = Ok [].
Proof. vm_compute. reflexivity. Qed.
(** A stray bit beyond the end of the device is a panic in a logical dump. *)
Theorem C38_stray_bit_panics_refuted :
  match ex_meta false [[(3, 2)]] [] 4 ex_w with
  | (w', Ok sb) => dump_metadata_logical (reader w') 16 sb false = Panic
  | _ => False
  end.
Proof. vm_compute. reflexivity. Qed.
(** So is the dump of a device of no blocks. *)
Theorem C38_empty_array_panics_refuted :
  match ex_meta false [] [] 0 ex_w with
  | (w', Ok sb) => dump_metadata (reader w') 16 sb false = Panic
  | _ => False
  end.
Proof. vm_compute. reflexivity. Qed.

Print Assumptions C35_restore_writeset_partial.
Print Assumptions C35_no_block_lost.
Print Assumptions C36_dump_writeset.
Print Assumptions C37_invalidate_partial.
Print Assumptions C37_invalidate_archived_partial.
Print Assumptions C38_logical_dump.
