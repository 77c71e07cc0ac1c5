(** Reading era metadata: dump. *)
From Verif Require Import Base Csum_Model Codec_Model Codec_Spec Codec_Proofs SpaceMap_Model Utils_Model Utils_Spec Utils_Proofs Batcher_Model Builder_Model Builder_Spec Builder_Proofs
  Walker_Model Walker_Spec Walker_Proofs WalkTree_Proofs Props_Walker ThinOut_Model Array_Model Array_Spec Array_Proofs ArrayWalk_Proofs Pack_Proofs IoMany_Proofs Era_Model Era_Spec EraRuns_Proofs.

Lemma array_lens {V} (vss : list (list V)) per : 0 < per ->
  (forall j, (j < length vss)%nat -> nlen (nth j vss []) = N.min (nlen (concat vss) - N.of_nat j * per) per /\ nth j vss [] <> []) ->
  (forall j, (S j < length vss)%nat -> nlen (nth j vss []) = per) /\ (nlen vss - 1) * per <= nlen (concat vss) /\ nlen (concat vss) <= nlen vss * per.
Proof.
  intros Hp H. assert (Hf : forall j, (S j < length vss)%nat -> nlen (nth j vss []) = per).
  { intros j Hj. destruct (H j ltac:(lia)) as [H1 _]. destruct (H (S j) Hj) as [H2 H3].
    assert (nlen (nth (S j) vss []) <> 0) by (destruct (nth (S j) vss []); [congruence|unfold nlen; cbn; lia]). lia. }
  split; [exact Hf|]. split.
  - destruct (length vss) as [|k] eqn:Ek; [unfold nlen; lia|]. destruct (H k ltac:(lia)) as [H1 H3].
    assert (nlen (nth k vss []) <> 0) by (destruct (nth k vss []); [congruence|unfold nlen; cbn; lia]). unfold nlen at 1. rewrite Ek. lia.
  - clear Hf. assert (Hle : forall j, (j < length vss)%nat -> nlen (nth j vss []) <= per). { intros j Hj. destruct (H j Hj). lia. }
    clear H. induction vss as [|v r IH]; [cbn; lia|]. cbn [concat]. unfold nlen in *. rewrite app_length. cbn [length].
    pose proof (Hle 0%nat ltac:(cbn; lia)) as H0. cbn [nth] in H0.
    assert (N.of_nat (length (concat r)) <= N.of_nat (length r) * per).
    { apply IH. intros j Hj. apply (Hle (S j)). cbn. lia. }
    lia.
Qed.
Lemma bit_of_at ws i : bit_of ws i = bit_at 64 ws i. Proof. reflexivity. Qed.

(** the strict reader returns the words, cut at the last 32-bit word *)
Lemma read_words eng d nr root nr_bits inf ws : readable_array u64_codec eng d nr root ws -> nr < 2 ^ 64 -> nr_bits < 2 ^ 32 ->
  Forall (fun w => w < 2 ^ 64) ws -> nlen ws = div_up nr_bits 64 ->
  exists bs, read_bitset eng nr root nr_bits inf = Ok bs /\ nlen bs = div_up nr_bits 32 /\ Forall (fun w => w < 2 ^ 32) bs /\
    forall i, i < 32 * nlen bs -> bit_at 32 bs i = bit_at 64 ws i.
Proof.
  intros (foot & blocks & (depth & vss & HT & HF & <- & Hlen) & HN & Hf) Hnr Hb HW Hl.
  pose proof (Forall2_length _ _ _ HF) as HLb. change ((4096 - 24) / N.of_nat (csize u64_codec)) with 509 in Hlen.
  destruct (array_lens vss 509 ltac:(lia) Hlen) as (Hfull & Htot & _).
  assert (Hnb : nlen vss = nlen blocks) by (apply nlen_eq; auto). rewrite Hnb in Htot.
  assert (Hd32 : div_up nr_bits 64 * 2 <= div_up nr_bits 32 + 1 /\ div_up nr_bits 32 <= div_up nr_bits 64 * 2 /\ div_up nr_bits 64 * 64 < nr_bits + 64) by (unfold div_up; conj; dlia).
  change (2 ^ 32) with 4294967296 in Hb.
  unfold read_bitset. rewrite (array_walk_index u64_codec inf eng (bc_visit nr_bits) nr d depth root blocks foot _ HT HN Hnr ltac:(change (2 ^ 64) with 18446744073709551616; lia)).
  2:{ intros b Hin. apply Hf. apply in_or_app. auto. }
  destruct (collect_blocks eng d nr_bits blocks vss 0 (repeat 0 (N.to_nat (div_up nr_bits 32))) HF) as (bs & E & Lb & Nb).
  - intros b Hin. apply Hf. apply in_or_app. auto.
  - unfold nlen. rewrite repeat_length. lia.
  - change (2 ^ 64) with 18446744073709551616. lia.
  - auto.
  - unfold nlen at 2. rewrite repeat_length. lia.
  - rewrite N.add_0_l in E. rewrite E. rewrite repeat_length in Lb. exists bs. split; auto.
    assert (Lb' : nlen bs = div_up nr_bits 32) by (unfold nlen; lia). split; auto.
    assert (Hh : forall j, (j < length bs)%nat -> nth j bs 0 = half (concat vss) (N.of_nat j)).
    { intros j Hj. rewrite Nb, N.mul_0_l, N.add_0_l, N.sub_0_r. unfold nlen at 2. rewrite repeat_length, N2Nat.id.
      destruct (N.leb_spec 0 (N.of_nat j)); [|lia]. destruct (N.ltb_spec (N.of_nat j) (2 * nlen (concat vss))); [|unfold nlen in *; lia].
      destruct (N.ltb_spec (N.of_nat j) (div_up nr_bits 32)); [reflexivity|unfold nlen in *; lia]. }
    split.
    + apply Forall_forall. intros w Hw. apply In_nth with (d := 0) in Hw as (j & Hj & <-). rewrite Hh by auto. unfold half.
      assert (HW' : nth (N.to_nat (N.of_nat j / 2)) (concat vss) 0 < 2 ^ 64).
      { destruct (Nat.lt_ge_cases (N.to_nat (N.of_nat j / 2)) (length (concat vss))) as [Hx|Hx]; [|rewrite nth_overflow by lia; reflexivity].
        rewrite Forall_forall in HW. apply HW. apply nth_In. auto. }
      destruct (_ =? 0).
      * change (W32 - 1) with (N.ones 32). rewrite N.land_ones. apply N.mod_lt. discriminate.
      * rewrite N.shiftr_div_pow2. apply N.div_lt_upper_bound; [discriminate|]. exact HW'.
    + intros i Hi. unfold bit_at at 1. assert (Hi32 : i / 32 < nlen bs) by (apply N.div_lt_upper_bound; lia).
      rewrite Hh by (unfold nlen in *; lia). rewrite N2Nat.id. apply half_bit. auto.
Qed.

(** ** The array blocks of the era array *)
Lemma collect_array_blocks_ok eng d nr inf depth root blocks foot :
  tree u64_codec d true depth root (combine (range 0 (nlen blocks)) blocks) foot -> NoDup foot ->
  nr < 2 ^ 64 -> nlen blocks < 2 ^ 64 -> (forall b, In b foot -> b < nr /\ eng b = Some (d b)) -> blocks <> [] ->
  collect_array_blocks eng nr inf root = Ok (combine (range 0 (nlen blocks)) blocks).
Proof.
  intros HT HN Hnr Hk Hf Hne. unfold collect_array_blocks.
  destruct (undamaged_walk u64_codec inf eng d depth root _ foot [0] (walker_new nr) HT HN) as (s' & calls & E & L & K & KL & KE & KU & _).
  - rewrite map_fst_combine; [apply range_increasing|]. rewrite range_length. unfold nlen. lia.
  - unfold map_ok, walker_new, rsm_new. cbn [w_sm wsm_nr wmax wcount r_nr r_bits]. split; [auto|split; [lia|intros; lia]].
  - intros b Hb. cbn. destruct (Hf b Hb). auto.
  - destruct (index_calls calls blocks 0 KL KE) as [J1 J2]. { rewrite N.add_0_l. auto. } { lia. }
    rewrite N.add_0_l in J1. cbn [walker_new w_log app] in L.
    assert (E' : walk u64_codec inf eng bpc_accepts [0] root (walker_new nr) = (s', None)).
    { change bpc_accepts with av_accepts. erewrite walk_same; [reflexivity|exact E|].
      rewrite L. intros x log Hx. apply in_app_or in Hx as [Hx|[<-|[]]]; auto. }
    rewrite E'. assert (Hx : existsb empty_leaf (w_log s') = false).
    { rewrite L, existsb_app. cbn [existsb empty_leaf orb]. rewrite Bool.orb_false_r.
      assert (HU : Forall full_call calls).
      { apply KU. destruct blocks as [|b bs]; [congruence|]. rewrite (range_cons 0) by (unfold nlen; cbn; lia). discriminate. }
      clear - HU. induction HU as [|x l Hx HU IH]; cbn [existsb]; auto. rewrite IH, Bool.orb_false_r.
      destruct x as [? ? ? [|? ?] ?| |]; unfold full_call in Hx; cbn in *; auto; congruence. }
    rewrite Hx, L. unfold accepted. rewrite flat_map_app. fold (accepted calls). cbn [flat_map]. rewrite app_nil_r, J1. auto.
Qed.
Lemma combine_app_r {A B} : forall (l1 l2 : list A) (m1 m2 : list B), length l1 = length m1 -> combine (l1 ++ l2) (m1 ++ m2) = combine l1 m1 ++ combine l2 m2.
Proof. induction l1 as [|a l1 IH]; intros l2 [|b m1] m2 H; cbn in *; try discriminate; auto. f_equal. apply IH. congruence. Qed.
Lemma walk_array_blocks_ok eng d era_of : forall blocks vss i,
  Forall2 (array_block_at u32_codec d) blocks vss -> (forall b, In b blocks -> eng b = Some (d b)) ->
  (i + nlen blocks) * 1018 <= 2 ^ 32 + 1017 -> i * 1018 + nlen (concat vss) < 2 ^ 32 -> (forall j, (S j < length vss)%nat -> nlen (nth j vss []) = 1018) ->
  walk_array_blocks eng era_of (combine (range i (i + nlen blocks)) blocks) =
    Ok (map (fun vb => (snd vb, era_of (snd vb) (fst vb))) (combine (concat vss) (range (i * 1018) (i * 1018 + nlen (concat vss))))).
Proof.
  intros blocks vss i HF. revert i. induction HF as [|b vs blocks vss Hb HF IH]; intros i He Hi Htot Hfull.
  - cbn [concat combine map]. unfold nlen. cbn [length N.of_nat]. rewrite N.add_0_r, range_nil by lia. reflexivity.
  - assert (Hl : nlen (b :: blocks) = 1 + nlen blocks) by (unfold nlen; cbn [length]; lia). rewrite Hl in *.
    rewrite (range_cons i) by lia. replace (i + (1 + nlen blocks)) with (i + 1 + nlen blocks) in * by lia.
    cbn [combine walk_array_blocks]. rewrite He by (left; auto). destruct Hb as (_ & _ & Hty & Hun). rewrite Hty, Hun. cbn [bind].
    cbn [concat] in *. assert (Hna : nlen (vs ++ concat vss) = nlen vs + nlen (concat vss)) by (unfold nlen; rewrite app_length; lia). rewrite Hna in *.
    change (2 ^ 32) with 4294967296 in *.
    assert (Hem : emit_eras era_of i (mkab (mkah ((4096 - 24) / N.of_nat (csize u32_codec)) (nlen vs) (N.of_nat (csize u32_codec)) b) vs) =
      map (fun vb => (snd vb, era_of (snd vb) (fst vb))) (combine vs (range (i * 1018) (i * 1018 + nlen vs)))).
    { unfold emit_eras, add32, mul32. cbn [ab_hdr ab_values ah_max ah_nr]. change ((4096 - 24) / N.of_nat (csize u32_codec)) with 1018.
      rewrite (N.mod_small i), (N.mod_small (i * 1018)), N.mod_small by (unfold W32; lia). reflexivity. }
    rewrite Hem. destruct (Nat.eq_dec (length blocks) 0) as [E0|E0].
    + destruct blocks; [|discriminate]. inversion HF; subst. cbn [concat]. rewrite combine_nil.
      cbn [walk_array_blocks bind]. rewrite !app_nil_r. replace (nlen (@nil N)) with 0 by reflexivity. rewrite N.add_0_r. reflexivity.
    + assert (H509 : nlen vs = 1018). { apply (Hfull 0%nat). cbn. pose proof (Forall2_length _ _ _ HF). lia. }
      rewrite IH; [|intros x Hx; apply He; right; auto|lia|lia|intros j Hj; exact (Hfull (S j) ltac:(cbn [length]; lia))].
      cbn [bind]. f_equal. rewrite <- map_app. f_equal. replace ((i + 1) * 1018) with (i * 1018 + nlen vs) by lia.
      rewrite N.add_assoc. rewrite (range_app (i * 1018) (i * 1018 + nlen vs) (i * 1018 + nlen vs + nlen (concat vss))) by lia. symmetry. apply combine_app_r.
      rewrite range_length. unfold nlen. lia.
Qed.
Lemma dump_eras_ok eng d nr inf root eras era_of : readable_array u32_codec eng d nr root eras -> nr < 2 ^ 64 -> eras <> [] -> nlen eras < 2 ^ 32 ->
  dump_eras eng nr inf root era_of = Ok (map (fun vb => (snd vb, era_of (snd vb) (fst vb))) (combine eras (range 0 (nlen eras)))).
Proof.
  intros (foot & blocks & (depth & vss & HT & HF & <- & Hlen) & HN & Hf) Hnr Hne Hn.
  pose proof (Forall2_length _ _ _ HF) as HLb. change ((4096 - 24) / N.of_nat (csize u32_codec)) with 1018 in Hlen.
  destruct (array_lens vss 1018 ltac:(lia) Hlen) as (Hfull & Htot & Hge).
  assert (Hnb : nlen vss = nlen blocks) by (apply nlen_eq; auto). rewrite Hnb in *. change (2 ^ 32) with 4294967296 in Hn.
  unfold dump_eras. rewrite (collect_array_blocks_ok eng d nr inf depth root blocks foot HT HN Hnr ltac:(change (2 ^ 64) with 18446744073709551616; lia)).
  - cbn [bind]. pose proof (walk_array_blocks_ok eng d era_of blocks vss 0 HF) as H. rewrite N.mul_0_l, !N.add_0_l in H. apply H; auto.
    + intros b Hb. apply Hf. apply in_or_app. auto.
    + change (2 ^ 32) with 4294967296. lia.
  - intros b Hb. apply Hf. apply in_or_app. auto.
  - intros ->. inversion HF; subst. apply Hne. reflexivity.
Qed.

(** ** Ordering the writesets *)
Lemma has_in m k ws : NoDup (map fst m) -> In (k, ws) m -> has m k = Some ws.
Proof.
  induction m as [|[k' w'] m IH]; cbn [has map]; intros HN Hin; [easy|]. inversion HN as [|? ? N1 N2]; subst. destruct (N.eqb_spec k k') as [->|Hk].
  - destruct Hin as [E|Hin]; [injection E as ->; auto|]. exfalso. apply N1. apply in_map_iff. exists (k', ws). auto.
  - destruct Hin as [E|Hin]; [injection E as -> ->; lia|auto].
Qed.
Lemma has_none m k : ~ In k (map fst m) -> has m k = None.
Proof.
  induction m as [|[k' w'] m IH]; cbn [has map]; intros H; auto. destruct (N.eqb_spec k k') as [->|]; [exfalso; apply H; left; auto|]. apply IH. intros Hin. apply H. right. auto.
Qed.
Lemma take_eras_all m : NoDup (map fst m) -> take_eras m (map fst m) = Ok m.
Proof.
  intros HN. enough (forall l, (forall kv, In kv l -> In kv m) -> take_eras m (map fst l) = Ok l) by auto.
  induction l as [|[k ws] l IH]; intros Hl; cbn [take_eras map fst]; auto. rewrite (has_in m k ws) by (auto; apply Hl; left; auto).
  rewrite IH by (intros kv Hkv; apply Hl; right; auto). reflexivity.
Qed.
Lemma order_ok sb m a : es_current_era sb < 2 ^ 32 -> a <= es_current_era sb + 1 -> map fst (all_sets sb m) = range a (es_current_era sb + 1) ->
  order_writesets sb m = Ok (all_sets sb m).
Proof.
  intros Hc Ha Hm. unfold order_writesets.
  assert (HN : NoDup (map fst (all_sets sb m))) by (rewrite Hm; apply increasing_NoDup, range_increasing).
  assert (E : (if ws_root (es_current_writeset sb) =? 0 then Ok m
        else match has m (es_current_era sb) with Some _ => Err | None => Ok (m ++ [(es_current_era sb, es_current_writeset sb)]) end) = Ok (all_sets sb m)).
  { unfold all_sets in *. destruct (_ =? 0); [rewrite app_nil_r; auto|]. rewrite has_none; auto. intros Hin.
    rewrite map_app in HN. apply NoDup_app_iff_local in HN as (_ & _ & HN). apply (HN (es_current_era sb)); auto. left; auto. }
  rewrite E. cbn [bind]. destruct (all_sets sb m) as [|x l] eqn:El; auto. rewrite <- El in *.
  assert (Hlen : nlen (all_sets sb m) = es_current_era sb + 1 - a).
  { unfold nlen. rewrite <- (map_length fst), Hm, range_length. lia. }
  assert (Hp : 0 < nlen (all_sets sb m)) by (rewrite El; unfold nlen; cbn; lia).
  assert (Eb : sub32 (es_current_era sb) ((nlen (all_sets sb m) - 1) mod W32) = a).
  { change (2 ^ 32) with W32 in Hc. rewrite (N.mod_small (nlen (all_sets sb m) - 1)) by lia. unfold sub32.
    replace (es_current_era sb + W32 - (nlen (all_sets sb m) - 1)) with (a + 1 * W32) by lia. rewrite N.mod_add by discriminate. apply N.mod_small. lia. }
  rewrite Eb, <- Hm. apply take_eras_all. auto.
Qed.

(** ** The archive *)
Lemma archive_set_ok a x delta : delta < a_width a -> x < nlen (a_deltas a) ->
  exists a', archive_set a x delta = Ok a' /\ a_digested a' = a_digested a /\ a_width a' = a_width a /\ length (a_deltas a') = length (a_deltas a) /\
    forall j, nth j (a_deltas a') 0 = if (j =? N.to_nat x)%nat then delta else nth j (a_deltas a) 0.
Proof.
  intros Hd Hx. unfold archive_set. destruct (N.leb_spec (a_width a) delta); [lia|].
  destruct (vec_set_ok (a_deltas a) x delta Hx) as (l & -> & Ll & Nl). cbn [bind]. eexists. split; [reflexivity|]. cbn. conj; auto.
Qed.
Lemma collate_word_ok delta : forall k n bi a, n < 2 ^ N.of_nat k -> bi + N.of_nat k <= 2 ^ 32 -> delta < a_width a ->
  (forall i, N.testbit n i = true -> bi + i < nlen (a_deltas a)) ->
  exists a', collate_word k n bi delta a = Ok a' /\ a_digested a' = a_digested a /\ a_width a' = a_width a /\ length (a_deltas a') = length (a_deltas a) /\
    forall j, nth j (a_deltas a') 0 = if (bi <=? N.of_nat j) && N.testbit n (N.of_nat j - bi) then delta else nth j (a_deltas a) 0.
Proof.
  induction k as [|k IH]; intros n bi a Hn Hb Hd Hin; cbn [collate_word].
  - assert (n = 0) as -> by (cbn in Hn; lia). exists a. conj; auto. intros j. rewrite N.bits_0, Bool.andb_false_r. auto.
  - destruct (N.ltb_spec 0 n) as [Hp|Hz].
    2:{ assert (n = 0) as -> by lia. exists a. conj; auto. intros j. rewrite N.bits_0, Bool.andb_false_r. auto. }
    assert (Hstep : exists a1, (if N.testbit n 0 then archive_set a bi delta else Ok a) = Ok a1 /\ a_digested a1 = a_digested a /\ a_width a1 = a_width a /\
      length (a_deltas a1) = length (a_deltas a) /\
      forall j, nth j (a_deltas a1) 0 = if (j =? N.to_nat bi)%nat && N.testbit n 0 then delta else nth j (a_deltas a) 0).
    { destruct (N.testbit n 0) eqn:E0.
      - destruct (archive_set_ok a bi delta Hd) as (a1 & E & A & B & C & D). { specialize (Hin 0 E0). lia. }
        exists a1. conj; auto. intros j. rewrite D, Bool.andb_true_r. auto.
      - exists a. conj; auto. intros j. rewrite Bool.andb_false_r. auto. }
    destruct Hstep as (a1 & -> & A & B & C & D). cbn [bind].
    assert (Hn2 : N.shiftr n 1 < 2 ^ N.of_nat k).
    { rewrite N.shiftr_div_pow2. apply N.div_lt_upper_bound; [discriminate|]. change (2 ^ 1) with 2. rewrite <- N.pow_succ_r by lia. rewrite Nat2N.inj_succ in Hn. auto. }
    assert (Hlast : (exists i, N.testbit n (i + 1) = true) -> bi + 1 < 2 ^ 32).
    { intros (i & Hi). destruct k; [|lia]. change (2 ^ N.of_nat 0) with 1 in Hn2. assert (H : N.shiftr n 1 = 0) by (revert Hn2; generalize (N.shiftr n 1); intros; lia). rewrite <- N.shiftr_spec in Hi by lia. rewrite H, N.bits_0 in Hi. discriminate. }
    destruct (N.eq_dec (bi + 1) (2 ^ 32)) as [Eb|Hb1].
    + (* the last bit there is *)
      assert (Hz : N.shiftr n 1 = 0).
      { destruct (N.eq_dec (N.shiftr n 1) 0) as [|Hnz]; auto. exfalso.
        assert (bi + 1 < 2 ^ 32); [|lia]. apply Hlast. exists (N.log2 (N.shiftr n 1)). rewrite <- N.shiftr_spec by lia. apply N.bit_log2. auto. }
      rewrite Hz. exists a1. split.
      { destruct k; cbn [collate_word]; auto. }
      conj; auto. intros j. rewrite D. destruct (Nat.eqb_spec j (N.to_nat bi)) as [->|Hj]; cbn [andb].
      * rewrite N2Nat.id, N.sub_diag. destruct (N.leb_spec bi bi); [|lia]. reflexivity.
      * destruct (N.leb_spec bi (N.of_nat j)); cbn [andb]; auto. replace (N.of_nat j - bi) with (N.of_nat j - bi - 1 + 1) by lia.
        rewrite <- N.shiftr_spec, Hz, N.bits_0 by lia. auto.
    + assert (Ea : add32 bi 1 = bi + 1). { apply N.mod_small. unfold W32. change (2 ^ 32) with 4294967296 in *. lia. }
      rewrite Ea. destruct (IH (N.shiftr n 1) (bi + 1) a1) as (a2 & E2 & A2 & B2 & C2 & D2); [auto|lia|congruence| |].
      { intros i Hi. rewrite N.shiftr_spec in Hi by lia. specialize (Hin _ Hi). rewrite (nlen_eq _ _ C). lia. }
      exists a2. conj; try congruence. intros j. rewrite D2, D.
      destruct (N.leb_spec (bi + 1) (N.of_nat j)) as [Hj|Hj]; cbn [andb].
      * rewrite N.shiftr_spec by lia. replace (N.of_nat j - (bi + 1) + 1) with (N.of_nat j - bi) by lia.
        destruct (N.leb_spec bi (N.of_nat j)); [|lia]. cbn [andb]. destruct (N.testbit n (N.of_nat j - bi)); auto.
        destruct (Nat.eqb_spec j (N.to_nat bi)); [lia|auto].
      * destruct (Nat.eqb_spec j (N.to_nat bi)) as [->|Hj2]; cbn [andb].
        -- rewrite N2Nat.id, N.sub_diag. destruct (N.leb_spec bi bi); [auto|lia].
        -- destruct (N.leb_spec bi (N.of_nat j)); [lia|auto].
Qed.
Lemma bit_at_cons K w ws x : 0 < K -> bit_at K (w :: ws) x = if x <? K then N.testbit w x else bit_at K ws (x - K).
Proof.
  intros HK. unfold bit_at. destruct (N.ltb_spec x K) as [H|H].
  - rewrite N.div_small, N.mod_small by auto. reflexivity.
  - remember (x - K) as y. assert (x = y + 1 * K) as -> by lia. rewrite N.div_add, N.mod_add by lia.
    replace (N.to_nat (y / K + 1)) with (S (N.to_nat (y / K))) by lia. reflexivity.
Qed.
Lemma collate_words_ok delta : forall ws i a, Forall (fun w => w < 2 ^ 32) ws -> 32 * (i + nlen ws) <= 2 ^ 32 -> delta < a_width a ->
  (forall x, bit_at 32 ws x = true -> 32 * i + x < nlen (a_deltas a)) ->
  exists a', collate_words i ws delta a = Ok a' /\ a_digested a' = a_digested a /\ a_width a' = a_width a /\ length (a_deltas a') = length (a_deltas a) /\
    forall j, nth j (a_deltas a') 0 = if (32 * i <=? N.of_nat j) && bit_at 32 ws (N.of_nat j - 32 * i) then delta else nth j (a_deltas a) 0.
Proof.
  induction ws as [|w ws IH]; intros i a HF Hi Hd Hin; cbn [collate_words].
  - exists a. conj; auto. intros j. unfold bit_at. rewrite (nth_overflow []) by (cbn; lia). rewrite N.bits_0, Bool.andb_false_r. auto.
  - inversion HF as [|? ? Hw HF']; subst. assert (Hl : nlen (w :: ws) = 1 + nlen ws) by (unfold nlen; cbn [length]; lia). rewrite Hl in *.
    assert (Ei : N.shiftl i 5 mod W32 = 32 * i).
    { rewrite N.shiftl_mul_pow2. change (2 ^ 5) with 32. rewrite N.mul_comm. apply N.mod_small. unfold W32. change (2 ^ 32) with 4294967296 in Hi. lia. }
    rewrite Ei.
    assert (Hbits : forall y, N.testbit w y = true -> y < 32).
    { intros y Hy. destruct (N.lt_ge_cases y 32); auto. rewrite N.bits_above_log2 in Hy; [discriminate|].
      destruct (N.eq_dec w 0) as [->|]; [rewrite N.bits_0 in Hy; discriminate|]. apply N.log2_lt_pow2; [lia|]. eapply N.lt_le_trans; [exact Hw|]. apply N.pow_le_mono_r; lia. }
    destruct (collate_word_ok delta 32 w (32 * i) a) as (a1 & -> & A & B & C & D).
    { exact Hw. } { change (N.of_nat 32) with 32. lia. } { auto. }
    { intros y Hy. apply Hin. rewrite bit_at_cons by lia. destruct (N.ltb_spec y 32); auto. specialize (Hbits y Hy). lia. }
    cbn [bind]. destruct (IH (i + 1) a1) as (a2 & -> & A2 & B2 & C2 & D2); [auto|lia|congruence| |].
    { intros x Hx. rewrite (nlen_eq _ _ C). specialize (Hin (x + 32)). rewrite bit_at_cons in Hin by lia.
      destruct (N.ltb_spec (x + 32) 32); [lia|]. replace (x + 32 - 32) with x in Hin by lia. specialize (Hin Hx). lia. }
    exists a2. conj; try congruence. intros j. rewrite D2, D, bit_at_cons by lia.
    replace (32 * (i + 1)) with (32 * i + 32) by lia.
    destruct (N.leb_spec (32 * i + 32) (N.of_nat j)) as [Hj|Hj]; cbn [andb].
    + destruct (N.leb_spec (32 * i) (N.of_nat j)); [|lia]. cbn [andb]. destruct (N.ltb_spec (N.of_nat j - 32 * i) 32); [lia|].
      replace (N.of_nat j - (32 * i + 32)) with (N.of_nat j - 32 * i - 32) by lia. destruct (bit_at 32 ws (N.of_nat j - 32 * i - 32)); auto.
      destruct (N.testbit w (N.of_nat j - 32 * i)) eqn:Et; auto. specialize (Hbits _ Et). lia.
    + destruct (N.leb_spec (32 * i) (N.of_nat j)); cbn [andb]; auto. destruct (N.ltb_spec (N.of_nat j - 32 * i) 32); [auto|lia].
Qed.

Section Sets.
Context (eng : N -> option (list N)) (d : disk) (nr nr_blocks : N) (repair : bool).
Hypothesis Hnr : nr < 2 ^ 64.
Definition good_set (s : (N * writeset) * list N) : Prop :=
  readable_set eng d nr (snd (fst s)) (snd s) /\ clean_tail (snd (fst s)) (snd s) /\ ws_nr_bits (snd (fst s)) <= nr_blocks.
(** The deltas after the first [k] sets. *)
Definition AInv (sets : list ((N * writeset) * list N)) (a : archive) : Prop :=
  nlen (a_deltas a) = nr_blocks /\ nlen sets < a_width a /\
  forall x, x < nr_blocks ->
    (nth (N.to_nat x) (a_deltas a) 0 = 0 /\ forall k s, nth_error sets k = Some s -> ~ marks (snd (fst s)) (snd s) x) \/
    (exists k s, nth (N.to_nat x) (a_deltas a) 0 = N.of_nat k + 1 /\ nth_error sets k = Some s /\ marks (snd (fst s)) (snd s) x /\
       forall k' s', nth_error sets k' = Some s' -> marks (snd (fst s')) (snd s') x -> (k' <= k)%nat).
Lemma nth_error_snoc {A} (l : list A) x k : nth_error (l ++ [x]) k = if (k =? length l)%nat then Some x else nth_error l k.
Proof.
  destruct (Nat.eqb_spec k (length l)) as [->|H]; [rewrite nth_error_app2 by lia; rewrite Nat.sub_diag; auto|].
  destruct (Nat.lt_ge_cases k (length l)); [apply nth_error_app1; auto|]. rewrite (proj2 (nth_error_None l k)) by auto.
  apply nth_error_None. rewrite app_length. cbn. lia.
Qed.
Lemma collate_sets_ok : forall more sets a, AInv sets a -> Forall good_set more -> nlen sets + nlen more < a_width a -> a_width a <= 2 ^ 32 ->
  exists a', collate_sets eng nr repair (nlen sets) (map fst more) a = Ok a' /\ a_digested a' = a_digested a /\ AInv (sets ++ more) a'.
Proof.
  induction more as [|[[e ws] words] more IH]; intros sets a HI HG Hw Hmax; cbn [map collate_sets fst].
  - exists a. rewrite app_nil_r. auto.
  - inversion HG as [|? ? (G1 & G2 & G3) HG']; subst. cbn [fst snd] in *. destruct G1 as (R & Hl & Hb & HF).
    assert (Hlm : nlen (((e, ws), words) :: more) = 1 + nlen more) by (unfold nlen; cbn [length]; lia). rewrite Hlm in Hw.
    destruct (read_words eng d nr (ws_root ws) (ws_nr_bits ws) repair words R Hnr Hb HF) as (bs & -> & Lb & Fb & Bb).
    { rewrite Hl. unfold div_up. dlia. }
    cbn [bind]. destruct HI as (I1 & I2 & I3).
    assert (Ed : add32 (nlen sets) 1 = nlen sets + 1). { apply N.mod_small. unfold W32. change (2 ^ 32) with 4294967296 in *. lia. }
    rewrite Ed.
    assert (Hm : forall x, bit_at 32 bs x = true -> marks ws words x).
    { intros x Hx. destruct (N.lt_ge_cases x (32 * nlen bs)) as [Hlt|Hge].
      - rewrite Bb in Hx by auto. split; auto. destruct (N.lt_ge_cases x (ws_nr_bits ws)); auto. rewrite (G2 x) in Hx by auto. discriminate.
      - unfold bit_at in Hx. rewrite nth_overflow in Hx. { rewrite N.bits_0 in Hx. discriminate. }
        assert (nlen bs <= x / 32) by (apply N.div_le_lower_bound; lia). unfold nlen in *. lia. }
    assert (Hm2 : forall x, marks ws words x -> bit_at 32 bs x = true).
    { intros x [H1 H2]. rewrite Bb; auto. rewrite Lb. unfold div_up. dlia. }
    destruct (collate_words_ok (nlen sets + 1) bs 0 a Fb) as (a1 & -> & A & B & C & D).
    { rewrite Lb. change (2 ^ 32) with 4294967296 in *. unfold div_up. dlia. } { lia. }
    { intros x Hx. apply Hm in Hx as [Hx _]. rewrite I1. lia. }
    cbn [bind].
    assert (HI1 : AInv (sets ++ [((e, ws), words)]) a1).
    { split; [rewrite (nlen_eq _ _ C); auto|]. split; [unfold nlen in *; rewrite app_length; cbn [length]; lia|]. intros x Hx. rewrite D.
      rewrite N2Nat.id, N.mul_0_r, N.sub_0_r. destruct (N.leb_spec 0 x); [|lia]. cbn [andb].
      destruct (bit_at 32 bs x) eqn:Ex.
      - right. exists (length sets), ((e, ws), words). split; [unfold nlen; lia|]. rewrite nth_error_snoc, Nat.eqb_refl. split; auto.
        split; [apply Hm; auto|]. intros k' s' Hk' _. assert (k' < length (sets ++ [((e, ws), words)]))%nat by (apply nth_error_Some; congruence). rewrite app_length in H0. cbn in H0. lia.
      - assert (Hno : ~ marks ws words x) by (intros Hmk; apply Hm2 in Hmk; congruence).
        destruct (I3 x Hx) as [[Z1 Z2]|(k & s & Z1 & Z2 & Z3 & Z4)].
        + left. split; auto. intros k s. rewrite nth_error_snoc. destruct (k =? length sets)%nat; [intros E; injection E as <-; auto|apply Z2].
        + right. exists k, s. split; auto. rewrite nth_error_snoc. assert (k < length sets)%nat by (apply nth_error_Some; congruence).
          destruct (Nat.eqb_spec k (length sets)); [lia|]. split; auto. split; auto.
          intros k' s'. rewrite nth_error_snoc. destruct (k' =? length sets)%nat; [intros E; injection E as <-; tauto|apply Z4]. }
    destruct (IH _ a1 HI1 HG') as (a2 & E2 & A2 & B2). { rewrite B. unfold nlen in *. rewrite app_length. cbn [length]. lia. } { congruence. }
    exists a2. rewrite <- app_assoc in B2. cbn [app] in B2. split; [|split; [congruence|auto]].
    rewrite <- E2. f_equal. unfold nlen. rewrite app_length. cbn. lia.
Qed.
End Sets.
