(** era/invalidate.rs *)
From Verif Require Import Base Csum_Model Codec_Model Codec_Spec Codec_Proofs SpaceMap_Model Utils_Model Utils_Spec Utils_Proofs Batcher_Model Builder_Model Builder_Spec Builder_Proofs
  Walker_Model Walker_Spec Walker_Proofs WalkTree_Proofs Props_Walker ThinOut_Model Array_Model Array_Spec Array_Proofs ArrayWalk_Proofs Pack_Proofs IoMany_Proofs Era_Model Era_Spec EraRuns_Proofs EraDump_Proofs.

Lemma or_words_spec : forall ws bits, length (or_words ws bits) = length bits /\
  forall j, nth j (or_words ws bits) 0 = if (j <? length bits)%nat then N.lor (nth j bits 0) (nth j ws 0) else 0.
Proof.
  assert (Hnil : forall bits j, nth j bits 0 = if (j <? length bits)%nat then N.lor (nth j bits 0) 0 else 0).
  { intros bits j. rewrite N.lor_0_r. destruct (Nat.ltb_spec j (length bits)); auto. apply nth_overflow. auto. }
  induction ws as [|w ws IH]; intros [|b bits]; cbn [or_words length]; split; auto.
  - intros [|j]; reflexivity.
  - intros j. rewrite (Hnil (b :: bits) j) at 1. cbn [length]. destruct (j <? _)%nat; auto. destruct j; reflexivity.
  - intros [|j]; reflexivity.
  - f_equal. apply IH.
  - intros [|j]; [reflexivity|]. cbn [nth]. rewrite (proj2 (IH bits) j). cbn. destruct (Nat.ltb_spec j (length bits)); destruct (Nat.ltb_spec (S j) (S (length bits))); try lia; auto.
Qed.
Lemma bcol_blocks eng d : forall blocks vss i bits,
  Forall2 (array_block_at u64_codec d) blocks vss -> (forall b, In b blocks -> eng b = Some (d b)) -> (i + nlen blocks) * 509 < 2 ^ 64 ->
  (forall j, (S j < length vss)%nat -> nlen (nth j vss []) = 509) -> 
  exists bits', visit_array_blocks u64_codec eng bcol_visit bits (combine (range i (i + nlen blocks)) blocks) = (bits', []) /\ length bits' = length bits /\
    forall j, nth j bits' 0 = if (j <? length bits)%nat && (i * 509 <=? N.of_nat j) then N.lor (nth j bits 0) (nth (j - N.to_nat (i * 509)) (concat vss) 0) else nth j bits 0.
Proof.
  intros blocks vss i bits HF. revert i bits. induction HF as [|b vs blocks vss Hb HF IH]; intros i bits He Hi Hfull.
  - exists bits. rewrite combine_nil. cbn [visit_array_blocks]. split; auto. split; auto. intros j. cbn [concat].
    destruct (_ && _); auto. rewrite (nth_overflow []) by (cbn; lia). rewrite N.lor_0_r. auto.
  - assert (Hl : nlen (b :: blocks) = 1 + nlen blocks) by (unfold nlen; cbn [length]; lia). rewrite Hl in *.
    rewrite (range_cons i) by lia. replace (i + (1 + nlen blocks)) with (i + 1 + nlen blocks) in * by lia.
    cbn [combine visit_array_blocks]. unfold visit_array_block. rewrite He by (left; auto). destruct Hb as (_ & _ & Hty & Hun). rewrite Hty, Hun.
    unfold bcol_visit at 1. cbn [ab_hdr ab_values ah_max]. change ((4096 - 24) / N.of_nat (csize u64_codec)) with 509.
    rewrite N.mod_small by (unfold W64; change (2 ^ 64) with 18446744073709551616 in Hi; lia).
    set (k := N.to_nat (i * 509)).
    set (b1 := firstn k bits ++ or_words vs (skipn k bits)).
    assert (L1 : length b1 = length bits).
    { unfold b1. rewrite app_length, (proj1 (or_words_spec _ _)), <- app_length, firstn_skipn. auto. }
    assert (N1 : forall j, nth j b1 0 = if (j <? length bits)%nat && (k <=? j)%nat then N.lor (nth j bits 0) (nth (j - k) vs 0) else nth j bits 0).
    { intros j. unfold b1. destruct (Nat.ltb_spec j (length bits)) as [Hj|Hj]; cbn [andb].
      2:{ rewrite !nth_overflow; auto. fold b1. rewrite L1. auto. }
      destruct (Nat.leb_spec k j) as [Hk|Hk].
      - rewrite app_nth2; rewrite firstn_length_le by lia; [|auto]. rewrite (proj2 (or_words_spec _ _)), skipn_length.
        destruct (Nat.ltb_spec (j - k) (length bits - k)); [|lia]. f_equal.
        rewrite <- (firstn_skipn k bits) at 2. rewrite app_nth2; rewrite firstn_length_le by lia; auto.
      - rewrite app_nth1 by (rewrite firstn_length; lia). rewrite <- (firstn_skipn k bits) at 2. rewrite app_nth1 by (rewrite firstn_length; lia). auto. }
    cbv beta iota. clearbody b1.
    assert (Hdone : blocks = [] \/ nlen vs = 509). { destruct blocks; auto. right. inversion HF; subst. apply (Hfull 0%nat). cbn. lia. }
    destruct Hdone as [->|H509].
    + inversion HF; subst. rewrite combine_nil. cbn [visit_array_blocks]. exists b1. split; auto. split; auto. intros j. rewrite N1. cbn [concat]. rewrite app_nil_r.
      fold k. destruct (Nat.leb_spec k j); destruct (N.leb_spec (i * 509) (N.of_nat j)); try lia; auto.
    + destruct (IH (i + 1) b1) as (b2 & -> & L2 & N2).
      * intros x Hx. apply He. right. auto.
      * lia.
      * intros j Hj. exact (Hfull (S j) ltac:(cbn [length]; lia)).
      * exists b2. split; auto. split; [congruence|]. intros j. rewrite N2, N1, L1. cbn [concat].
        destruct (Nat.ltb_spec j (length bits)) as [Hj|Hj]; cbn [andb]; auto.
        destruct (N.leb_spec ((i + 1) * 509) (N.of_nat j)) as [Ha|Ha]; destruct (Nat.leb_spec k j) as [Hb'|Hb']; destruct (N.leb_spec (i * 509) (N.of_nat j)) as [Hc|Hc]; unfold k in *; try lia; auto.
        -- rewrite (nth_overflow vs) by (unfold nlen in *; lia). rewrite N.lor_0_r. rewrite app_nth2 by (unfold nlen in *; lia). f_equal. f_equal. unfold nlen in *. lia.
        -- rewrite app_nth1 by (unfold nlen in *; lia). auto.
Qed.

Lemma inv_writeset_ok eng d nr root words bits : readable_array u64_codec eng d nr root words -> nr < 2 ^ 64 -> nlen words < 2 ^ 32 ->
  exists bits', inv_writeset eng nr root bits = Ok bits' /\ length bits' = length bits /\
    forall j, (j < length bits)%nat -> nth j bits' 0 = N.lor (nth j bits 0) (nth j words 0).
Proof.
  intros (foot & blocks & (depth & vss & HT & HF & <- & Hlen) & HN & Hf) Hnr Hw.
  pose proof (Forall2_length _ _ _ HF) as HLb. change ((4096 - 24) / N.of_nat (csize u64_codec)) with 509 in Hlen.
  destruct (array_lens vss 509 ltac:(lia) Hlen) as (Hfull & Htot & _).
  assert (Hnb : nlen vss = nlen blocks) by (apply nlen_eq; auto). rewrite Hnb in Htot. change (2 ^ 32) with 4294967296 in Hw.
  unfold inv_writeset. rewrite (array_walk_index u64_codec false eng bcol_visit nr d depth root blocks foot _ HT HN Hnr ltac:(change (2 ^ 64) with 18446744073709551616; lia)).
  2:{ intros b Hin. apply Hf. apply in_or_app. auto. }
  destruct (bcol_blocks eng d blocks vss 0 bits HF) as (b' & E & L' & N').
  - intros b Hin. apply Hf. apply in_or_app. auto.
  - change (2 ^ 64) with 18446744073709551616. lia.
  - auto.
  - rewrite N.add_0_l in E. rewrite E. exists b'. split; auto. split; auto. intros j Hj. rewrite N'. rewrite N.mul_0_l, Nat.sub_0_r.
    destruct (Nat.ltb_spec j (length bits)); [|lia]. destruct (N.leb_spec 0 (N.of_nat j)); [|lia]. reflexivity.
Qed.

(** ** The era array *)
Definition put (bits : list N) (idx buf : N) : list N := match vec_set bits idx buf with Ok b => b | _ => bits end.
Lemma put_spec bits idx buf : idx < nlen bits -> length (put bits idx buf) = length bits /\
  forall j, nth j (put bits idx buf) 0 = if (j =? N.to_nat idx)%nat then buf else nth j bits 0.
Proof. intros H. unfold put. destruct (vec_set_ok bits idx buf H) as (l & -> & A & B). auto. Qed.
Lemma bit_at_put bits idx buf x : idx < nlen bits -> bit_at 64 (put bits idx buf) x = if x / 64 =? idx then N.testbit buf (x mod 64) else bit_at 64 bits x.
Proof.
  intros H. unfold bit_at. rewrite (proj2 (put_spec bits idx buf H)). destruct (N.eqb_spec (x / 64) idx) as [->|Hx].
  - rewrite Nat.eqb_refl. auto.
  - destruct (Nat.eqb_spec (N.to_nat (x / 64)) (N.to_nat idx)); [lia|auto].
Qed.
Lemma put_put bits idx a b : idx < nlen bits -> forall j, nth j (put (put bits idx a) idx b) 0 = nth j (put bits idx b) 0.
Proof.
  intros H j. destruct (put_spec bits idx a H) as [L1 N1]. rewrite (proj2 (put_spec (put bits idx a) idx b ltac:(rewrite (nlen_eq _ _ L1); auto))), N1.
  rewrite (proj2 (put_spec bits idx b H)). destruct (j =? N.to_nat idx)%nat; auto.
Qed.
Lemma set_bit buf b i : N.testbit (N.lor buf (N.shiftl 1 b)) i = N.testbit buf i || (i =? b).
Proof. rewrite N.lor_spec, N.shiftl_1_l, N.pow2_bits_eqb. f_equal. apply N.eqb_sym. Qed.
Lemma small64 w : w < 2 ^ 64 <-> forall i, 64 <= i -> N.testbit w i = false.
Proof.
  split.
  - intros Hx i Hi. destruct (N.eq_dec w 0) as [->|]; [apply N.bits_0|]. apply N.bits_above_log2. apply N.log2_lt_pow2; [lia|].
    eapply N.lt_le_trans; [exact Hx|]. apply N.pow_le_mono_r; lia.
  - intros H. destruct (N.eq_dec w 0) as [->|]; [reflexivity|]. apply N.log2_lt_pow2; [lia|].
    destruct (N.lt_ge_cases (N.log2 w) 64) as [|Hge]; auto. specialize (H _ Hge). rewrite N.bit_log2 in H by auto. discriminate.
Qed.
Lemma set_bit_small buf x : buf < 2 ^ 64 -> N.lor buf (N.shiftl 1 (N.land x 63)) < 2 ^ 64.
Proof.
  intros H. apply small64. intros i Hi. rewrite set_bit. rewrite (proj1 (small64 buf) H i Hi). cbn [orb].
  change 63 with (N.ones 6). rewrite N.land_ones. change (2 ^ 6) with 64. pose proof (N.mod_lt x 64 ltac:(discriminate)). apply N.eqb_neq. lia.
Qed.
(** the threshold test on entry [x] of [vs], which starts at block [p] *)
Definition old_enough (t p : N) (vs : list N) (x : N) : bool :=
  (p <=? x) && match nth_error vs (N.to_nat (x - p)) with Some e => t <=? e | None => false end.
Lemma old_enough_cons t p v vs x : old_enough t p (v :: vs) x = ((x =? p) && (t <=? v)) || old_enough t (p + 1) vs x.
Proof.
  unfold old_enough. destruct (N.eqb_spec x p) as [->|Hx].
  - rewrite N.sub_diag. destruct (N.leb_spec p p); [|lia]. destruct (N.leb_spec (p + 1) p); [lia|]. cbn. rewrite Bool.orb_false_r. auto.
  - cbn [andb orb]. destruct (N.leb_spec p x); destruct (N.leb_spec (p + 1) x); cbn [andb]; try lia; auto.
    replace (N.to_nat (x - p)) with (S (N.to_nat (x - (p + 1)))) by lia. reflexivity.
Qed.
Lemma mark_eras_ok t : forall vs p e idx buf bits, e = p + nlen vs \/ p + nlen vs <= e -> idx <= p / 64 -> p + nlen vs <= 64 * nlen bits -> idx < nlen bits ->
  buf < 2 ^ 64 -> Forall (fun w => w < 2 ^ 64) bits ->
  exists bits', mark_eras t (combine vs (range p e)) idx buf bits = (bits', true) /\ length bits' = length bits /\ Forall (fun w => w < 2 ^ 64) bits' /\
    forall x, bit_at 64 bits' x = bit_at 64 (put bits idx buf) x || old_enough t p vs x.
Proof.
  induction vs as [|v vs IH]; intros p e idx buf bits Hpe Hidx Hend Hin Hbuf HF.
  - cbn [combine mark_eras]. fold (put bits idx buf). exists (put bits idx buf). split; auto. destruct (put_spec bits idx buf Hin) as [A B]. split; auto. split.
    + apply Forall_forall. intros w Hw. apply In_nth with (d := 0) in Hw as (j & Hj & <-). rewrite B. destruct (j =? _)%nat; auto.
      rewrite Forall_forall in HF. apply HF. apply nth_In. lia.
    + intros x. unfold old_enough. destruct (N.to_nat (x - p)); cbn [nth_error]; rewrite Bool.andb_false_r, Bool.orb_false_r; auto.
  - assert (Hl : nlen (v :: vs) = 1 + nlen vs) by (unfold nlen; cbn [length]; lia). rewrite Hl in *.
    rewrite (range_cons p) by lia. cbn [combine mark_eras]. rewrite N.shiftr_div_pow2. change (2 ^ 6) with 64.
    assert (Hp1 : p / 64 <= (p + 1) / 64) by (apply N.div_le_mono; lia).
    destruct (N.ltb_spec v t) as [Hv|Hv].
    + destruct (IH (p + 1) e idx buf bits) as (b' & E & A & B & C); auto; try lia. exists b'. conj; auto. intros x. rewrite C, old_enough_cons.
      destruct (N.leb_spec t v); [lia|]. rewrite Bool.andb_false_r. reflexivity.
    + assert (Hpm : p mod 64 = N.land p 63). { change 63 with (N.ones 6). rewrite N.land_ones. reflexivity. }
      assert (Hin' : p / 64 < nlen bits) by (apply N.div_lt_upper_bound; lia).
      destruct (N.ltb_spec 0 (p / 64 - idx)) as [Hs|Hs].
      * fold (put bits idx buf). destruct (put_spec bits idx buf Hin) as [PA PB]. set (b1 := put bits idx buf) in *.
        replace (idx + (p / 64 - idx)) with (p / 64) by lia.
        destruct (nth_error b1 (N.to_nat (p / 64))) as [w|] eqn:Ew. 2:{ apply nth_error_None in Ew. unfold nlen in *. lia. }
        apply (nth_error_nth _ _ 0) in Ew.
        assert (HF1 : Forall (fun w => w < 2 ^ 64) b1).
        { apply Forall_forall. intros y Hy. apply In_nth with (d := 0) in Hy as (j & Hj & <-). rewrite PB. destruct (j =? _)%nat; auto.
          rewrite Forall_forall in HF. apply HF. apply nth_In. lia. }
        assert (Hw64 : w < 2 ^ 64). { rewrite <- Ew. rewrite Forall_forall in HF1. apply HF1. apply nth_In. unfold nlen in *. lia. }
        pose proof (nlen_eq _ _ PA) as PL.
        destruct (IH (p + 1) e (p / 64) (N.lor w (N.shiftl 1 (N.land p 63))) b1) as (b' & E & A & B & C); auto; try lia.
        { apply set_bit_small. auto. }
        exists b'. conj; auto; [lia|]. intros x. rewrite C, old_enough_cons, bit_at_put by lia.
        destruct (N.leb_spec t v); [|lia]. rewrite Bool.andb_true_r.
        destruct (N.eqb_spec (x / 64) (p / 64)) as [Ex|Ex].
        -- rewrite set_bit. rewrite <- Ew, <- Hpm. unfold bit_at. rewrite Ex.
           assert (Eq : (x mod 64 =? p mod 64) = (x =? p)).
           { destruct (N.eqb_spec (x mod 64) (p mod 64)); destruct (N.eqb_spec x p); auto; [exfalso; apply n|subst; tauto].
             rewrite (N.div_mod x 64), (N.div_mod p 64) by discriminate. congruence. }
           rewrite Eq, <- Bool.orb_assoc. auto.
        -- destruct (N.eqb_spec x p) as [->|]; [tauto|]. reflexivity.
      * assert (Ei : idx = p / 64) by lia.
        destruct (IH (p + 1) e idx (N.lor buf (N.shiftl 1 (N.land p 63))) bits) as (b' & E & A & B & C); auto; try lia.
        { apply set_bit_small. auto. }
        exists b'. conj; auto. intros x. rewrite C, old_enough_cons, !bit_at_put by lia.
        destruct (N.leb_spec t v); [|lia]. rewrite Bool.andb_true_r.
        destruct (N.eqb_spec (x / 64) idx) as [Ex|Ex].
        -- rewrite set_bit. rewrite <- Hpm.
           assert (Eq : (x mod 64 =? p mod 64) = (x =? p)).
           { destruct (N.eqb_spec (x mod 64) (p mod 64)); destruct (N.eqb_spec x p); auto; [exfalso; apply n|subst; tauto].
             rewrite (N.div_mod x 64), (N.div_mod p 64) by discriminate. congruence. }
           rewrite Eq, <- Bool.orb_assoc. auto.
        -- destruct (N.eqb_spec x p) as [->|]; [lia|]. reflexivity.
Qed.
Lemma old_enough_app t p a b x : old_enough t p (a ++ b) x = old_enough t p a x || old_enough t (p + nlen a) b x.
Proof.
  revert p. induction a as [|v a IH]; intros p; cbn [app].
  - replace (nlen (@nil N)) with 0 by reflexivity. rewrite N.add_0_r. unfold old_enough at 2. destruct (N.to_nat (x - p)); cbn [nth_error]; rewrite Bool.andb_false_r; auto.
  - rewrite !old_enough_cons, IH, Bool.orb_assoc. f_equal. f_equal. unfold nlen. cbn [length]. lia.
Qed.
Lemma put_same bits idx : idx < nlen bits -> forall x, bit_at 64 (put bits idx (nth (N.to_nat idx) bits 0)) x = bit_at 64 bits x.
Proof.
  intros H x. rewrite bit_at_put by auto. unfold bit_at. destruct (N.eqb_spec (x / 64) idx) as [->|]; auto.
Qed.
Lemma ecol_blocks eng d t : forall blocks vss i bits,
  Forall2 (array_block_at u32_codec d) blocks vss -> (forall b, In b blocks -> eng b = Some (d b)) -> (i + nlen blocks) * 1018 < 2 ^ 64 ->
  (forall j, (S j < length vss)%nat -> nlen (nth j vss []) = 1018) -> Forall (fun vs => vs <> [] /\ nlen vs <= 1018) vss ->
  i * 1018 + nlen (concat vss) <= 64 * nlen bits -> Forall (fun w => w < 2 ^ 64) bits ->
  exists bits', visit_array_blocks u32_codec eng (ecol_visit t) bits (combine (range i (i + nlen blocks)) blocks) = (bits', []) /\ length bits' = length bits /\
    Forall (fun w => w < 2 ^ 64) bits' /\
    forall x, bit_at 64 bits' x = bit_at 64 bits x || old_enough t (i * 1018) (concat vss) x.
Proof.
  intros blocks vss i bits HF. revert i bits. induction HF as [|b vs blocks vss Hb HF IH]; intros i bits He Hi Hfull Hne Hfit HW.
  - exists bits. rewrite combine_nil. cbn [visit_array_blocks]. conj; auto. intros x. cbn [concat]. unfold old_enough. destruct (N.to_nat _); cbn [nth_error]; rewrite Bool.andb_false_r, Bool.orb_false_r; auto.
  - assert (Hl : nlen (b :: blocks) = 1 + nlen blocks) by (unfold nlen; cbn [length]; lia). rewrite Hl in *.
    rewrite (range_cons i) by lia. replace (i + (1 + nlen blocks)) with (i + 1 + nlen blocks) in * by lia.
    cbn [combine visit_array_blocks]. unfold visit_array_block. rewrite He by (left; auto). destruct Hb as (_ & _ & Hty & Hun). rewrite Hty, Hun.
    unfold ecol_visit at 1. cbn [ab_hdr ab_values ah_max]. change ((4096 - 24) / N.of_nat (csize u32_codec)) with 1018.
    rewrite N.mod_small by (unfold W64; change (2 ^ 64) with 18446744073709551616 in Hi; lia).
    inversion Hne as [|? ? [Hn1 Hn2] Hne']; subst.
    cbn [concat] in Hfit. assert (Hna : nlen (vs ++ concat vss) = nlen vs + nlen (concat vss)) by (unfold nlen; rewrite app_length; lia). rewrite Hna in Hfit.
    assert (Hpos : 0 < nlen vs) by (destruct vs; [congruence|unfold nlen; cbn; lia]).
    rewrite N.shiftr_div_pow2. change (2 ^ 6) with 64.
    assert (Hin : i * 1018 / 64 < nlen bits) by (apply N.div_lt_upper_bound; lia).
    destruct (nth_error bits (N.to_nat (i * 1018 / 64))) as [w|] eqn:Ew. 2:{ apply nth_error_None in Ew. unfold nlen in *. lia. }
    pose proof (nth_error_nth _ _ 0 Ew) as Ew'.
    destruct (mark_eras_ok t vs (i * 1018) (i * 1018 + 1018) (i * 1018 / 64) w bits) as (b1 & -> & L1 & W1 & B1); auto; try lia.
    { rewrite Forall_forall in HW. apply HW. eapply nth_error_In. eauto. }
    cbv beta iota. pose proof (nlen_eq _ _ L1) as Ln1.
    assert (Hdone : blocks = [] \/ nlen vs = 1018). { destruct blocks; auto. right. inversion HF; subst. apply (Hfull 0%nat). cbn. lia. }
    destruct Hdone as [->|Hvs].
    + inversion HF; subst. rewrite combine_nil. cbn [visit_array_blocks]. exists b1. conj; auto. intros x. rewrite B1. cbn [concat]. rewrite app_nil_r.
      f_equal. apply put_same. auto.
    + destruct (IH (i + 1) b1) as (b2 & -> & L2 & W2 & B2).
      * intros x Hx. apply He. right. auto.
      * lia.
      * intros j Hj. exact (Hfull (S j) ltac:(cbn [length]; lia)).
      * auto.
      * lia.
      * auto.
      * exists b2. conj; auto; [congruence|]. intros x. rewrite B2, B1. cbn [concat]. rewrite old_enough_app, Bool.orb_assoc. f_equal.
        -- f_equal. rewrite <- Ew'. apply put_same. auto.
        -- f_equal. lia.
Qed.
Lemma inv_era_array_ok eng d nr root t eras bits : readable_array u32_codec eng d nr root eras -> nr < 2 ^ 64 -> nlen eras < 2 ^ 32 -> nlen eras <= 64 * nlen bits ->
  Forall (fun w => w < 2 ^ 64) bits ->
  exists bits', inv_era_array eng nr root t bits = Ok bits' /\ length bits' = length bits /\ Forall (fun w => w < 2 ^ 64) bits' /\
    forall x, bit_at 64 bits' x = bit_at 64 bits x || old_enough t 0 eras x.
Proof.
  intros (foot & blocks & (depth & vss & HT & HF & <- & Hlen) & HN & Hf) Hnr Hw Hfit HW.
  pose proof (Forall2_length _ _ _ HF) as HLb. change ((4096 - 24) / N.of_nat (csize u32_codec)) with 1018 in Hlen.
  destruct (array_lens vss 1018 ltac:(lia) Hlen) as (Hfull & Htot & _).
  assert (Hnb : nlen vss = nlen blocks) by (apply nlen_eq; auto). rewrite Hnb in Htot. change (2 ^ 32) with 4294967296 in Hw.
  unfold inv_era_array. rewrite (array_walk_index u32_codec false eng (ecol_visit t) nr d depth root blocks foot _ HT HN Hnr ltac:(change (2 ^ 64) with 18446744073709551616; lia)).
  2:{ intros b Hin. apply Hf. apply in_or_app. auto. }
  destruct (ecol_blocks eng d t blocks vss 0 bits HF) as (b' & E & L' & W' & B').
  - intros b Hin. apply Hf. apply in_or_app. auto.
  - change (2 ^ 64) with 18446744073709551616. lia.
  - auto.
  - apply Forall_forall. intros v Hv. apply In_nth with (d := []) in Hv as (j & Hj & <-). destruct (Hlen j Hj). split; auto. lia.
  - lia.
  - auto.
  - rewrite N.add_0_l in E. rewrite E. exists b'. conj; auto.
Qed.

(** ** All the writesets *)
Definition readable_words (eng : N -> option (list N)) (d : disk) (nr : N) (s : (N * writeset) * list N) : Prop :=
  readable_set eng d nr (snd (fst s)) (snd s) /\ fst (fst s) < 2 ^ 32.
Lemma inv_sets_ok eng d nr t : nr < 2 ^ 64 -> forall sets bits, Forall (readable_words eng d nr) sets -> Forall (fun w => w < 2 ^ 64) bits ->
  exists bits', inv_sets eng nr t (map fst sets) bits = Ok bits' /\ length bits' = length bits /\ Forall (fun w => w < 2 ^ 64) bits' /\
    forall x, x < 64 * nlen bits -> (bit_at 64 bits' x = true <-> bit_at 64 bits x = true \/ exists e ws words, In ((e, ws), words) sets /\ t <= e /\ bit_at 64 words x = true).
Proof.
  intros Hnr. induction sets as [|[[e ws] words] sets IH]; intros bits HF HW; cbn [map fst inv_sets].
  - exists bits. conj; auto. intros x _. split; auto. intros [H|(? & ? & ? & [] & _)]; auto.
  - inversion HF as [|? ? [(R & Hl & Hb & Hws) He] HF']; subst. cbn [fst snd] in *.
    rewrite N.mod_small by exact He. destruct (N.ltb_spec e t) as [Hlt|Hge].
    + destruct (IH bits HF' HW) as (b' & E & A & B & C). exists b'. conj; auto. intros x Hx. rewrite (C x Hx). split; intros [H|(e0 & ws0 & w0 & H1 & H2 & H3)]; auto.
      * right. exists e0, ws0, w0. cbn [In]. auto.
      * destruct H1 as [H1|H1]; [injection H1 as <- <- <-; lia|]. right. exists e0, ws0, w0. auto.
    + assert (Hlw : nlen words < 2 ^ 32). { change (2 ^ 32) with 4294967296 in *. rewrite Hl. apply N.div_lt_upper_bound; lia. }
      destruct (inv_writeset_ok eng d nr (ws_root ws) words bits R Hnr Hlw) as (b1 & -> & L1 & N1). cbn [bind].
      assert (W1 : Forall (fun w => w < 2 ^ 64) b1).
      { apply Forall_forall. intros y Hy. apply In_nth with (d := 0) in Hy as (j & Hj & <-). rewrite N1 by lia. apply small64. intros i Hi. rewrite N.lor_spec.
        rewrite (proj1 (small64 (nth j bits 0))); auto.
        2:{ rewrite Forall_forall in HW. apply HW. apply nth_In. lia. }
        cbn [orb]. apply (proj1 (small64 _)); auto. destruct (Nat.lt_ge_cases j (length words)); [|rewrite nth_overflow by auto; reflexivity].
        rewrite Forall_forall in Hws. apply Hws. apply nth_In. auto. }
      destruct (IH b1 HF' W1) as (b' & E & A & B & C). exists b'. conj; auto; [congruence|]. intros x Hx.
      rewrite C by (rewrite (nlen_eq _ _ L1); auto).
      assert (Hx1 : bit_at 64 b1 x = bit_at 64 bits x || bit_at 64 words x).
      { unfold bit_at. rewrite N1, N.lor_spec; auto. assert (x / 64 < nlen bits) by (apply N.div_lt_upper_bound; lia). unfold nlen in *. lia. }
      rewrite Hx1, Bool.orb_true_iff. split.
      * intros [[H|H]|(e0 & ws0 & w0 & H1 & H2 & H3)]; auto; right; [exists e, ws, words|exists e0, ws0, w0]; cbn [In]; auto.
      * intros [H|(e0 & ws0 & w0 & [H1|H1] & H2 & H3)]; auto; [injection H1 as <- <- <-; auto|]. right. exists e0, ws0, w0. auto.
Qed.
