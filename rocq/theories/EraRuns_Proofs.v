(** The ranges that dump and invalidate make of a bitset. *)
From Verif Require Import Base Csum_Model Codec_Model Walker_Model Array_Model Era_Model Era_Spec.

Lemma separated_snoc : forall rs b e, separated rs -> b < e -> (forall b' e', In (b', e') rs -> e' < b) -> separated (rs ++ [(b, e)]).
Proof.
  induction rs as [|[b0 e0] r IH]; intros b e H Hb Hall; cbn [app separated]; [auto|].
  destruct H as (H1 & H2 & H3). split; [auto|]. split.
  - destruct r as [|[b1 e1] r]; cbn [app]; [|exact H2]. apply (Hall b0 e0). left. auto.
  - apply IH; auto. intros b' e' Hin. apply (Hall b' e'). right. auto.
Qed.
Lemma separated_prefix : forall rs x, separated (rs ++ [x]) -> separated rs.
Proof.
  induction rs as [|[b0 e0] r IH]; intros x H; cbn [app separated] in *; auto. destruct H as (H1 & H2 & H3).
  conj; [auto|destruct r as [|[b1 e1] r]; cbn [app] in *; auto|eauto].
Qed.
(** widening the last range *)
Lemma separated_widen : forall rs b e e', separated (rs ++ [(b, e)]) -> e <= e' -> separated (rs ++ [(b, e')]).
Proof.
  induction rs as [|[b0 e0] r IH]; intros b e e' H He; cbn [app separated] in *; [lia|]. destruct H as (H1 & H2 & H3).
  conj; [auto|destruct r as [|[b1 e1] r]; cbn [app] in *; auto|eauto].
Qed.
Lemma covered_snoc rs b e x : covered (rs ++ [(b, e)]) x <-> covered rs x \/ b <= x < e.
Proof.
  unfold covered. split.
  - intros (b' & e' & Hin & H). apply in_app_iff in Hin as [Hin|[Hin|[]]]; [left; eauto|]. injection Hin as <- <-. auto.
  - intros [(b' & e' & Hin & H)|H]; [exists b', e'|exists b, e]; split; auto; apply in_or_app; cbn; auto.
Qed.

Lemma tz_spec k : forall n, let z := trailing_zeros k n in z <= N.of_nat k /\ (forall i, i < z -> N.testbit n i = false) /\ (z < N.of_nat k -> N.testbit n z = true).
Proof.
  induction k as [|k IH]; intros n; cbn [trailing_zeros]; [cbn; conj; lia|].
  destruct (N.testbit n 0) eqn:E; cbv zeta; [conj; intros; try lia; auto|].
  destruct (IH (N.shiftr n 1)) as (H1 & H2 & H3). conj; [lia| |].
  - intros i Hi. destruct (N.eq_dec i 0) as [->|]; auto. specialize (H2 (i - 1) ltac:(lia)). rewrite N.shiftr_spec in H2 by lia.
    replace (i - 1 + 1) with i in H2 by lia. auto.
  - intros Hk. specialize (H3 ltac:(lia)). rewrite N.shiftr_spec in H3 by lia. rewrite N.add_comm. auto.
Qed.
Lemma to_spec k : forall n, let z := trailing_ones k n in z <= N.of_nat k /\ (forall i, i < z -> N.testbit n i = true) /\ (z < N.of_nat k -> N.testbit n z = false).
Proof.
  induction k as [|k IH]; intros n; cbn [trailing_ones]; [cbn; conj; lia|].
  destruct (N.testbit n 0) eqn:E; cbv zeta; [|conj; intros; try lia; auto].
  destruct (IH (N.shiftr n 1)) as (H1 & H2 & H3). conj; [lia| |].
  - intros i Hi. destruct (N.eq_dec i 0) as [->|]; auto. specialize (H2 (i - 1) ltac:(lia)). rewrite N.shiftr_spec in H2 by lia.
    replace (i - 1 + 1) with i in H2 by lia. auto.
  - intros Hk. specialize (H3 ltac:(lia)). rewrite N.shiftr_spec in H3 by lia. rewrite N.add_comm. auto.
Qed.
Lemma pos_bit n m : 0 < n -> n < 2 ^ m -> exists i, i < m /\ N.testbit n i = true.
Proof.
  intros H Hm. exists (N.log2 n). split; [apply N.log2_lt_pow2; auto|]. apply N.bit_log2. lia.
Qed.

Section R.
Context (K : nat) (nr : N) (ws : list N).
Hypothesis HK : (0 < K)%nat.
Hypothesis Hnr : nr < 2 ^ 32.
Let k := N.of_nat K.
Notation bit := (bit_at k ws).
Hypothesis Htop : bit (2 ^ 32 - 1) = false.

(** Bits below [p] have been seen; [q] is how far the output reaches. *)
Definition RU (q : N) (rs : list (N * N)) : Prop :=
  separated rs /\ (forall x, covered rs x <-> x < q /\ bit x = true).
Definition RInv (p : N) (s : rst) : Prop :=
  (r_begin s < r_end s /\ r_end s = N.min p nr /\ RU (N.min p nr) (r_out s ++ [(r_begin s, r_end s)])) \/
  (r_end s <= r_begin s /\ RU (N.min p nr) (r_out s) /\ (forall b e, In (b, e) (r_out s) -> e < p) /\
   (p <= nr -> r_begin s = p /\ r_end s = p) /\
   (nr < p -> nr <= r_begin s /\ nr <= r_end s <= p)).

Lemma RInv_flush p s : RInv p s -> RU (N.min p nr) (flush_range s).
Proof.
  intros [(H1 & H2 & H3)|(H1 & H2 & _)]; unfold flush_range.
  - destruct (N.ltb_spec (r_begin s) (r_end s)); [auto|lia].
  - destruct (N.ltb_spec (r_begin s) (r_end s)); [lia|auto].
Qed.
Lemma RU_more q q' rs : RU q rs -> q <= q' -> (forall x, q <= x < q' -> bit x = false) -> RU q' rs.
Proof.
  intros [H1 H2] Hq Hz. split; auto. intros x. rewrite H2. split; intros [A B]; split; auto; try lia.
  destruct (N.lt_ge_cases x q); auto. rewrite Hz in B by lia. discriminate.
Qed.
Lemma RU_ends q rs b e : RU q rs -> In (b, e) rs -> e <= q.
Proof.
  intros [H1 H2] Hin. assert (b < e).
  { clear - H1 Hin. induction rs as [|[b' e'] r IH]; [easy|]. destruct H1 as (A & B & C). destruct Hin as [E|Hin]; [injection E as <- <-; auto|auto]. }
  assert (covered rs (e - 1)) by (exists b, e; split; auto; lia). apply H2 in H0. lia.
Qed.
Lemma add32_small a b : a + b < 2 ^ 32 -> add32 a b = a + b.
Proof. intros H. apply N.mod_small. exact H. Qed.

(** a run of zeros *)
Lemma RInv_zeros p z s : RInv p s -> 0 < z -> p + z < 2 ^ 32 -> (forall i, i < z -> bit (p + i) = false) ->
  RInv (p + z) (mkrst (add32 (r_end s) z) (add32 (r_end s) z) (flush_range s)).
Proof.
  intros H Hz Hp Hb. pose proof (RInv_flush p s H) as HF.
  assert (HF' : RU (N.min (p + z) nr) (flush_range s)).
  { eapply RU_more; [exact HF|lia|]. intros x Hx. replace x with (p + (x - p)) by lia. apply Hb. lia. }
  right. cbn [r_begin r_end r_out]. split; [lia|]. split; [exact HF'|]. split.
  { intros b e Hin. pose proof (RU_ends _ _ _ _ HF Hin). lia. }
  destruct H as [(H1 & H2 & _)|(H1 & _ & _ & H2 & H3)].
  - rewrite H2, add32_small by lia. split; intros; lia.
  - destruct (N.le_gt_cases p nr) as [Hle|Hgt].
    + destruct (H2 Hle) as [H4 H5]. rewrite H5, add32_small by lia. split; intros; lia.
    + destruct (H3 Hgt) as [H4 H5]. rewrite add32_small by lia. split; intros; lia.
Qed.
(** a run of ones *)
Lemma RInv_ones p o s : RInv p s -> 0 < o -> p + o <= 2 ^ 32 -> (forall i, i < o -> bit (p + i) = true) ->
  RInv (p + o) (mkrst (r_begin s) (N.min (add32 (r_end s) o) nr) (r_out s)).
Proof.
  intros H Ho Hp Hb.
  assert (Hp' : p + o < 2 ^ 32).
  { destruct (N.eq_dec (p + o) (2 ^ 32)) as [E|]; [|lia]. specialize (Hb (o - 1) ltac:(lia)). replace (p + (o - 1)) with (2 ^ 32 - 1) in Hb by lia. congruence. }
  destruct H as [(H1 & H2 & H3 & H4)|(H1 & (H4 & H5) & H6 & H2 & H3)].
  - left. cbn [r_begin r_end r_out]. rewrite add32_small by lia. split; [lia|]. split; [lia|]. split.
    + eapply separated_widen; [exact H3|lia].
    + intros x. rewrite covered_snoc. pose proof (H4 x) as Hx. rewrite covered_snoc in Hx. split.
      * intros [Hc|Hc]; [destruct (proj1 Hx (or_introl Hc)); split; auto; lia|].
        destruct (N.lt_ge_cases x (r_end s)) as [Hl|Hl]; [destruct (proj1 Hx (or_intror (conj (proj1 Hc) Hl))); split; auto; lia|].
        split; [lia|]. replace x with (p + (x - p)) by lia. apply Hb. lia.
      * intros [Ha Hbx]. destruct (N.lt_ge_cases x (N.min p nr)) as [Hl|Hl]; [|right; lia].
        destruct (proj2 Hx (conj Hl Hbx)); [auto|right; lia].
  - assert (Hmore : nr <= p -> RInv (p + o) (mkrst (r_begin s) (N.min (add32 (r_end s) o) nr) (r_out s))).
    { intros Hge. assert (Hs : nr <= r_begin s /\ nr <= r_end s <= p).
      { destruct (N.eq_dec p nr) as [->|]; [destruct (H2 ltac:(lia)); lia|apply H3; lia]. }
      right. cbn [r_begin r_end r_out]. rewrite add32_small by lia. split; [lia|]. split. { eapply RU_more; [split; eauto|lia|intros; lia]. }
      split; [|split; intros; lia]. intros b e Hin. pose proof (H6 b e Hin). lia. }
    destruct (N.lt_ge_cases p nr) as [Hlt|Hge]; [|auto]. clear Hmore.
    destruct (H2 ltac:(lia)) as [H7 H8]. rewrite H7, H8, add32_small by lia.
    left. cbn [r_begin r_end r_out]. split; [lia|]. split; [lia|]. split.
    + apply separated_snoc; auto. lia.
    + intros x. rewrite covered_snoc, H5. split.
      * intros [[Ha Hbx]|Ha]; [split; auto; lia|]. split; [lia|]. replace x with (p + (x - p)) by lia. apply Hb. lia.
      * intros [Ha Hbx]. destruct (N.lt_ge_cases x p); [left; split; auto; lia|right; lia].
Qed.

(** the rest of a word, from bit [j] on *)
Lemma word_runs_inv w base : forall fuel j s, base + k <= 2 ^ 32 -> w < 2 ^ k ->
  (forall i, i < k -> bit (base + i) = N.testbit w i) -> j <= k -> (N.to_nat (k - j) < fuel)%nat -> RInv (base + j) s ->
  exists j', j <= j' <= k /\ (forall i, j' <= i < k -> N.testbit w i = false) /\ RInv (base + j') (word_runs K nr fuel (N.shiftr w j) s).
Proof.
  induction fuel as [|fuel IH]; intros j s Hb Hw Hbit Hj Hf HI; [lia|]. cbn [word_runs].
  destruct (N.ltb_spec 0 (N.shiftr w j)) as [Hpos|Hz].
  2:{ exists j. split; [lia|]. split; auto. intros i Hi. assert (E : N.shiftr w j = 0) by lia.
      replace i with (i - j + j) by lia. rewrite <- N.shiftr_spec by lia. rewrite E. apply N.bits_0. }
  assert (Hsz : N.shiftr w j < 2 ^ (k - j)).
  { rewrite N.shiftr_div_pow2. apply N.div_lt_upper_bound; [apply N.pow_nonzero; lia|]. rewrite <- N.pow_add_r. replace (j + (k - j)) with k by lia. auto. }
  destruct (pos_bit _ _ Hpos Hsz) as (i0 & Hi0 & Ei0). rewrite N.shiftr_spec in Ei0 by lia.
  assert (Hbits : forall z i, N.testbit (N.shiftr (N.shiftr w j) z) i = N.testbit w (j + z + i)).
  { intros z i. rewrite !N.shiftr_spec by lia. f_equal. lia. }
  assert (Hhi : forall i, k <= i -> N.testbit w i = false).
  { intros i Hi. rewrite N.bits_above_log2; auto. destruct (N.eq_dec w 0) as [->|]; [cbn; lia|]. apply N.log2_lt_pow2; [lia|].
    eapply N.lt_le_trans; [exact Hw|]. apply N.pow_le_mono_r; lia. }
  pose proof (tz_spec K (N.shiftr w j)) as (Hz1 & Hz2 & Hz3). fold k in Hz1, Hz3. set (z := trailing_zeros K (N.shiftr w j)) in *. clearbody z.
  assert (Hzi : z <= i0). { destruct (N.le_gt_cases z i0); auto. specialize (Hz2 i0 ltac:(lia)). rewrite N.shiftr_spec in Hz2 by lia. congruence. }
  specialize (Hz3 ltac:(lia)). rewrite N.shiftr_spec in Hz3 by lia. rewrite N.add_comm in Hz3.
  (* after the zeros *)
  assert (Hstep : forall s1, RInv (base + (j + z)) s1 ->
    exists j', j <= j' <= k /\ (forall i, j' <= i < k -> N.testbit w i = false) /\
      RInv (base + j') (word_runs K nr fuel (N.shiftr (N.shiftr w (j + z)) (trailing_ones K (N.shiftr w (j + z))))
        (mkrst (r_begin s1) (N.min (add32 (r_end s1) (trailing_ones K (N.shiftr w (j + z)))) nr) (r_out s1)))).
  { intros s1 H1. pose proof (to_spec K (N.shiftr w (j + z))) as (Ho1 & Ho2 & Ho3). fold k in Ho1, Ho3.
    set (o := trailing_ones K (N.shiftr w (j + z))) in *. clearbody o.
    assert (Ho : 0 < o). { destruct (N.eq_dec o 0) as [->|]; [|lia]. specialize (Ho3 ltac:(lia)). rewrite N.shiftr_spec, N.add_0_l in Ho3 by lia. congruence. }
    assert (Hok : j + z + o <= k).
    { destruct (N.le_gt_cases (j + z + o) k); auto. specialize (Ho2 (k - (j + z)) ltac:(lia)). rewrite N.shiftr_spec in Ho2 by lia.
      replace (k - (j + z) + (j + z)) with k in Ho2 by lia. rewrite Hhi in Ho2 by lia. discriminate. }
    rewrite N.shiftr_shiftr.
    destruct (IH (j + z + o) (mkrst (r_begin s1) (N.min (add32 (r_end s1) o) nr) (r_out s1)) Hb Hw Hbit Hok ltac:(lia)) as (j' & A & B & C).
    - rewrite N.add_assoc. apply RInv_ones; auto; [lia|]. intros i Hi. rewrite <- N.add_assoc, Hbit by lia.
      specialize (Ho2 i Hi). rewrite N.shiftr_spec, N.add_comm in Ho2 by lia. auto.
    - exists j'. split; [lia|]. split; auto. }
  destruct (N.ltb_spec 0 z) as [Hzp|Hzp].
  - rewrite (N.shiftr_shiftr w j z). apply (Hstep (mkrst (add32 (r_end s) z) (add32 (r_end s) z) (flush_range s))). rewrite N.add_assoc. apply RInv_zeros; auto; [lia|].
    intros i Hi. rewrite <- N.add_assoc, Hbit by lia. specialize (Hz2 i Hi). rewrite N.shiftr_spec, N.add_comm in Hz2 by lia. auto.
  - assert (z = 0) as -> by lia. rewrite N.add_0_r in Hstep. apply Hstep. auto.
Qed.

(** after [p] every bit is clear, up to the end of what can be addressed *)
Definition Rpost (p : N) (s : rst) : Prop := RInv p s \/ (p = 2 ^ 32 /\ RU nr (flush_range s)).
Lemma run_word_inv i w s : w < 2 ^ k -> (i + 1) * k <= 2 ^ 32 -> nth_error ws (N.to_nat i) = Some w -> RInv (i * k) s ->
  Rpost ((i + 1) * k) (run_word K nr i w s).
Proof.
  intros Hw Hi Hn HI.
  assert (Hbit : forall j, j < k -> bit (i * k + j) = N.testbit w j).
  { intros j Hj. unfold bit_at. rewrite N.div_add_l, N.div_small, N.add_0_r by (try lia). rewrite (nth_error_nth _ _ _ Hn).
    rewrite N.add_comm, N.mod_add, N.mod_small by (try lia). reflexivity. }
  unfold run_word. fold k. destruct (N.eqb_spec w (2 ^ k - 1)) as [->|Hne].
  - left. replace ((i + 1) * k) with (i * k + k) by lia. apply RInv_ones; auto; try lia.
    intros j Hj. rewrite Hbit by lia. rewrite <- N.pred_sub. rewrite <- N.ones_equiv. apply N.ones_spec_low. auto.
  - destruct (word_runs_inv w (i * k) (S K) 0 s) as (j' & A & B & C); auto; try lia.
    { rewrite N.add_0_r. auto. }
    rewrite N.shiftr_0_r in C. set (s1 := word_runs K nr (S K) w s) in *. clearbody s1. cbv zeta.
    destruct (N.eq_dec (i * k + k) (2 ^ 32)) as [Etop|Hsmall].
    + replace ((i * k + k) mod W32) with 0 by (rewrite Etop; reflexivity).
      destruct (N.ltb_spec (r_end s1) 0); [lia|]. right. split; [lia|].
      eapply RU_more; [apply RInv_flush; exact C|lia|]. intros x Hx. replace x with (i * k + (x - i * k)) by lia. rewrite Hbit by lia. apply B. lia.
    + rewrite N.mod_small by (unfold W32 in *; lia).
      assert (Hend : RInv (i * k + k) (if r_end s1 <? i * k + k then mkrst (i * k + k) (i * k + k) (flush_range s1) else s1)).
      { destruct (N.ltb_spec (r_end s1) (i * k + k)) as [Hl|Hl].
        - right. cbn [r_begin r_end r_out]. split; [lia|]. pose proof (RInv_flush _ _ C) as HF. split.
          + eapply RU_more; [exact HF|lia|]. intros x Hx. replace x with (i * k + (x - i * k)) by lia. rewrite Hbit by lia. apply B. lia.
          + split; [|split; intros; lia]. intros b e Hin.
            destruct (N.eq_dec j' k) as [->|]; [|pose proof (RU_ends _ _ _ _ HF Hin); lia].
            destruct C as [(C1 & C2 & C3)|(C1 & C2 & C3 & C4 & C5)].
            * pose proof (RU_ends _ _ _ _ HF Hin). lia.
            * unfold flush_range in Hin. destruct (N.ltb_spec (r_begin s1) (r_end s1)); [lia|]. eauto.
        - destruct C as [(C1 & C2 & C3)|(C1 & C2 & C3 & C4 & C5)].
          + assert (j' = k) as -> by lia. left. auto.
          + destruct (N.le_gt_cases (i * k + j') nr) as [Hle|Hgt].
            * destruct (C4 Hle). assert (j' = k) as -> by lia. right. auto.
            * destruct (C5 Hgt). assert (j' = k) as -> by lia. right. auto. }
      replace ((i + 1) * k) with (i * k + k) by lia. left. exact Hend.
Qed.
Lemma run_words_inv : forall l i s, Forall (fun w => w < 2 ^ k) l -> (i + nlen l) * k <= 2 ^ 32 ->
  (forall j, nth_error l j = nth_error ws (N.to_nat i + j)) -> RInv (i * k) s ->
  Rpost ((i + nlen l) * k) (run_words K nr i l s).
Proof.
  induction l as [|w r IH]; intros i s HF Hl Hn HI; cbn [run_words].
  - unfold nlen. cbn. rewrite N.add_0_r. left. auto.
  - assert (El : nlen (w :: r) = nlen r + 1) by (unfold nlen; cbn; lia). rewrite El in *. inversion HF as [|w' r' Hw Hr]; subst w' r'.
    pose proof (run_word_inv i w s Hw ltac:(nia) ltac:(rewrite <- (Nat.add_0_r (N.to_nat i)), <- Hn; auto) HI) as [H|[E H]].
    + replace (i + (nlen r + 1)) with (i + 1 + nlen r) by lia. apply IH; auto; [nia|]. intros j. specialize (Hn (S j)). cbn [nth_error] in Hn.
      rewrite Hn. f_equal. lia.
    + assert (nlen r = 0) by (unfold k in *; nia). destruct r as [|]; [|unfold nlen in *; cbn in *; lia]. cbn [run_words].
      right. split; auto.
Qed.
Lemma bit_runs_spec : Forall (fun w => w < 2 ^ k) ws -> nlen ws * k <= 2 ^ 32 -> nr <= nlen ws * k ->
  separated (bit_runs K nr ws) /\ forall x, covered (bit_runs K nr ws) x <-> x < nr /\ bit x = true.
Proof.
  intros HF Hl Hn. unfold bit_runs.
  pose proof (run_words_inv ws 0 (mkrst 0 0 []) HF) as H. rewrite N.add_0_l in H.
  destruct H as [H|[E H]]; auto.
  - right. cbn [r_begin r_end r_out]. rewrite N.mul_0_l, N.min_l by lia. split; [lia|]. split.
    + split; [exact I|]. intros x. unfold covered. split; [intros (? & ? & [] & _)|lia].
    + split; [intros b e []|]. split; intros; lia.
  - apply RInv_flush in H. rewrite N.min_r in H by lia. exact H.
Qed.
End R.
