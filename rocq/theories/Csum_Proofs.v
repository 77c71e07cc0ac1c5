From Verif Require Import Base Csum_Model.
Local Open Scope N_scope.

(** ** The shift register *)

Definition u32 (s : N) : Prop := s < 4294967296.

Lemma lt_pow2_testbit s k : s < 2 ^ k <-> forall i, k <= i -> N.testbit s i = false.
Proof.
  split.
  - intros H i Hi. destruct (N.eq_dec s 0) as [->|Hs]; [apply N.bits_0|].
    apply N.bits_above_log2. apply N.log2_lt_pow2; try lia.
    eapply N.lt_le_trans; eauto. apply N.pow_le_mono_r; lia.
  - intros H. destruct (N.eq_dec s 0) as [->|Hs].
    { apply N.neq_0_lt_0, N.pow_nonzero; lia. }
    apply N.log2_lt_pow2; [lia|].
    destruct (N.lt_ge_cases (N.log2 s) k) as [|Hk]; auto.
    specialize (H _ Hk). rewrite N.bit_log2 in H by auto. discriminate.
Qed.

Lemma u32_pow s : u32 s <-> s < 2 ^ 32.
Proof. unfold u32. change (2 ^ 32) with 4294967296. tauto. Qed.

Lemma lxor_u32 a b : u32 a -> u32 b -> u32 (N.lxor a b).
Proof.
  rewrite !u32_pow, !lt_pow2_testbit. intros Ha Hb i Hi.
  rewrite N.lxor_spec, Ha, Hb by auto. reflexivity.
Qed.

Lemma div2_u32 a : u32 a -> N.div2 a < 2147483648.
Proof. unfold u32. rewrite N.div2_div. intros. dlia. Qed.

Lemma crc_shift_u32 s : u32 s -> u32 (crc_shift s).
Proof.
  intros H. unfold crc_shift. pose proof (div2_u32 _ H).
  destruct (N.odd s).
  - apply lxor_u32; unfold u32, crc_poly in *; lia.
  - unfold u32. lia.
Qed.

Lemma crc_shift_bit31 s : u32 s -> N.testbit (crc_shift s) 31 = N.odd s.
Proof.
  intros H. pose proof (div2_u32 _ H) as H2.
  assert (N.testbit (N.div2 s) 31 = false) as Hb.
  { apply (proj1 (lt_pow2_testbit (N.div2 s) 31)); [exact H2|lia]. }
  unfold crc_shift. destruct (N.odd s); auto.
  rewrite N.lxor_spec, Hb. reflexivity.
Qed.

Lemma odd_div2_inj a b : N.odd a = N.odd b -> N.div2 a = N.div2 b -> a = b.
Proof.
  intros Ho Hd. rewrite (N.div2_odd a), (N.div2_odd b), Ho, Hd. reflexivity.
Qed.

Lemma lxor_cancel_r a b c : N.lxor a c = N.lxor b c -> a = b.
Proof.
  intros H. assert (N.lxor (N.lxor a c) c = N.lxor (N.lxor b c) c) by congruence.
  rewrite !N.lxor_assoc, N.lxor_nilpotent, !N.lxor_0_r in H0. auto.
Qed.

Lemma lxor_cancel_l a b c : N.lxor c a = N.lxor c b -> a = b.
Proof. rewrite (N.lxor_comm c a), (N.lxor_comm c b). apply lxor_cancel_r. Qed.

Lemma crc_shift_inj a b : u32 a -> u32 b -> crc_shift a = crc_shift b -> a = b.
Proof.
  intros Ha Hb H.
  assert (N.odd a = N.odd b) as Ho.
  { rewrite <- !crc_shift_bit31 by auto. congruence. }
  apply odd_div2_inj; auto.
  unfold crc_shift in H. rewrite Ho in H.
  destruct (N.odd b); auto. eapply lxor_cancel_r; eauto.
Qed.

Lemma odd_lxor a b : N.odd (N.lxor a b) = xorb (N.odd a) (N.odd b).
Proof. rewrite <- !N.bit0_odd. apply N.lxor_spec. Qed.

Lemma div2_lxor a b : N.div2 (N.lxor a b) = N.lxor (N.div2 a) (N.div2 b).
Proof.
  apply N.bits_inj; intros i. rewrite N.lxor_spec, !N.div2_spec, !N.shiftr_spec'.
  apply N.lxor_spec.
Qed.

Lemma crc_shift_lxor a b :
  crc_shift (N.lxor a b) = N.lxor (crc_shift a) (crc_shift b).
Proof.
  unfold crc_shift. rewrite odd_lxor, div2_lxor.
  apply N.bits_inj; intros i.
  destruct (N.odd a), (N.odd b); simpl xorb; cbv iota; rewrite ?N.lxor_spec;
  repeat match goal with |- context [N.testbit ?x ?y] => generalize (N.testbit x y) end;
  intros; repeat match goal with b : bool |- _ => destruct b end; reflexivity.
Qed.

Lemma crc_shift_double a : crc_shift (2 * a) = a.
Proof.
  unfold crc_shift. rewrite N.odd_mul. simpl andb. cbv iota.
  rewrite N.div2_div, N.mul_comm. apply N.div_mul. discriminate.
Qed.

(** Bit-serial form. *)
Definition b2n (b : bool) : N := if b then 1 else 0.
Definition crc_bit (s : N) (b : bool) : N := crc_shift (N.lxor s (b2n b)).

Fixpoint bits_val (w : list bool) : N :=
  match w with [] => 0 | b :: r => b2n b + 2 * bits_val r end.

Lemma b2n_double b x : b2n b + 2 * x = N.lxor (b2n b) (2 * x).
Proof. destruct b; destruct x; reflexivity. Qed.

Lemma iterN_S {A} n (f : A -> A) x : iterN (S n) f x = iterN n f (f x).
Proof. reflexivity. Qed.

Lemma crc_bits_shift w s :
  fold_left crc_bit w s = iterN (length w) crc_shift (N.lxor s (bits_val w)).
Proof.
  revert s; induction w; intros; cbn [fold_left length bits_val].
  - rewrite N.lxor_0_r. reflexivity.
  - rewrite iterN_S, IHw. f_equal. unfold crc_bit.
    rewrite b2n_double, <- N.lxor_assoc.
    rewrite (crc_shift_lxor (N.lxor s (b2n a))), crc_shift_double. reflexivity.
Qed.

Lemma bits_val_lt w : bits_val w < 2 ^ nlen w.
Proof.
  unfold nlen. induction w; cbn [length bits_val]; [simpl; lia|].
  rewrite Nat2N.inj_succ, N.pow_succ_r'. destruct a; cbn [b2n]; lia.
Qed.

Lemma bits_val_inj w w' : length w = length w' -> bits_val w = bits_val w' -> w = w'.
Proof.
  revert w'; induction w; destruct w'; try discriminate; auto.
  cbn [bits_val length]. intros Hl H. injection Hl as Hl.
  assert (a = b /\ bits_val w = bits_val w') as [-> Hv]
    by (destruct a, b; cbn [b2n] in H; split; try reflexivity; lia).
  f_equal. auto.
Qed.

Lemma iter_shift_u32 n s : u32 s -> u32 (iterN n crc_shift s).
Proof. revert s; induction n; simpl; auto using crc_shift_u32. Qed.

Lemma iter_shift_inj n a b : u32 a -> u32 b ->
  iterN n crc_shift a = iterN n crc_shift b -> a = b.
Proof.
  revert a b; induction n; simpl; auto. intros.
  apply crc_shift_inj; auto. apply IHn; auto using crc_shift_u32.
Qed.

Lemma bits_val_u32 w : (length w <= 32)%nat -> u32 (bits_val w).
Proof.
  intros. apply u32_pow. eapply N.lt_le_trans; [apply bits_val_lt|].
  apply N.pow_le_mono_r; unfold nlen; lia.
Qed.

(** Distinct windows of at most 32 bits lead to distinct registers. *)
Lemma crc_window_inj w w' s : u32 s -> length w = length w' -> (length w <= 32)%nat ->
  fold_left crc_bit w s = fold_left crc_bit w' s -> w = w'.
Proof.
  intros Hs Hl H32 H. rewrite !crc_bits_shift, <- Hl in H.
  apply iter_shift_inj in H.
  - apply lxor_cancel_l in H. apply bits_val_inj; auto.
  - apply lxor_u32; auto. apply bits_val_u32; auto.
  - apply lxor_u32; auto. apply bits_val_u32; lia.
Qed.

Lemma crc_bit_u32 s b : u32 s -> u32 (crc_bit s b).
Proof.
  intros. apply crc_shift_u32, lxor_u32; auto. destruct b; reflexivity.
Qed.

Lemma crc_bits_u32 w s : u32 s -> u32 (fold_left crc_bit w s).
Proof. revert s; induction w; simpl; auto using crc_bit_u32. Qed.

Lemma crc_bits_inj w a b : u32 a -> u32 b ->
  fold_left crc_bit w a = fold_left crc_bit w b -> a = b.
Proof.
  revert a b; induction w; simpl; auto. intros x y Hx Hy H.
  apply IHw in H; auto using crc_bit_u32.
  unfold crc_bit in H. apply crc_shift_inj in H.
  - eapply lxor_cancel_r; eauto.
  - apply lxor_u32; auto. destruct a; reflexivity.
  - apply lxor_u32; auto. destruct a; reflexivity.
Qed.

(** Bits of a byte, least significant first. *)
Definition byte_bits (b : N) : list bool :=
  map (fun i => N.testbit b i) [0;1;2;3;4;5;6;7].

Lemma byte_bits_val b : is_byte b -> bits_val (byte_bits b) = b.
Proof.
  unfold is_byte. intros H.
  assert (forallb (fun b => bits_val (byte_bits b) =? b) (nseq 0 256) = true) as G
    by (vm_compute; reflexivity).
  rewrite forallb_forall in G. apply N.eqb_eq, G, in_nseq. lia.
Qed.

Lemma crc_byte_bits s b : is_byte b -> crc_byte s b = fold_left crc_bit (byte_bits b) s.
Proof.
  intros. rewrite crc_bits_shift, byte_bits_val by auto. reflexivity.
Qed.

Definition data_bits (d : list N) : list bool := flat_map byte_bits d.

Lemma crc_data_bits d s : bytes d ->
  fold_left crc_byte d s = fold_left crc_bit (data_bits d) s.
Proof.
  intros H. revert s; induction H; intros; cbn [fold_left data_bits flat_map]; auto.
  rewrite fold_left_app, <- crc_byte_bits by auto. apply IHForall.
Qed.

Lemma data_bits_length d : length (data_bits d) = (8 * length d)%nat.
Proof. induction d; cbn [data_bits flat_map length]; auto.
  fold (data_bits d). rewrite app_length, IHd. unfold byte_bits. rewrite map_length. simpl length. lia. Qed.

(** Bit [j] of a byte string (least significant bit of byte 0 first). *)
Definition bit_at (d : list N) (j : nat) : bool :=
  N.testbit (nth (j / 8) d 0) (N.of_nat (j mod 8)).

Lemma data_bits_nth d j : bytes d -> nth j (data_bits d) false = bit_at d j.
Proof.
  intros H. revert j. induction H; intros j.
  - unfold bit_at. simpl data_bits. destruct (j / 8)%nat; destruct j; simpl; now rewrite ?N.bits_0.
  - cbn [data_bits flat_map].
    destruct (Nat.lt_ge_cases j 8) as [Hj|Hj].
    + rewrite app_nth1 by (unfold byte_bits; rewrite map_length; simpl; lia).
      unfold bit_at. rewrite Nat.div_small, Nat.mod_small by auto. cbn [nth].
      do 8 (destruct j as [|j]; [reflexivity|]). lia.
    + rewrite app_nth2 by (unfold byte_bits; rewrite map_length; simpl; lia).
      unfold byte_bits at 1. rewrite map_length.
      change (length [0;1;2;3;4;5;6;7]) with 8%nat.
      fold (data_bits l). rewrite IHForall. unfold bit_at.
      replace j with ((j - 8) + 1 * 8)%nat at 3 4 by lia.
      rewrite Nat.div_add, Nat.mod_add by lia.
      rewrite Nat.add_1_r. reflexivity.
Qed.

Lemma data_bits_inj d d' : bytes d -> bytes d' -> data_bits d = data_bits d' -> d = d'.
Proof.
  intros H. revert d'. induction H; intros d' H' E.
  - destruct d'; auto; discriminate.
  - destruct H' as [|y l' Hy Hl']; [discriminate|].
    cbn [data_bits flat_map] in E.
    assert (byte_bits x = byte_bits y /\ data_bits l = data_bits l') as [E1 E2].
    { apply (f_equal (firstn 8)) in E as E1. apply (f_equal (skipn 8)) in E as E2.
      split; [exact E1|exact E2]. }
    f_equal; auto.
    rewrite <- (byte_bits_val x), <- (byte_bits_val y) by auto. congruence.
Qed.

Lemma nth_ext_eq {A} (d : A) l l' : length l = length l' ->
  (forall i, nth i l d = nth i l' d) -> l = l'.
Proof. intros. eapply nth_ext; eauto. Qed.

Lemma nth_firstn_lt {A} n (l : list A) i d : (i < n)%nat -> nth i (firstn n l) d = nth i l d.
Proof.
  revert l i; induction n; intros l i H; [lia|].
  destruct l; auto. destruct i; auto. simpl. apply IHn. lia.
Qed.

Lemma nth_skipn {A} n (l : list A) i d : nth i (skipn n l) d = nth (n + i) l d.
Proof. revert l; induction n; intros; auto. destruct l; simpl; auto. destruct i; auto. Qed.

Lemma crc_burst d d' s i : bytes d -> bytes d' -> length d = length d' -> u32 s ->
  (forall j, (j < i \/ i + 32 <= j)%nat -> bit_at d j = bit_at d' j) ->
  fold_left crc_byte d s = fold_left crc_byte d' s -> d = d'.
Proof.
  intros Hd Hd' Hl Hs Hb H. apply data_bits_inj; auto.
  rewrite !crc_data_bits in H by auto.
  assert (length (data_bits d) = length (data_bits d')) as Hlb
    by (rewrite !data_bits_length; lia).
  assert (forall j, (j < i \/ i + 32 <= j)%nat ->
            nth j (data_bits d) false = nth j (data_bits d') false) as Hb'.
  { intros. rewrite !data_bits_nth by auto. auto. }
  revert H Hlb Hb'. generalize (data_bits d) as l, (data_bits d') as l'.
  intros l l' H Hlb Hb'.
  assert (firstn i l = firstn i l') as Hpre.
  { apply (nth_ext_eq false); [rewrite !firstn_length; lia|].
    intros j. destruct (Nat.lt_ge_cases j i).
    - rewrite !nth_firstn_lt by auto. apply Hb'; auto.
    - rewrite !nth_overflow; auto; rewrite firstn_length; lia. }
  assert (skipn 32 (skipn i l) = skipn 32 (skipn i l')) as Hpost.
  { apply (nth_ext_eq false); [rewrite !skipn_length; lia|].
    intros j. rewrite !nth_skipn. apply Hb'. lia. }
  rewrite <- (firstn_skipn i l), <- (firstn_skipn i l') in H |- *.
  rewrite <- (firstn_skipn 32 (skipn i l)), <- (firstn_skipn 32 (skipn i l')) in H |- *.
  rewrite <- Hpre, <- Hpost in *. rewrite !fold_left_app in H.
  f_equal. f_equal.
  set (s1 := fold_left crc_bit (firstn i l) s) in *.
  assert (u32 s1) by (apply crc_bits_u32; auto).
  apply crc_bits_inj in H; try (apply crc_bits_u32; auto).
  eapply crc_window_inj; eauto.
  - rewrite !firstn_length, !skipn_length. lia.
  - rewrite firstn_length. lia.
Qed.

(** ** Block types *)

Lemma salt_inj k k' s : csum_salt k = Some s -> csum_salt k' = Some s -> k = k'.
Proof. destruct k, k'; simpl; intros H1 H2; try reflexivity; try discriminate;
  rewrite <- H1 in H2; discriminate. Qed.

Lemma salt_u32 k s : csum_salt k = Some s -> u32 s.
Proof. destruct k; simpl; intros [= <-]; reflexivity. Qed.

Lemma mbt_spec buf k s : csum_salt k = Some s ->
  metadata_block_type buf = k <->
  length buf = BLOCK_SIZE /\ N.lxor (checksum buf) (le_dec (firstn 4 buf)) = s.
Proof.
  intros Hs. unfold metadata_block_type.
  destruct (Nat.eqb_spec (length buf) BLOCK_SIZE) as [Hl|Hl]; cbn [negb].
  2: { split; [intros <-; discriminate|tauto]. }
  generalize (N.lxor (checksum buf) (le_dec (firstn 4 buf))) as x. intros x.
  split.
  - intros H. split; auto.
    repeat match goal with
    | H : (if ?a =? ?b then _ else _) = k |- _ => destruct (N.eqb_spec a b)
    end; subst k; try discriminate; injection Hs as <-; auto.
  - intros [_ ->].
    destruct k; try discriminate; injection Hs as <-; reflexivity.
Qed.

Lemma checksum_u32 buf : bytes buf -> u32 (checksum buf).
Proof.
  intros H. unfold checksum, crc32c.
  rewrite N.lxor_assoc, N.lxor_nilpotent, N.lxor_0_r.
  rewrite crc_data_bits.
  - apply crc_bits_u32. reflexivity.
  - unfold bytes in *. rewrite <- (firstn_skipn 4 buf) in H. apply Forall_app in H. tauto.
Qed.

Lemma checksum_reg buf : checksum buf = fold_left crc_byte (skipn 4 buf) ones32.
Proof.
  unfold checksum, crc32c. rewrite N.lxor_assoc, N.lxor_nilpotent. apply N.lxor_0_r.
Qed.

Lemma bytes_skipn n l : bytes l -> bytes (skipn n l).
Proof. intros H. rewrite <- (firstn_skipn n l) in H. apply bytes_app in H. tauto. Qed.

Lemma bytes_firstn n l : bytes l -> bytes (firstn n l).
Proof. intros H. rewrite <- (firstn_skipn n l) in H. apply bytes_app in H. tauto. Qed.

Lemma block_size_4 : (4 <= BLOCK_SIZE)%nat.
Proof. unfold BLOCK_SIZE. lia. Qed.

Lemma checksum_ignores_head a a' r : length a = 4%nat -> length a' = 4%nat ->
  checksum (a ++ r) = checksum (a' ++ r).
Proof.
  intros. rewrite !checksum_reg, !skipn_app.
  rewrite (skipn_all2 a), (skipn_all2 a') by lia. rewrite H, H0. reflexivity.
Qed.

Lemma write_checksum_ok buf kind buf' : bytes buf ->
  write_checksum buf kind = Ok buf' ->
  metadata_block_type buf' = kind /\ skipn 4 buf' = skipn 4 buf /\
  length buf' = length buf /\ bytes buf' /\ kind <> UNKNOWN.
Proof.
  intros Hb. unfold write_checksum.
  destruct (Nat.eqb_spec (length buf) BLOCK_SIZE) as [Hl|Hl]; cbn [negb]; [|discriminate].
  destruct (csum_salt kind) as [salt|] eqn:Hs; [|discriminate].
  intros E. assert (buf' = le_enc 4 (N.lxor (checksum buf) salt) ++ skipn 4 buf) as -> by congruence.
  clear E. pose proof block_size_4.
  set (c := N.lxor (checksum buf) salt).
  assert (u32 c) as Hc by (apply lxor_u32; eauto using checksum_u32, salt_u32).
  assert (skipn 4 (le_enc 4 c ++ skipn 4 buf) = skipn 4 buf) as Hsk.
  { rewrite skipn_app, le_enc_length. rewrite skipn_all2 by (rewrite le_enc_length; lia).
    reflexivity. }
  assert (length (le_enc 4 c ++ skipn 4 buf) = length buf) as Hlen.
  { rewrite app_length, le_enc_length, skipn_length. lia. }
  repeat split; auto.
  - apply (mbt_spec _ _ _ Hs). split; [rewrite Hlen; exact Hl|].
    assert (checksum (le_enc 4 c ++ skipn 4 buf) = checksum buf) as ->.
    { rewrite !checksum_reg, Hsk. reflexivity. }
    rewrite firstn_app, le_enc_length, Nat.sub_diag, firstn_O, app_nil_r.
    rewrite firstn_all2 by (rewrite le_enc_length; lia).
    rewrite le_dec_enc by exact Hc. unfold c.
    rewrite <- N.lxor_assoc, N.lxor_nilpotent. reflexivity.
  - apply bytes_app. split; [apply le_enc_bytes|apply bytes_skipn; auto].
  - intros ->. discriminate.
Qed.

Lemma write_checksum_total buf kind : 
  (exists b, write_checksum buf kind = Ok b) <-> length buf = BLOCK_SIZE /\ kind <> UNKNOWN.
Proof.
  unfold write_checksum.
  destruct (Nat.eqb_spec (length buf) BLOCK_SIZE) as [Hl|Hl]; cbn [negb].
  - destruct kind; cbn; split; try (intros [? ?]; discriminate); 
      try (intros _; split; [auto|discriminate]); try (intros _; eexists; reflexivity).
    intros [_ H]; congruence.
  - split; [intros [? ?]; discriminate|tauto].
Qed.

(** Unknown kind has no salt; every other has. *)
Lemma salt_some k : k <> UNKNOWN -> exists s, csum_salt k = Some s.
Proof. destruct k; simpl; eauto; congruence. Qed.

Lemma burst_detected b b' k i : bytes b -> bytes b' -> length b = length b' ->
  metadata_block_type b = k -> k <> UNKNOWN -> b <> b' ->
  firstn 4 b = firstn 4 b' ->
  (forall j, (j < i \/ i + 32 <= j)%nat -> bit_at (skipn 4 b) j = bit_at (skipn 4 b') j) ->
  metadata_block_type b' <> k.
Proof.
  intros Hb Hb' Hl Ht Hk Hne Hf Hd Ht'.
  destruct (salt_some k Hk) as [s Hs].
  apply (mbt_spec _ _ _ Hs) in Ht as [_ Ht]. apply (mbt_spec _ _ _ Hs) in Ht' as [_ Ht'].
  rewrite <- Hf, <- Ht in Ht'. apply lxor_cancel_r in Ht'.
  rewrite !checksum_reg in Ht'.
  apply Hne. rewrite <- (firstn_skipn 4 b), <- (firstn_skipn 4 b'), Hf. f_equal.
  symmetry. eapply crc_burst with (i := i); try apply Ht';
    auto using bytes_skipn.
  - rewrite !skipn_length. lia.
  - reflexivity.
  - intros. symmetry. apply Hd; auto.
Qed.

Lemma stored_sum_detected b b' k : bytes b -> bytes b' -> length b = length b' ->
  metadata_block_type b = k -> k <> UNKNOWN ->
  skipn 4 b = skipn 4 b' -> firstn 4 b <> firstn 4 b' ->
  metadata_block_type b' <> k.
Proof.
  intros Hb Hb' Hl Ht Hk Hs' Hf Ht'.
  destruct (salt_some k Hk) as [s Hs].
  apply (mbt_spec _ _ _ Hs) in Ht as [Hlen Ht]. apply (mbt_spec _ _ _ Hs) in Ht' as [_ Ht'].
  rewrite !checksum_reg, <- Hs' in *. rewrite <- Ht in Ht'.
  apply lxor_cancel_l in Ht'. apply Hf.
  apply le_dec_inj; auto using bytes_firstn.
  pose proof block_size_4. rewrite !firstn_length. lia.
Qed.
