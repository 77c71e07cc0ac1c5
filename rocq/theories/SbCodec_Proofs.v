(** Proofs about superblocks, bitmaps and index blocks. *)
From Verif Require Import Base Csum_Model Csum_Proofs Codec_Model Codec_Spec Codec_Proofs NodeCodec_Proofs.

Lemma zeros_len : length (repeat 0 BLOCK_SIZE) = BLOCK_SIZE.
Proof. apply repeat_length. Qed.

Lemma checksummed_zero x body kind : bytes body ->
  (4 + length body <= BLOCK_SIZE)%nat -> kind <> UNKNOWN ->
  exists s blk r, (b <- to_block (le_enc 4 x ++ body) ;; write_checksum b kind) = Ok blk /\
    s < 2 ^ 32 /\ blk = le_enc 4 s ++ body ++ r /\
    metadata_block_type blk = kind /\ bytes blk /\ length blk = BLOCK_SIZE /\
    r = repeat 0 (BLOCK_SIZE - (4 + length body)).
Proof.
  intros. destruct (checksummed_block (repeat 0 BLOCK_SIZE) x body kind) as (s & blk & E & H3 & H4 & H5 & H6 & H7); auto.
  { apply bytes_repeat0. }
  exists s, blk, (repeat 0 (BLOCK_SIZE - (4 + length body))).
  split; [exact E|]. split; [auto|]. split; [|repeat split; auto].
  rewrite H4. do 2 f_equal.
  assert (forall n m, skipn n (repeat 0 m) = repeat 0 (m - n)) as G.
  { clear. induction n; destruct m; cbn [skipn repeat Nat.sub]; auto. }
  apply G.
Qed.

Ltac sb_len :=
  repeat rewrite app_length; repeat rewrite le_enc_length; repeat rewrite repeat_length.

Ltac parse_step :=
  rewrite <- ?app_assoc;
  first [ rewrite p_u32_app by (first [assumption | reflexivity | lia])
        | rewrite p_u64_app by (first [assumption | reflexivity | lia])
        | rewrite p_take_app by (first [assumption | reflexivity | unfold SPACE_MAP_ROOT_SIZE, nlen in *; lia]) ];
  cbn [bind].

Lemma thin_roundtrip d loc s : thin_sb_range s ->
  exists d', thin_write_superblock d loc s = Ok d' /\
    thin_read_superblock d' 0 = Ok s /\ (forall b, b <> 0 -> d' b = d b) /\
    metadata_block_type (d' 0) = THIN_SUPERBLOCK.
Proof.
  intros (H1 & H2 & H3 & H4 & H5 & (H6 & H6') & (H7 & H7') & H8 & H9 & H10 & H11).
  unfold thin_write_superblock, thin_sb_pack.
  match goal with |- context [to_block (le_enc 4 0 ++ ?b)] => set (body := b) end.
  assert (bytes body) as Hb.
  { unfold body. bts. repeat split; auto; first [apply le_enc_bytes | apply bytes_repeat0]. }
  assert (4 + length body <= BLOCK_SIZE)%nat as Hl.
  { unfold body. sb_len. unfold nlen, BLOCK_SIZE in *. lia. }
  destruct (checksummed_zero 0 body THIN_SUPERBLOCK Hb Hl) as (c & blk & r & E & Hc & Eb & Ht & _);
    [discriminate|].
  destruct (to_block (le_enc 4 0 ++ body)) as [b0| |] eqn:E0; try discriminate.
  cbn [bind] in E |- *. rewrite E. cbn [bind].
  exists (upd d 0 blk). split; [reflexivity|]. rewrite !upd_same. split; [|split; auto].
  2:{ intros. apply upd_other; auto. }
  unfold thin_read_superblock. rewrite upd_same, Ht, Eb. unfold thin_sb_unpack, body.
  parse_step. rewrite <- ?app_assoc.
  rewrite p_u32_app by (destruct (ts_needs_check s); reflexivity). cbn [bind].
  repeat parse_step.
  f_equal. destruct s; cbn in *. f_equal. destruct ts_needs_check; reflexivity.
Qed.

Lemma era_roundtrip d loc s : era_sb_range s ->
  exists d', era_write_superblock d loc s = Ok d' /\
    era_read_superblock d' 0 = Ok s /\ (forall b, b <> 0 -> d' b = d b) /\
    metadata_block_type (d' 0) = ERA_SUPERBLOCK.
Proof.
  intros (H1 & H2 & (H3 & H3') & H4 & H5 & H6 & (H7 & H7') & H8 & H9 & H10).
  unfold era_write_superblock, era_sb_pack.
  match goal with |- context [to_block (le_enc 4 0 ++ ?b)] => set (body := b) end.
  assert (bytes body) as Hb.
  { unfold body. bts. repeat split; auto; first [apply le_enc_bytes | apply bytes_repeat0]. }
  assert (4 + length body <= BLOCK_SIZE)%nat as Hl.
  { unfold body. sb_len. unfold nlen, BLOCK_SIZE in *. lia. }
  destruct (checksummed_zero 0 body ERA_SUPERBLOCK Hb Hl) as (c & blk & r & E & Hc & Eb & Ht & _);
    [discriminate|].
  destruct (to_block (le_enc 4 0 ++ body)) as [b0| |] eqn:E0; try discriminate.
  cbn [bind] in E |- *. rewrite E. cbn [bind].
  exists (upd d 0 blk). split; [reflexivity|]. rewrite !upd_same. split; [|split; auto].
  2:{ intros. apply upd_other; auto. }
  unfold era_read_superblock. rewrite upd_same, Ht, Eb. unfold era_sb_unpack, body.
  parse_step. rewrite <- ?app_assoc.
  rewrite p_u32_app by (destruct (es_clean_shutdown s); reflexivity). cbn [bind].
  repeat parse_step.
  f_equal. destruct s as [? ? ? ? ? ? ? [? ?] ? ? ?]; cbn in *. f_equal.
  destruct es_clean_shutdown; reflexivity.
Qed.

Lemma before_nul_pad l n : Forall (fun c => 0 < c < 256) l -> before_nul (l ++ repeat 0 n) = l.
Proof.
  unfold before_nul. induction 1; cbn [app take_while].
  - destruct n; reflexivity.
  - destruct (N.eqb_spec x 0); [lia|]. cbn [negb]. f_equal. auto.
Qed.

Lemma cache_roundtrip d loc s : cache_sb_range s ->
  exists d', cache_write_superblock d loc s = Ok d' /\
    cache_read_superblock d' 0 = Ok s /\ (forall b, b <> 0 -> d' b = d b) /\
    metadata_block_type (d' 0) = CACHE_SUPERBLOCK.
Proof.
  unfold cache_sb_range.
  intros (H1 & H2 & (H3 & H3') & (H4 & H4') & H5 & (H6 & H6') & H7 & H8 & H9 & H10 & H11 & H12 &
          H13 & H14 & H15 & H16 & H17 & H18 & H19 & H20 & H21).
  unfold cache_write_superblock, cache_sb_pack.
  destruct (Nat.ltb_spec 16 (length (cs_policy_name s))); [unfold nlen in *; lia|].
  destruct (cs_policy_version s) as [|v0 [|v1 [|v2 [|v3 vs]]]] eqn:Ev;
    try (exfalso; unfold nlen in H4'; cbn [length] in H4'; lia).
  inversion_clear H4 as [|? ? G0 H4x]; inversion_clear H4x as [|? ? G1 H4y];
    inversion_clear H4y as [|? ? G2 _].
  cbn [bind].
  match goal with |- context [to_block (le_enc 4 0 ++ ?b)] => set (body := b) end.
  assert (bytes (match cs_dirty_root s with Some r => le_enc 8 r | None => [] end) /\
          length (match cs_dirty_root s with Some r => le_enc 8 r | None => [] end) <= 8)%nat as [Hbd Hld].
  { destruct (cs_dirty_root s); rewrite ?le_enc_length; cbn [length]; split; try lia;
      [apply le_enc_bytes|apply bytes_nil]. }
  assert (bytes body) as Hb.
  { unfold body. bts. repeat split; auto; try apply le_enc_bytes; try apply bytes_repeat0.
    eapply Forall_impl; [|exact H3]. unfold is_byte. cbn. intros; lia. }
  assert (4 + length body <= BLOCK_SIZE)%nat as Hl.
  { unfold body. sb_len. unfold nlen, BLOCK_SIZE in *. lia. }
  destruct (checksummed_zero 0 body CACHE_SUPERBLOCK Hb Hl) as (c & blk & r & E & Hc & Eb & Ht & _);
    [discriminate|].
  destruct (to_block (le_enc 4 0 ++ body)) as [b0| |] eqn:E0; try discriminate.
  cbn [bind] in E |- *. rewrite E. cbn [bind].
  exists (upd d 0 blk). split; [reflexivity|]. rewrite !upd_same. split; [|split; auto].
  2:{ intros. apply upd_other; auto. }
  unfold cache_read_superblock. rewrite upd_same, Ht, Eb. unfold cache_sb_unpack, body.
  parse_step. rewrite <- ?app_assoc.
  rewrite p_u32_app by (destruct (cs_clean_shutdown s), (cs_needs_check s); reflexivity). cbn [bind].
  do 4 parse_step.
  rewrite <- ?app_assoc, (app_assoc (cs_policy_name s)).
  rewrite p_take_app by (sb_len; unfold nlen in *; lia). cbn [bind].
  do 20 parse_step.
  rewrite before_nul_pad by auto.
  set (flags := N.lor _ _).
  assert (negb (N.land flags 1 =? 0) = cs_clean_shutdown s) as Ef1
    by (unfold flags; destruct (cs_clean_shutdown s), (cs_needs_check s); reflexivity).
  assert (negb (N.land flags 2 =? 0) = cs_needs_check s) as Ef2
    by (unfold flags; destruct (cs_clean_shutdown s), (cs_needs_check s); reflexivity).
  clearbody flags.
  destruct (cs_dirty_root s) as [dr|] eqn:Ed.
  - destruct (N.leb_spec 2 (cs_version s)); [|lia].
    rewrite p_u64_app by tauto. cbn [bind]. rewrite <- Ed, <- Ev, Ef1, Ef2.
    destruct s; reflexivity.
  - destruct (N.leb_spec 2 (cs_version s)); [lia|]. cbn [bind]. rewrite <- Ed, <- Ev, Ef1, Ef2.
    destruct s; reflexivity.
Qed.

Lemma Ok_pair_inj {A B} (a a' : A) (b b' : B) : Ok (a, b) = Ok (a', b') -> a = a' /\ b = b'.
Proof. intros [= -> ->]. auto. Qed.

(** ** Bitmaps *)
Fixpoint digits (vs : list N) : N :=
  match vs with [] => 0 | v :: r => v + 4 * digits r end.

Lemma digits_lt vs : Forall (fun v => v < 4) vs -> digits vs < 4 ^ nlen vs.
Proof.
  unfold nlen. induction 1; cbn [digits length]; [reflexivity|].
  rewrite Nat2N.inj_succ, N.pow_succ_r'. lia.
Qed.

Definition code (e : bitmap_entry) : N :=
  match e with Small 0 => 0 | Small 1 => 2 | Small 2 => 1 | Small _ => 0 | Overflow => 3 end.

Lemma bits_of_entry_ok e : entry_ok e -> bits_of_entry e = Ok (code e).
Proof. destruct e as [[|[[]|[]|]]|]; cbn; try reflexivity; lia. Qed.
Lemma bits_of_entry_err e : ~ entry_ok e -> bits_of_entry e = Err.
Proof. destruct e as [[|[[]|[]|]]|]; cbn; try reflexivity; lia. Qed.

Lemma code_lt e : code e < 4.
Proof. destruct e as [[|[[]|[]|]]|]; reflexivity. Qed.
Lemma entry_of_code e : entry_ok e -> entry_of_bits (code e) = e.
Proof. destruct e as [[|[[]|[]|]]|]; cbn; try reflexivity; lia. Qed.
Lemma code_of_entry v : v < 4 -> code (entry_of_bits v) = v /\ entry_ok (entry_of_bits v).
Proof.
  intros. assert (v = 0 \/ v = 1 \/ v = 2 \/ v = 3) as [-> | [-> | [-> | ->]]] by lia;
  cbn; split; auto; lia.
Qed.

Lemma pow4_pow2 n : 4 ^ n = 2 ^ (2 * n).
Proof. rewrite N.pow_mul_r. reflexivity. Qed.

Lemma chunk_word_spec chunk : Forall entry_ok chunk -> (length chunk <= 32)%nat ->
  forall w, w < 2 ^ 64 ->
  chunk_word w chunk =
    Ok (w / 4 ^ nlen chunk + digits (map code chunk) * 2 ^ (64 - 2 * nlen chunk)).
Proof.
  unfold nlen. induction 1 as [|e r He Hr IH]; intros Hl w Hw; cbn [chunk_word length map digits].
  - f_equal. change (4 ^ N.of_nat 0) with 1. rewrite N.div_1_r. lia.
  - rewrite bits_of_entry_ok by auto. cbn [bind]. cbn [length] in Hl.
    assert (N.lor (N.shiftr w 2) (N.shiftl (code e) 62) = w / 4 + code e * 2 ^ 62) as E.
    { rewrite N.lor_comm, N.shiftr_div_pow2. change (2 ^ 2) with 4.
      rewrite lor_shiftl_add; [lia|].
      change (2 ^ 64) with 18446744073709551616 in Hw. change (2 ^ 62) with 4611686018427387904. dlia. }
    pose proof (code_lt e).
    rewrite E, IH; [|lia|].
    + f_equal. set (n := N.of_nat (length r)).
      assert (n <= 31) as Hn by (unfold n; lia).
      replace (N.of_nat (S (length r))) with (n + 1) by (unfold n; lia).
      replace (2 ^ 62) with (2 ^ (62 - 2 * n) * 4 ^ n).
      2:{ rewrite pow4_pow2, <- N.pow_add_r. f_equal. lia. }
      rewrite N.mul_assoc, N.div_add by (apply N.pow_nonzero; discriminate).
      rewrite N.div_div by (first [discriminate | apply N.pow_nonzero; discriminate]).
      rewrite N.add_1_r, N.pow_succ_r', <- N.add_1_r.
      replace (64 - 2 * (n + 1)) with (62 - 2 * n) by lia.
      replace (64 - 2 * n) with (2 + (62 - 2 * n)) by lia.
      rewrite N.pow_add_r. change (2 ^ 2) with 4. lia.
    + change (2 ^ 64) with 18446744073709551616 in *. change (2 ^ 62) with 4611686018427387904. dlia.
Qed.

Lemma word_entries_length n w : length (word_entries n w) = n.
Proof. revert w; induction n; intros; cbn [word_entries length]; auto. Qed.

Lemma word_entries_digits vs n : Forall (fun v => v < 4) vs -> (length vs <= n)%nat ->
  word_entries n (digits vs) = map entry_of_bits vs ++ repeat (Small 0) (n - length vs).
Proof.
  intros H. revert n. induction H as [|v r Hv Hr IH]; intros n Hl.
  - cbn [digits map app length]. rewrite Nat.sub_0_r. clear.
    induction n; cbn [word_entries repeat]; auto. f_equal. auto.
  - cbn [digits map app length] in *. destruct n; [lia|]. cbn [word_entries Nat.sub]. f_equal.
    + f_equal. change 3 with (N.ones 2). rewrite N.land_ones. change (2 ^ 2) with 4. dlia.
    + rewrite N.shiftr_div_pow2. change (2 ^ 2) with 4.
      replace ((v + 4 * digits r) / 4) with (digits r) by dlia. apply IH. lia.
Qed.

Lemma word_entries_codes n w : w < 4 ^ N.of_nat n ->
  digits (map code (word_entries n w)) = w /\ Forall entry_ok (word_entries n w).
Proof.
  revert w. induction n; intros w Hw.
  - change (4 ^ N.of_nat 0) with 1 in Hw. cbn. split; [lia|constructor].
  - rewrite Nat2N.inj_succ, N.pow_succ_r' in Hw. cbn [word_entries map digits].
    change 3 with (N.ones 2). rewrite N.land_ones, N.shiftr_div_pow2. change (2 ^ 2) with 4.
    destruct (IHn (w / 4)) as [E1 E2]; [dlia|].
    destruct (code_of_entry (w mod 4)) as [E3 E4]; [dlia|].
    rewrite E1, E3. split; [dlia|constructor; auto].
Qed.

Lemma word_entries_nth n w i : (i < n)%nat ->
  nth i (word_entries n w) Overflow =
  decode_entry (N.testbit w (2 * N.of_nat i)) (N.testbit w (2 * N.of_nat i + 1)).
Proof.
  revert w i. induction n; intros w i Hi; [lia|]. cbn [word_entries].
  destruct i; cbn [nth].
  - change 3 with (N.ones 2). rewrite N.land_ones. change (2 ^ 2) with 4.
    change (2 * N.of_nat 0) with 0. change (0 + 1) with 1.
    pose proof (N.testbit_spec' w 0) as T0. pose proof (N.testbit_spec' w 1) as T1.
    change (2 ^ 0) with 1 in T0. change (2 ^ 1) with 2 in T1.
    assert (w mod 4 = N.b2n (N.testbit w 0) + 2 * N.b2n (N.testbit w 1)) as -> by (rewrite T0, T1; dlia).
    destruct (N.testbit w 0), (N.testbit w 1); reflexivity.
  - rewrite IHn by lia. rewrite !N.shiftr_spec'. do 2 f_equal; lia.
Qed.

Lemma skipn_length_lt {A} n (l : list A) : (0 < n)%nat -> l <> [] -> (length (skipn n l) < length l)%nat.
Proof. intros. rewrite skipn_length. destruct l; [congruence|]. cbn [length]. lia. Qed.

(** Packing a list of entries and reading the words back. *)
Lemma pack_chunks_spec n : forall l f, Forall entry_ok l -> (length l <= 32 * n)%nat ->
  (length l <= f)%nat ->
  exists bs, pack_chunks (chunks_aux f 32 l) = Ok bs /\ bytes bs /\ (length bs <= 8 * n)%nat /\
    ((length l = 32 * n)%nat -> length bs = (8 * n)%nat) /\
    forall r, bitmap_words n (bs ++ repeat 0 (8 * n - length bs) ++ r) =
              Ok (l ++ repeat (Small 0) (32 * n - length l), r).
Proof.
  induction n; intros l f Hok Hl Hf.
  - destruct l; [|cbn [length] in Hl; lia]. exists []. destruct f; cbn; repeat split; auto using bytes_nil.
  - destruct l as [|e l'] eqn:El.
    + assert (pack_chunks (chunks_aux f 32 []) = Ok []) as E by (destruct f; reflexivity).
      exists []. rewrite E. split; [auto|]. split; [apply bytes_nil|]. cbn [length]. split; [lia|].
      split; [lia|]. intros r. rewrite !Nat.sub_0_r. cbn [app].
      destruct (IHn [] 0%nat) as (bs' & E' & _ & _ & _ & G); [constructor|cbn;lia|cbn;lia|].
      cbn in E'. injection E' as <-. specialize (G r). cbn [app length] in G. rewrite !Nat.sub_0_r in G.
      replace (8 * S n)%nat with (8 + 8 * n)%nat by lia. rewrite repeat_app, <- app_assoc.
      cbn [bitmap_words]. change (repeat 0 8) with (le_enc 8 0).
      rewrite p_u64_app by reflexivity. cbn [bind]. rewrite G. cbn [bind].
      replace (32 * S n)%nat with (32 + 32 * n)%nat by lia. rewrite (repeat_app (Small 0)). reflexivity.
    + rewrite <- El in *. assert (l <> []) as Hne by (rewrite El; discriminate). clear El e l'.
      destruct f as [|f]; [destruct l; [congruence|cbn [length] in Hf; lia]|].
      assert (chunks_aux (S f) 32 l = firstn 32 l :: chunks_aux f 32 (skipn 32 l)) as Ec
        by (destruct l; [congruence|reflexivity]).
      rewrite Ec. cbn [pack_chunks].
      assert (Forall entry_ok (firstn 32 l) /\ Forall entry_ok (skipn 32 l)) as [Ok1 Ok2].
      { rewrite <- (firstn_skipn 32 l) in Hok. apply Forall_app in Hok. auto. }
      pose proof (firstn_le_length 32 l) as L1.
      pose proof (firstn_length 32 l) as L2. pose proof (skipn_length 32 l) as L3.
      assert (0 < length l)%nat as L4 by (destruct l; [congruence|cbn [length]; lia]).
      rewrite (chunk_word_spec (firstn 32 l)) by (auto; lia). cbn [bind].
      destruct (IHn (skipn 32 l) f) as (bs & -> & Hb & Hlb & Hfull & G); auto; try lia.
      cbn [bind].
      set (m := nlen (firstn 32 l)). assert (1 <= m <= 32) as Hm by (unfold m, nlen; lia).
      assert (N.shiftr (0 / 4 ^ m + digits (map code (firstn 32 l)) * 2 ^ (64 - 2 * m)) (64 - 2 * m)
              = digits (map code (firstn 32 l))) as ->.
      { rewrite N.div_0_l by (apply N.pow_nonzero; discriminate).
        rewrite N.shiftr_div_pow2, N.add_0_l. apply N.div_mul. apply N.pow_nonzero; discriminate. }
      assert (Forall (fun v => v < 4) (map code (firstn 32 l))) as Hc.
      { apply Forall_map. apply Forall_forall. intros; apply code_lt. }
      assert (digits (map code (firstn 32 l)) < 2 ^ 64) as Hd.
      { eapply N.lt_le_trans; [apply digits_lt; auto|]. rewrite pow4_pow2.
        apply N.pow_le_mono_r; [discriminate|]. unfold nlen. rewrite map_length. lia. }
      exists (le_enc 8 (digits (map code (firstn 32 l))) ++ bs).
      split; [reflexivity|]. split; [apply bytes_app; split; [apply le_enc_bytes|auto]|].
      rewrite app_length, le_enc_length. split; [lia|]. split.
      { intros. rewrite Hfull; lia. }
      intros r. rewrite <- app_assoc. cbn [bitmap_words].
      rewrite p_u64_app by auto. cbn [bind].
      replace (8 * S n - (8 + length bs))%nat with (8 * n - length bs)%nat by lia.
      rewrite G. cbn [bind].
      rewrite word_entries_digits by (auto; rewrite map_length; lia).
      rewrite map_length, map_map.
      rewrite (map_ext_in (fun x => entry_of_bits (code x)) (fun x => x)), map_id.
      2:{ intros a Ha. apply entry_of_code. rewrite Forall_forall in Ok1. auto. }
      f_equal. f_equal.
      destruct (Nat.lt_ge_cases (length l) 32).
      * rewrite (skipn_all2 l) by lia. cbn [app length]. rewrite firstn_all2 by lia.
        rewrite <- app_assoc. f_equal.
        rewrite <- repeat_app. f_equal. lia.
      * replace (32 - length (firstn 32 l))%nat with 0%nat by lia. cbn [repeat]. rewrite app_nil_r.
        rewrite app_assoc, firstn_skipn. do 2 f_equal. lia.
Qed.

Lemma bitmap_words_spec n : forall i es r, bytes i -> bitmap_words n i = Ok (es, r) ->
  exists ws, i = concat (map (le_enc 8) ws) ++ r /\ length ws = n /\
    Forall (fun w => w < 2 ^ 64) ws /\ es = flat_map (word_entries 32) ws.
Proof.
  induction n; intros i es r Hb H; cbn [bitmap_words] in H.
  - injection H as <- <-. exists []. repeat split; auto.
  - destruct (p_u64 i) as [[w i1]| |] eqn:E1; try discriminate. cbn [bind] in H.
    destruct (bitmap_words n i1) as [[es' i2]| |] eqn:E2; try discriminate. cbn [bind] in H.
    remember (word_entries 32 w) as we eqn:Ewe in H.
    apply Ok_pair_inj in H as [<- <-]. subst we.
    apply (lossless_inv u64_codec _ _ _ _ u64_lossless Hb) in E1 as [Hw ->].
    apply bytes_app in Hb as [_ Hb]. apply IHn in E2 as (ws & -> & <- & HF & ->); auto.
    exists (w :: ws). cbn [map concat flat_map length]. rewrite <- app_assoc. repeat split; auto.
Qed.

Lemma bitmap_words_total n : forall i, (8 * n <= length i)%nat -> exists es r, bitmap_words n i = Ok (es, r).
Proof.
  induction n; intros i Hl; cbn [bitmap_words]; eauto.
  unfold p_u64. destruct (p_le_cases 8 i) as [[? ->]|(w & i1 & -> & ? & ?)]; [lia|].
  cbn [bind]. destruct (IHn i1) as (es & r & ->); [lia|]. cbn [bind]. eauto.
Qed.

Lemma flat_entries_length ws : length (flat_map (word_entries 32) ws) = (32 * length ws)%nat.
Proof. induction ws; cbn [flat_map length]; [lia|]. rewrite app_length, word_entries_length. lia. Qed.

Lemma flat_entries_nth ws i : (i < 32 * length ws)%nat ->
  nth i (flat_map (word_entries 32) ws) Overflow =
  nth (i mod 32) (word_entries 32 (nth (i / 32) ws 0)) Overflow.
Proof.
  revert i. induction ws; intros i Hi; cbn [length] in Hi; [lia|]. cbn [flat_map].
  destruct (Nat.lt_ge_cases i 32).
  - rewrite app_nth1 by (rewrite word_entries_length; auto).
    rewrite Nat.mod_small, Nat.div_small by auto. reflexivity.
  - rewrite app_nth2 by (rewrite word_entries_length; auto). rewrite word_entries_length.
    rewrite IHws by lia.
    assert (i = (i - 32) + 1 * 32)%nat as E by lia.
    rewrite E at 3 4. rewrite Nat.mod_add, Nat.div_add by discriminate.
    rewrite Nat.add_1_r. reflexivity.
Qed.

Lemma flat_entries_ok ws : Forall (fun w => w < 2 ^ 64) ws ->
  Forall entry_ok (flat_map (word_entries 32) ws).
Proof.
  induction 1; cbn [flat_map]; [constructor|]. apply Forall_app. split; auto.
  apply (word_entries_codes 32 x). exact H.
Qed.

Lemma firstn_length_app {A} (a b : list A) n : length a = n -> firstn n (a ++ b) = a.
Proof. intros <-. rewrite firstn_app, Nat.sub_diag, firstn_all. cbn [firstn]. apply app_nil_r. Qed.
Lemma skipn_length_app {A} (a b : list A) n : length a = n -> skipn n (a ++ b) = b.
Proof. intros <-. rewrite skipn_app, Nat.sub_diag, skipn_all. reflexivity. Qed.

(** Re-packing decoded words gives the same bytes. *)
Lemma pack_flat ws : Forall (fun w => w < 2 ^ 64) ws ->
  forall f, (32 * length ws <= f)%nat ->
  pack_chunks (chunks_aux f 32 (flat_map (word_entries 32) ws)) = Ok (concat (map (le_enc 8) ws)).
Proof.
  induction 1 as [|w ws Hw Hws IH]; intros f Hf.
  - destruct f; reflexivity.
  - cbn [length] in Hf. destruct f; [lia|].
    cbn [flat_map].
    assert (chunks_aux (S f) 32 (word_entries 32 w ++ flat_map (word_entries 32) ws)
            = word_entries 32 w :: chunks_aux f 32 (flat_map (word_entries 32) ws)) as ->.
    { assert (exists e r, word_entries 32 w ++ flat_map (word_entries 32) ws = e :: r) as (e & r & E)
        by (eexists _, _; reflexivity).
      cbn [chunks_aux]. rewrite E. rewrite <- E.
      rewrite firstn_length_app, skipn_length_app by apply word_entries_length. reflexivity. }
    cbn [pack_chunks].
    destruct (word_entries_codes 32 w Hw) as [Ed Eo].
    rewrite chunk_word_spec; [|auto|rewrite word_entries_length; lia|reflexivity]. cbn [bind].
    rewrite IH by lia. cbn [bind map concat]. unfold nlen. rewrite word_entries_length, Ed.
    change (64 - 2 * N.of_nat 32) with 0. change (2 ^ 0) with 1.
    rewrite N.div_0_l by (apply N.pow_nonzero; discriminate).
    rewrite N.add_0_l, N.mul_1_r, N.shiftr_0_r. reflexivity.
Qed.

Lemma pack_chunks_err l f : (length l <= f)%nat -> ~ Forall entry_ok l ->
  pack_chunks (chunks_aux f 32 l) = Err.
Proof.
  revert l. induction f; intros l Hf Hn.
  - destruct l; [|cbn [length] in Hf; lia]. exfalso. apply Hn. constructor.
  - destruct l as [|e l'] eqn:El; [exfalso; apply Hn; constructor|].
    rewrite <- El in *. assert (l <> []) as Hne by (rewrite El; discriminate).
    assert (chunks_aux (S f) 32 l = firstn 32 l :: chunks_aux f 32 (skipn 32 l)) as ->
      by (rewrite El; reflexivity). clear El e l'.
    cbn [pack_chunks].
    assert (forall c w, ~ Forall entry_ok c -> chunk_word w c = Err) as Gc.
    { clear. induction c as [|e c IH]; intros w Hn; [exfalso; apply Hn; constructor|].
      cbn [chunk_word]. destruct e as [n|].
      - destruct (N.le_gt_cases n 2) as [H|H].
        + rewrite (bits_of_entry_ok (Small n)) by exact H. cbn [bind]. apply IH.
          intros F. apply Hn. constructor; auto.
        + rewrite (bits_of_entry_err (Small n)) by (cbn; lia). reflexivity.
      - cbn [bits_of_entry bind]. apply IH. intros F. apply Hn. constructor; cbn; auto. }
    assert (forall l, Forall entry_ok l \/ ~ Forall entry_ok l) as Dec.
    { clear. intros l. induction l as [|[n|] l [IH|IH]].
      - left; constructor.
      - destruct (N.le_gt_cases n 2); [left; constructor; auto|right].
        intros F. inversion F; subst. cbn in *. lia.
      - right. intros F. inversion F; auto.
      - left; constructor; cbn; auto.
      - right. intros F. inversion F; auto. }
    destruct (Dec (firstn 32 l)) as [F|F].
    + pose proof (firstn_le_length 32 l).
      rewrite chunk_word_spec; [|auto|rewrite firstn_length; lia|reflexivity]. cbn [bind].
      rewrite IHf; [reflexivity| |].
      * pose proof (skipn_length_lt 32 l ltac:(lia) Hne). lia.
      * intros F2. apply Hn. rewrite <- (firstn_skipn 32 l). apply Forall_app; auto.
    + rewrite Gc by auto. reflexivity.
Qed.

(** ** Metadata index blocks *)
Lemma take_while_app_all {A} (f : A -> bool) l r : Forall (fun a => f a = true) l ->
  take_while f (l ++ r) = l ++ take_while f r.
Proof. induction 1; cbn [app take_while]; auto. rewrite H. f_equal. auto. Qed.

Lemma ie_zero_unpack r : ie_unpack (repeat 0 16 ++ r) = Ok (mkie 0 0 0, r).
Proof.
  change (repeat 0 16) with (cpack ie_codec (mkie 0 0 0)).
  apply (ll_round _ _ ie_lossless). cbn. repeat split; reflexivity.
Qed.

Lemma ie_zeros n r : p_count ie_unpack n (repeat 0 (16 * n) ++ r) = Ok (repeat (mkie 0 0 0) n, r).
Proof.
  induction n; cbn [p_count repeat]; [reflexivity|].
  replace (16 * S n)%nat with (16 + 16 * n)%nat by lia. rewrite repeat_app, <- app_assoc.
  rewrite ie_zero_unpack. cbn [bind]. rewrite IHn. reflexivity.
Qed.

Lemma p_count_split {A} (p : list N -> res (A * list N)) n m i l1 i1 l2 i2 :
  p_count p n i = Ok (l1, i1) -> p_count p m i1 = Ok (l2, i2) ->
  p_count p (n + m) i = Ok (l1 ++ l2, i2).
Proof.
  revert i l1. induction n; intros i l1 H1 H2; cbn [p_count Nat.add] in *.
  - injection H1 as <- <-. auto.
  - destruct (p i) as [[a i']| |]; cbn [bind] in *; try discriminate.
    destruct (p_count p n i') as [[r i'']| |] eqn:E; cbn [bind] in *; try discriminate.
    injection H1 as <- <-. erewrite IHn by eauto. reflexivity.
Qed.

Lemma mi_roundtrip m : mi_blocknr m < 2 ^ 64 ->
  Forall (fun e => ie_range e /\ ie_blocknr e <> 0) (mi_indexes m) ->
  nlen (mi_indexes m) <= 255 ->
  exists l blk, mi_pack m = Ok l /\
    (b <- to_block l ;; write_checksum b INDEX) = Ok blk /\
    forall nr_blocks, nlen (mi_indexes m) <= div_up nr_blocks 16320 ->
      load_metadata_index (mkblock (mi_blocknr m) blk) nr_blocks = Ok m.
Proof.
  intros Hb HF Hl. unfold mi_pack.
  destruct (Nat.ltb_spec MAX_METADATA_BITMAPS (length (mi_indexes m))) as [H|H];
    [unfold nlen, MAX_METADATA_BITMAPS in *; lia|].
  set (body := le_enc 4 0 ++ le_enc 8 (mi_blocknr m) ++ concat (map ie_pack (mi_indexes m))).
  assert (Forall ie_range (mi_indexes m)) as HF1 by (eapply Forall_impl; [|exact HF]; cbn; tauto).
  pose proof (concat_pack_length ie_codec _ _ ie_lossless HF1) as Lp. cbn [csize cpack ie_codec] in Lp.
  assert (length body = 12 + 16 * length (mi_indexes m))%nat as Lb.
  { unfold body. rewrite !app_length, !le_enc_length, Lp. lia. }
  assert (bytes body) as Bb.
  { unfold body. bts. repeat split; try apply le_enc_bytes.
    apply (concat_pack_bytes ie_codec _ _ ie_lossless HF1). }
  destruct (checksummed_zero 0 body INDEX Bb) as (s & blk & r & E & Hs & Eb & Ht & Bblk & Lblk & Er);
    [unfold BLOCK_SIZE, nlen in *; lia|discriminate|].
  exists (le_enc 4 0 ++ body), blk. split; [reflexivity|]. split; [exact E|].
  intros nr Hnr. unfold load_metadata_index. cbn [b_data b_loc]. rewrite Ht.
  assert (exists i, mi_unpack blk = Ok (m, i)) as (i & ->).
  { unfold mi_unpack. rewrite Eb. unfold body. rewrite <- !app_assoc.
    rewrite p_u32_app by auto. cbn [bind]. rewrite p_u32_app by reflexivity. cbn [bind].
    rewrite p_u64_app by auto. cbn [bind].
    assert (MAX_METADATA_BITMAPS = length (mi_indexes m) + (MAX_METADATA_BITMAPS - length (mi_indexes m)))%nat as -> by lia.
    erewrite (p_count_split ie_unpack _ _ _ (mi_indexes m)).
    2:{ apply (p_count_app ie_unpack ie_pack ie_range); [|exact HF1].
        intros. apply (ll_round _ _ ie_lossless); auto. }
    2:{ rewrite Er. replace (BLOCK_SIZE - (4 + length body))%nat
          with (16 * (MAX_METADATA_BITMAPS - length (mi_indexes m)) + 0)%nat
          by (unfold BLOCK_SIZE, MAX_METADATA_BITMAPS in *; lia).
        rewrite repeat_app. cbn [repeat]. apply ie_zeros. }
    cbn [bind]. rewrite take_while_app_all.
    - assert (take_while (fun e => negb (ie_blocknr e =? 0))
         (repeat (mkie 0 0 0) (MAX_METADATA_BITMAPS - length (mi_indexes m))) = []) as ->.
      { destruct (MAX_METADATA_BITMAPS - length (mi_indexes m))%nat; reflexivity. }
      rewrite app_nil_r. destruct m; eauto.
    - eapply Forall_impl; [|exact HF]. cbn. intros e [_ He].
      destruct (N.eqb_spec (ie_blocknr e) 0); [contradiction|auto]. }
  cbn [bind]. rewrite N.eqb_refl. cbn [negb]. rewrite firstn_all2.
  - destruct m; reflexivity.
  - unfold nlen, ENTRIES_PER_BITMAP in *. lia.
Qed.

(** ** Whole bitmap blocks *)
Lemma bitmap_pack_ok b : bm_blocknr b < 2 ^ 64 -> Forall entry_ok (bm_entries b) ->
  nlen (bm_entries b) <= 16320 ->
  exists l blk, bitmap_pack b = Ok l /\ (x <- to_block l ;; write_checksum x BITMAP) = Ok blk /\
    metadata_block_type blk = BITMAP /\
    exists rest, bitmap_unpack blk =
      Ok (mkbitmap (bm_blocknr b)
            (bm_entries b ++ repeat (Small 0) (N.to_nat 16320 - length (bm_entries b))), rest).
Proof.
  intros Hb Ho Hl. unfold bitmap_pack.
  destruct (pack_chunks_spec WORDS_PER_BITMAP (bm_entries b) (length (bm_entries b)) Ho)
    as (bs & E & Hbb & Hlb & _ & G); [unfold nlen, WORDS_PER_BITMAP in *; lia|lia|].
  unfold chunks. rewrite E. cbn [bind].
  destruct (checksummed_zero 0 (le_enc 4 0 ++ le_enc 8 (bm_blocknr b) ++ bs) BITMAP)
    as (s & blk & r & E1 & Hs & Eb & Ht & Bblk & Lblk & Er).
  { bts. repeat split; auto; apply le_enc_bytes. }
  { rewrite !app_length, !le_enc_length. unfold BLOCK_SIZE, WORDS_PER_BITMAP in *. lia. }
  { discriminate. }
  eexists _, blk. split; [reflexivity|]. split; [exact E1|]. split; [auto|].
  exists []. unfold bitmap_unpack. rewrite Eb, <- !app_assoc.
  rewrite p_u32_app by auto. cbn [bind]. rewrite p_u32_app by reflexivity. cbn [bind].
  rewrite p_u64_app by auto. cbn [bind].
  rewrite Er. replace (BLOCK_SIZE - (4 + length (le_enc 4 0 ++ le_enc 8 (bm_blocknr b) ++ bs)))%nat
    with (8 * WORDS_PER_BITMAP - length bs)%nat.
  2:{ rewrite !app_length, !le_enc_length. unfold BLOCK_SIZE, WORDS_PER_BITMAP in *. lia. }
  specialize (G []). rewrite app_nil_r in G. rewrite G. cbn [bind].
  do 5 f_equal.
Qed.

Lemma bitmap_unpack_inv blk bm rest : bytes blk -> bitmap_unpack blk = Ok (bm, rest) ->
  exists csum pad ws, blk = le_enc 4 csum ++ le_enc 4 pad ++ le_enc 8 (bm_blocknr bm) ++
      concat (map (le_enc 8) ws) ++ rest /\
    length ws = WORDS_PER_BITMAP /\ Forall (fun w => w < 2 ^ 64) ws /\
    csum < 2 ^ 32 /\ pad < 2 ^ 32 /\ bm_blocknr bm < 2 ^ 64 /\
    bm_entries bm = flat_map (word_entries 32) ws.
Proof.
  intros Hb H. unfold bitmap_unpack in H.
  destruct (p_u32 blk) as [[c i]| |] eqn:E1; try discriminate. cbn [bind] in H.
  apply (lossless_inv u32_codec _ _ _ _ u32_lossless Hb) in E1 as [B1 ->]. apply bytes_app in Hb as [_ Hb].
  destruct (p_u32 i) as [[p i1]| |] eqn:E2; try discriminate. cbn [bind] in H.
  apply (lossless_inv u32_codec _ _ _ _ u32_lossless Hb) in E2 as [B2 ->]. apply bytes_app in Hb as [_ Hb].
  destruct (p_u64 i1) as [[n i2]| |] eqn:E3; try discriminate. cbn [bind] in H.
  apply (lossless_inv u64_codec _ _ _ _ u64_lossless Hb) in E3 as [B3 ->]. apply bytes_app in Hb as [_ Hb].
  destruct (bitmap_words WORDS_PER_BITMAP i2) as [[es i3]| |] eqn:E4; try discriminate. cbn [bind] in H.
  injection H as <- <-. apply bitmap_words_spec in E4 as (ws & -> & Hl & HF & ->); auto.
  exists c, p, ws. cbn [bm_blocknr bm_entries]. repeat split; auto.
Qed.

Lemma bitmap_unpack_block blk : bytes blk -> nlen blk = 4096 ->
  exists bm, bitmap_unpack blk = Ok (bm, []) /\ nlen (bm_entries bm) = 16320 /\
    bm_blocknr bm = word64_at blk 8 /\ Forall entry_ok (bm_entries bm) /\
    (forall i, i < 16320 ->
       let w := word64_at blk (16 + 8 * (i / 32)) in
       let k := 2 * (i mod 32) in
       nth (N.to_nat i) (bm_entries bm) Overflow = decode_entry (N.testbit w k) (N.testbit w (k + 1))) /\
    exists l, bitmap_pack bm = Ok l /\ nlen l = 4096 /\ skipn 8 l = skipn 8 blk.
Proof.
  intros Hb Hl.
  assert (exists bm r, bitmap_unpack blk = Ok (bm, r)) as (bm & r & E).
  { unfold bitmap_unpack, p_u32, p_u64.
    unfold nlen in Hl.
    repeat match goal with
    | |- context [p_le ?n ?l] =>
        destruct (p_le_cases n l) as [[? ->]|(? & ? & -> & ? & ?)]; [exfalso; lia|]; cbn [bind]
    end.
    destruct (bitmap_words_total WORDS_PER_BITMAP x4) as (es & r & ->).
    { unfold WORDS_PER_BITMAP. lia. }
    cbn [bind]. eauto. }
  pose proof (bitmap_unpack_inv _ _ _ Hb E) as (c & p & ws & Eb & Lw & HF & B1 & B2 & B3 & Ee).
  assert (r = []) as ->.
  { unfold nlen in Hl. rewrite Eb, !app_length, !le_enc_length, concat_le_enc_length, Lw in Hl.
    unfold WORDS_PER_BITMAP in Hl. destruct r; auto. cbn [length] in Hl. lia. }
  exists bm. split; [auto|].
  assert (bm_blocknr bm = word64_at blk 8) as Hn.
  { unfold word64_at. change (N.to_nat 8) with 8%nat. rewrite Eb.
    repeat (rewrite slice_skip by (rewrite le_enc_length; lia); rewrite le_enc_length; cbn [Nat.sub]).
    rewrite slice_here by apply le_enc_length. rewrite le_dec_enc; auto. }
  split; [|split; [auto|split; [|split]]].
  - rewrite Ee. unfold nlen. rewrite flat_entries_length, Lw. reflexivity.
  - rewrite Ee. apply flat_entries_ok; auto.
  - intros i Hi w k. rewrite Ee.
    rewrite flat_entries_nth by (rewrite Lw; unfold WORDS_PER_BITMAP; lia).
    rewrite word_entries_nth by (apply Nat.mod_upper_bound; discriminate).
    assert (N.of_nat (N.to_nat i mod 32) = i mod 32) as -> by (rewrite Nat2N.inj_mod, N2Nat.id; reflexivity).
    assert (nth (N.to_nat i / 32) ws 0 = w) as ->; [|reflexivity].
    unfold w, word64_at. rewrite Eb.
    assert (N.to_nat (16 + 8 * (i / 32)) = 16 + 8 * (N.to_nat i / 32))%nat as ->.
    { rewrite N2Nat.inj_add, N2Nat.inj_mul, N2Nat.inj_div. reflexivity. }
    repeat (rewrite slice_skip by (rewrite le_enc_length; lia); rewrite le_enc_length; cbn [Nat.sub]).
    replace (16 + 8 * (N.to_nat i / 32) - 4 - 4 - 8)%nat with (8 * (N.to_nat i / 32))%nat by lia.
    symmetry. apply slice_u64; auto. rewrite Lw. apply Nat.div_lt_upper_bound; [discriminate|].
    unfold WORDS_PER_BITMAP. lia.
  - unfold bitmap_pack, chunks. rewrite Ee, flat_entries_length.
    rewrite pack_flat by (auto; lia). cbn [bind]. eexists. split; [reflexivity|].
    assert (skipn 8 blk = le_enc 8 (bm_blocknr bm) ++ concat (map (le_enc 8) ws)) as E8.
    { rewrite Eb, app_nil_r, app_assoc. apply skipn_length_app. rewrite app_length, !le_enc_length. reflexivity. }
    split.
    + unfold nlen. rewrite !app_length, !le_enc_length, concat_le_enc_length, Lw. reflexivity.
    + rewrite E8, app_assoc. apply skipn_length_app. rewrite app_length, !le_enc_length. reflexivity.
Qed.
