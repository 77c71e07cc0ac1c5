From Coq Require Import String Ascii.
From Verif Require Import Base Csum_Model Codec_Model Utils_Model Utils_Spec Pack_Proofs Utils_Proofs.
Import ListNotations.
Open Scope N_scope.

(** ** Key ranges *)
Lemma split_loop_iff ks : forall k0 e l,
  split_loop (mkkr (Some k0) e) ks = Ok l <->
  l = ranges_of k0 ks e /\ increasing (k0 :: ks) /\ (forall k, In k ks -> below k e).
Proof.
  induction ks as [|k ks IH]; intros k0 e l; cbn [split_loop ranges_of].
  - split.
    + intros H; okinj H. simpl. conj; auto. intros ? [].
    + intros [-> _]. reflexivity.
  - unfold split_one, kr_split. cbn [kr_start kr_end].
    rewrite (increasing_cons k0 (k :: ks)).
    assert (Hb : match e with
       | Some e0 => if (k0 <? k) && (k <? e0) then Some (mkkr (Some k0) (Some k), mkkr (Some k) (Some e0)) else None
       | None => if k0 <? k then Some (mkkr (Some k0) (Some k), mkkr (Some k) None) else None
       end = if (k0 <? k) && (match e with Some e0 => k <? e0 | None => true end)
             then Some (mkkr (Some k0) (Some k), mkkr (Some k) e) else None).
    { destruct e; [reflexivity|]. destruct (k0 <? k); reflexivity. }
    rewrite Hb. clear Hb.
    destruct (N.ltb_spec k0 k); cbn [andb].
    2:{ cbn [bind]. split; [discriminate|]. intros [_ [[? _] _]]; lia. }
    destruct (match e with Some e0 => k <? e0 | None => true end) eqn:Ee; cbn [bind].
    + split.
      * intros Hx. inv_bind Hx. okinj Hx. apply IH in E as [-> [H1 H2]]. conj; auto.
        intros x [<-|Hin]; auto. destruct e; simpl; [apply N.ltb_lt|]; auto.
      * intros [-> [[_ H1] H2]].
        rewrite (proj2 (IH k e (ranges_of k ks e))); [reflexivity|].
        conj; auto. intros; apply H2; right; auto.
    + split; [discriminate|]. intros [_ [_ H2]]. specialize (H2 k (or_introl eq_refl)).
      destruct e; simpl in *; [apply N.ltb_ge in Ee; lia|discriminate].
Qed.

Lemma ranges_of_union ks : forall k0 e x,
  increasing (k0 :: ks) -> (forall k, In k ks -> below k e) ->
  (Exists (fun r => kr_has r x) (ranges_of k0 ks e) <-> k0 <= x /\ below x e).
Proof.
  induction ks as [|k ks IH]; intros k0 e x Hi Hb; cbn [ranges_of].
  - rewrite Exists_cons, Exists_nil. unfold kr_has, below; cbn [kr_start kr_end]. tauto.
  - rewrite Exists_cons, IH.
    + apply increasing_cons in Hi as [Hlt _]. specialize (Hb k (or_introl eq_refl)).
      unfold kr_has, below in *; cbn [kr_start kr_end]. destruct e; split; intros; lia.
    + apply increasing_cons in Hi as [_ Hi]; auto.
    + intros; apply Hb; right; auto.
Qed.

Lemma ranges_of_ordered ks : forall k0 e,
  increasing (k0 :: ks) ->
  ForallOrdPairs (fun a b => forall x y, kr_has a x -> kr_has b y -> x < y) (ranges_of k0 ks e).
Proof.
  induction ks as [|k ks IH]; intros k0 e Hi; cbn [ranges_of].
  - repeat constructor.
  - apply increasing_cons in Hi as [Hlt Hi]. constructor; [|apply IH; auto].
    assert (Hge : forall ks k, increasing (k :: ks) -> Forall (fun b => forall y, kr_has b y -> k <= y) (ranges_of k ks e)).
    { clear. induction ks as [|k1 ks IH]; intros k Hi; cbn [ranges_of]; constructor.
      - unfold kr_has; cbn [kr_start kr_end]. tauto.
      - constructor.
      - unfold kr_has; cbn [kr_start kr_end]. tauto.
      - apply increasing_cons in Hi as [Hlt Hi]. eapply Forall_impl; [|apply IH; auto].
        cbv beta. intros a Ha y Hy. specialize (Ha y Hy). lia. }
    eapply Forall_impl; [|apply Hge; auto]. cbv beta. unfold kr_has at 2; cbn [kr_start kr_end].
    intros a Ha x y Hx Hy. specialize (Ha y Hy). lia.
Qed.

(** ** Decimal numbers *)
Lemma digit_of_char d : d < 10 -> digit_of (digit_char d) = Some d.
Proof.
  intros H. unfold digit_of, digit_char. rewrite N_ascii_embedding by lia.
  replace ((48 <=? 48 + d) && (48 + d <=? 57)) with true by lia. f_equal. lia.
Qed.

Lemma parse_dec_loop : forall fuel n acc, n < W64 -> n < 2 ^ (N.of_nat fuel + 1) ->
  parse_digits 0 (dec_loop fuel n acc) = parse_digits n acc.
Proof.
  induction fuel; intros n acc Hw Hn.
  - change (2 ^ (N.of_nat 0 + 1)) with 2 in Hn. cbn [dec_loop parse_digits].
    rewrite digit_of_char by (apply N.mod_lt; discriminate).
    rewrite N.mod_small by lia. cbn [N.mul N.add]. replace (0 * 10 + n) with n by lia.
    apply N.ltb_lt in Hw. rewrite Hw. reflexivity.
  - cbn [dec_loop]. destruct (N.ltb_spec n 10).
    + cbn [parse_digits]. rewrite digit_of_char by (apply N.mod_lt; discriminate).
      rewrite N.mod_small by lia. replace (0 * 10 + n) with n by lia.
      apply N.ltb_lt in Hw. rewrite Hw. reflexivity.
    + rewrite IHfuel.
      * cbn [parse_digits]. rewrite digit_of_char by (apply N.mod_lt; discriminate).
        replace (n / 10 * 10 + n mod 10) with n by dlia.
        apply N.ltb_lt in Hw. rewrite Hw. reflexivity.
      * dlia.
      * replace (N.of_nat (S fuel) + 1) with (N.succ (N.of_nat fuel + 1)) in Hn by lia.
        rewrite N.pow_succ_r' in Hn. generalize dependent (2 ^ (N.of_nat fuel + 1)). intros. dlia.
Qed.

Lemma dec_loop_digits u : forall fuel n acc,
  split_digits (append acc u) = (acc, u) ->
  split_digits (append (dec_loop fuel n acc) u) = (dec_loop fuel n acc, u).
Proof.
  assert (Hs : forall n acc, split_digits (append acc u) = (acc, u) ->
    split_digits (append (String (digit_char (n mod 10)) acc) u) = (String (digit_char (n mod 10)) acc, u)).
  { intros n acc H. cbn [append split_digits]. rewrite digit_of_char by (apply N.mod_lt; discriminate).
    rewrite H. reflexivity. }
  induction fuel; intros n acc H; cbn [dec_loop].
  - apply Hs; auto.
  - destruct (n <? 10); [apply Hs; auto|]. apply IHfuel, Hs, H.
Qed.

Lemma dec_loop_nonempty fuel : forall n acc, dec_loop fuel n acc <> EmptyString.
Proof.
  assert (H : forall fuel n acc, acc <> EmptyString -> dec_loop fuel n acc <> EmptyString).
  { clear. induction fuel; intros; cbn [dec_loop]; [discriminate|]. destruct (n <? 10); [discriminate|].
    apply IHfuel. discriminate. }
  destruct fuel; intros; cbn [dec_loop]; [discriminate|]. destruct (n <? 10); [discriminate|].
  apply H. discriminate.
Qed.

Lemma dec_display_parse n : n < W64 -> parse_u64 (dec_display n) = Ok n.
Proof.
  intros H. unfold parse_u64, dec_display.
  destruct (dec_loop _ _ _) eqn:E; [apply dec_loop_nonempty in E; contradiction|].
  rewrite <- E, parse_dec_loop; auto.
  rewrite N2Nat.id. destruct (N.eq_dec n 0) as [->|]; [reflexivity|].
  replace (N.log2 n + 1) with (N.succ (N.log2 n)) by lia. apply N.log2_spec. lia.
Qed.

Lemma dec_display_split n u : split_digits u = (EmptyString, u) ->
  split_digits (append (dec_display n) u) = (dec_display n, u).
Proof. intros H. apply dec_loop_digits. exact H. Qed.

Lemma ss_new_ok m u : m * unit_bytes u < W64 -> ss_new m u = Ok (mkss m u).
Proof.
  intros H. unfold ss_new. replace ((W64 - 1) / unit_bytes u <? m) with false; auto.
  symmetry. apply N.ltb_ge. apply N.div_le_lower_bound; [destruct u; discriminate|lia].
Qed.

Lemma ss_new_inv m u s : ss_new m u = Ok s -> s = mkss m u /\ m * unit_bytes u < W64.
Proof.
  unfold ss_new. destruct (N.ltb_spec ((W64 - 1) / unit_bytes u) m); [discriminate|].
  intros E. okinj E. split; auto.
  assert (unit_bytes u <> 0) by (destruct u; discriminate).
  pose proof (N.mul_div_le (W64 - 1) (unit_bytes u) H0).
  assert (m * unit_bytes u <= unit_bytes u * ((W64 - 1) / unit_bytes u)).
  { rewrite N.mul_comm. apply N.mul_le_mono_l. auto. }
  unfold W64 in *. lia.
Qed.

Lemma ss_display_parse m u : m * unit_bytes u < W64 -> u <> Tebibyte ->
  ss_from_str (ss_display (mkss m u)) = Ok (mkss m u).
Proof.
  intros Hm Hu. unfold ss_from_str, ss_display. cbn [ss_multiple ss_unit].
  rewrite dec_display_split by (destruct u; reflexivity).
  assert (Hlt : m < W64).
  { assert (m * 1 <= m * unit_bytes u) by (apply N.mul_le_mono_l; destruct u; discriminate). lia. }
  rewrite dec_display_parse by auto. cbn [bind].
  assert (Hf : unit_from_str (to_string_short u) = Ok u) by (destruct u; try reflexivity; contradiction).
  destruct (to_string_short u) eqn:E; [destruct u; discriminate|].
  rewrite Hf. cbn [bind]. apply ss_new_ok; auto.
Qed.

Lemma ss_display_tebibyte m : m < W64 -> ss_from_str (ss_display (mkss m Tebibyte)) = Err.
Proof.
  intros Hlt. unfold ss_from_str, ss_display. cbn [ss_multiple ss_unit].
  rewrite dec_display_split by reflexivity.
  rewrite dec_display_parse by auto. reflexivity.
Qed.

(** ** Pretty printing *)
Lemma log2_bounds b q : 0 < b -> N.log2 b / 10 = q -> 2 ^ (10 * q) <= b < 2 ^ (10 * q + 10).
Proof.
  intros Hb Hq. pose proof (N.log2_spec b Hb) as [H1 H2]. split.
  - eapply N.le_trans; [|exact H1]. apply N.pow_le_mono_r; [discriminate|]. dlia.
  - eapply N.lt_le_trans; [exact H2|]. apply N.pow_le_mono_r; [discriminate|]. dlia.
Qed.

Lemma pretty_spec bytes : bytes < W64 ->
  exists m u, to_pretty_print_size bytes = Ok (m, u) /\
    In u pretty_units /\ m <= 8192 /\ (u <> Byte -> 8 <= m) /\ (u = Byte -> m = bytes) /\
    dist (m * unit_bytes u) bytes < unit_bytes u.
Proof.
  intros Hw. unfold to_pretty_print_size. destruct (N.ltb_spec 0 bytes).
  2:{ assert (bytes = 0) as -> by lia. exists 0, Byte. conj; auto; try reflexivity; try lia; [left; auto|congruence]. }
  remember (N.log2 bytes / 10) as q eqn:Eq. symmetry in Eq.
  pose proof (log2_bounds bytes q H Eq) as [Hlo Hhi].
  assert (Hq : q <= 6).
  { destruct (N.le_gt_cases q 6); auto. assert (2 ^ (10 * 7) <= 2 ^ (10 * q)) by (apply N.pow_le_mono_r; [discriminate|lia]).
    change (2 ^ (10 * 7)) with 1180591620717411303424 in *. unfold W64 in *. lia. }
  rewrite N.shiftr_div_pow2. clear Eq.
  assert (Hcase : q = 0 \/ q = 1 \/ q = 2 \/ q = 3 \/ q = 4 \/ q = 5 \/ q = 6) by lia.
  unfold dist, W64 in *.
  destruct Hcase as [->|[->|[->|[->|[->|[->| ->]]]]]];
  match type of Hlo with ?x <= _ => let y := eval vm_compute in x in change x with y in Hlo end;
  match type of Hhi with _ < ?x => let y := eval vm_compute in x in change x with y in Hhi end;
  match goal with |- context [8192 <? bytes / ?p] => let y := eval vm_compute in p in change p with y end;
  match goal with |- context [N.ltb 8192 (bytes / ?p)] => destruct (N.ltb_spec 8192 (bytes / p)) end;
  match goal with |- context [nth_error pretty_units ?k] =>
    let y := eval vm_compute in (nth_error pretty_units k) in change (nth_error pretty_units k) with y end;
  cbv iota beta; eexists _, _; (split; [reflexivity|]); cbn [unit_bytes];
  match goal with |- context [if ?a <=? ?b then _ else _] => destruct (N.leb_spec a b) end;
  (split; [unfold pretty_units, In; tauto|]);
  (split; [dlia|]); (split; [try congruence; intros _; dlia|]); (split; [try discriminate; intros _; dlia|]); dlia.
Qed.

(** ** Size estimates *)
Lemma land_low n k : N.land n (N.ones k) = n mod 2 ^ k.
Proof. apply N.land_ones. Qed.

Lemma check_data_block_size_iff bs :
  check_data_block_size bs = Ok tt <-> exists k, 1 <= k /\ bs = k * 65536 /\ bs <= 1073741824.
Proof.
  unfold check_data_block_size. change (65536 - 1) with (N.ones 16).
  rewrite land_low. change (2 ^ 16) with 65536. split.
  - destruct ((bs =? 0) || negb (bs mod 65536 =? 0)) eqn:E; [discriminate|].
    destruct (N.ltb_spec 1073741824 bs); [discriminate|]. intros _.
    exists (bs / 65536). conj; dlia.
  - intros [k [H1 [-> H3]]]. replace ((k * 65536 =? 0) || negb (k * 65536 mod 65536 =? 0)) with false.
    2:{ rewrite N.mod_mul by discriminate. lia. }
    replace (1073741824 <? k * 65536) with false by lia. reflexivity.
Qed.

Lemma check_cache_block_size_iff bs :
  check_cache_block_size bs = Ok tt <-> exists k, 1 <= k /\ bs = k * 32768 /\ bs <= 1073741824.
Proof.
  unfold check_cache_block_size. change (32768 - 1) with (N.ones 15).
  rewrite land_low. change (2 ^ 15) with 32768. split.
  - destruct ((bs =? 0) || negb (bs mod 32768 =? 0)) eqn:E; [discriminate|].
    destruct (N.ltb_spec 1073741824 bs); [discriminate|]. intros _.
    exists (bs / 32768). conj; dlia.
  - intros [k [H1 [-> H3]]]. replace ((k * 32768 =? 0) || negb (k * 32768 mod 32768 =? 0)) with false.
    2:{ rewrite N.mod_mul by discriminate. lia. }
    replace (1073741824 <? k * 32768) with false by lia. reflexivity.
Qed.

Lemma thin_size_exact nr mt : nr < 2 ^ 48 + 1 -> mt < 2 ^ 63 ->
  thin_metadata_size nr mt = N.min (1 + (nr + 125) / 126 + mt) (255 * 16320) * 4096.
Proof.
  intros H1 H2. unfold thin_metadata_size, div_up_u64.
  change (calc_max_entries bt_codec / 2) with 126. change (126 - 1) with 125.
  unfold MAX_METADATA_BLOCKS. change (2 ^ 48) with 281474976710656 in *.
  change (2 ^ 63) with 9223372036854775808 in *. unfold W64.
  rewrite (N.mod_small (nr + 125)) by lia.
  rewrite (N.mod_small (1 + _ + mt)) by dlia.
  rewrite N.mod_small by dlia. reflexivity.
Qed.

Lemma thin_size_max nr mt : thin_metadata_size nr mt <= 255 * 16320 * 4096.
Proof.
  unfold thin_metadata_size. cbv zeta. unfold MAX_METADATA_BLOCKS, W64.
  generalize ((1 + div_up_u64 nr (calc_max_entries bt_codec / 2) + mt) mod 18446744073709551616). intros x. dlia.
Qed.

Lemma cache_size_exact nr hw : nr * (hw + 24) + 4194304 < W64 -> hw < W32 ->
  cache_metadata_size nr hw = N.min (4194304 + nr * (hw + 24)) (255 * 16320 * 4096).
Proof.
  intros H Hh. unfold cache_metadata_size. rewrite N.shiftl_mul_pow2.
  change (2 ^ 4) with 16. unfold W64, W32, MAX_METADATA_BLOCKS in *.
  rewrite (N.mod_small (hw + 8)) by lia.
  rewrite (N.mod_small (nr * 16)) by lia. rewrite (N.mod_small (nr * (hw + 8))) by lia.
  rewrite N.mod_small by lia. f_equal. lia.
Qed.
