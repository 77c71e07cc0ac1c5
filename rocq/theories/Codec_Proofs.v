(** Proofs about the codecs. *)
From Verif Require Import Base Csum_Model Csum_Proofs Codec_Model Codec_Spec.

(** ** Parsers *)
Lemma p_take_app n a r : length a = n -> p_take n (a ++ r) = Ok (a, r).
Proof.
  intros <-. unfold p_take. rewrite app_length.
  destruct (Nat.ltb_spec (length a + length r) (length a)); [lia|].
  rewrite firstn_app, skipn_app, Nat.sub_diag, firstn_all, skipn_all.
  simpl. rewrite app_nil_r. reflexivity.
Qed.

Lemma p_take_inv n l a r : p_take n l = Ok (a, r) -> l = a ++ r /\ length a = n.
Proof.
  unfold p_take. destruct (Nat.ltb_spec (length l) n); [discriminate|].
  intros [= <- <-]. split.
  - symmetry; apply firstn_skipn.
  - apply firstn_length_le; auto.
Qed.

Lemma p_le_app n v r : v < 256 ^ N.of_nat n -> p_le n (le_enc n v ++ r) = Ok (v, r).
Proof.
  intros. unfold p_le. rewrite p_take_app by apply le_enc_length. cbn [bind].
  rewrite le_dec_enc; auto.
Qed.

Lemma p_u32_app v r : v < 2 ^ 32 -> p_u32 (le_enc 4 v ++ r) = Ok (v, r).
Proof. intros. apply p_le_app. exact H. Qed.
Lemma p_u64_app v r : v < 2 ^ 64 -> p_u64 (le_enc 8 v ++ r) = Ok (v, r).
Proof. intros. apply p_le_app. exact H. Qed.

Lemma p_le_inv n l v r : p_le n l = Ok (v, r) ->
  exists a, l = a ++ r /\ length a = n /\ v = le_dec a.
Proof.
  unfold p_le. destruct (p_take n l) as [[a r']| |] eqn:E; try discriminate.
  cbn [bind]. intros [= <- <-]. apply p_take_inv in E as [-> ?]. eauto.
Qed.

Lemma p_take_short n l : (length l < n)%nat -> p_take n l = Err.
Proof. intros. unfold p_take. destruct (Nat.ltb_spec (length l) n); [auto|lia]. Qed.

Lemma p_le_short n l : (length l < n)%nat -> p_le n l = Err.
Proof. intros. unfold p_le. rewrite p_take_short by auto. reflexivity. Qed.

(** [p_le] is total apart from short input. *)
Lemma p_le_cases n l :
  ((length l < n)%nat /\ p_le n l = Err) \/
  (exists v r, p_le n l = Ok (v, r) /\ length r = (length l - n)%nat /\ (n <= length l)%nat).
Proof.
  destruct (Nat.lt_ge_cases (length l) n).
  - left. split; auto. apply p_le_short; auto.
  - right. unfold p_le, p_take. destruct (Nat.ltb_spec (length l) n); [lia|].
    cbn [bind]. eexists _, _. repeat split; auto. apply skipn_length.
Qed.

Lemma u64_bound l : bytes l -> length l = 8%nat -> le_dec l < 2 ^ 64.
Proof.
  intros. pose proof (le_dec_lt l H). unfold nlen in *. rewrite H0 in *. exact H1.
Qed.
Lemma u32_bound l : bytes l -> length l = 4%nat -> le_dec l < 2 ^ 32.
Proof.
  intros. pose proof (le_dec_lt l H). unfold nlen in *. rewrite H0 in *. exact H1.
Qed.

(** Split a byte string whose length is a sum. *)
Lemma split_at (n m : nat) (a : list N) : length a = (n + m)%nat ->
  exists x y, a = x ++ y /\ length x = n /\ length y = m.
Proof.
  intros. exists (firstn n a), (skipn n a). repeat split.
  - symmetry. apply firstn_skipn.
  - apply firstn_length_le. lia.
  - rewrite skipn_length. lia.
Qed.

Ltac split_bytes H x :=
  match type of H with
  | length ?a = (?n + ?m)%nat =>
      let y := fresh "y" in let E := fresh "E" in let Hx := fresh "H" x in
      let Hy := fresh "Hy" in
      destruct (split_at n m a H) as (x & y & E & Hx & Hy); subst a;
      clear H; rename Hy into H; rename y into a
  end.

Ltac bts := repeat rewrite bytes_app in *.

(** ** u64, u32 *)
Lemma le_codec_lossless n : lossless (mkcodec n (le_enc n) (p_le n)) (fun v => v < 256 ^ N.of_nat n).
Proof.
  constructor; cbn [cpack cunpack csize].
  - intros. split; [apply le_enc_length|apply le_enc_bytes].
  - intros. apply p_le_app; auto.
  - intros a Ha <-. exists (le_dec a). split.
    + apply le_dec_lt; auto.
    + apply le_enc_dec; auto.
  - apply p_le_short.
Qed.

Lemma u64_lossless : lossless u64_codec (fun v => v < 2 ^ 64).
Proof. exact (le_codec_lossless 8). Qed.
Lemma u32_lossless : lossless u32_codec (fun v => v < 2 ^ 32).
Proof. exact (le_codec_lossless 4). Qed.

(** ** Packed pairs in one u64 *)
Lemma lor_shiftl_add a b k : b < 2 ^ k -> N.lor (N.shiftl a k) b = a * 2 ^ k + b.
Proof.
  intros H. rewrite N.shiftl_mul_pow2.
  rewrite <- N.lxor_lor; [symmetry; apply N.add_nocarry_lxor|].
  - apply N.bits_inj. intros i. rewrite N.land_spec, N.bits_0.
    destruct (N.lt_ge_cases i k).
    + rewrite N.mul_pow2_bits_low by auto. reflexivity.
    + rewrite (proj1 (lt_pow2_testbit b k) H) by auto. apply andb_false_r.
  - apply N.bits_inj. intros i. rewrite N.land_spec, N.bits_0.
    destruct (N.lt_ge_cases i k).
    + rewrite N.mul_pow2_bits_low by auto. reflexivity.
    + rewrite (proj1 (lt_pow2_testbit b k) H) by auto. apply andb_false_r.
Qed.

Lemma pack_pair_bt b : bt_range b ->
  N.lor (N.shiftl (bt_block b) 24 mod W64) (bt_time b) = bt_block b * 2 ^ 24 + bt_time b.
Proof.
  intros [H1 H2]. rewrite N.mod_small.
  - apply lor_shiftl_add; auto.
  - rewrite N.shiftl_mul_pow2. unfold W64.
    change (2 ^ 40) with 1099511627776 in *. change (2 ^ 24) with 16777216. lia.
Qed.

Lemma bt_lossless : lossless bt_codec bt_range.
Proof.
  constructor; cbn [bt_codec cpack cunpack csize].
  - intros. split; [apply le_enc_length|apply le_enc_bytes].
  - intros v rest H. unfold bt_pack, bt_unpack. rewrite pack_pair_bt by auto.
    destruct v as [b t]; destruct H as [H1 H2]; cbn [bt_block bt_time] in *.
    change (2 ^ 24) with 16777216 in *. change (2 ^ 40) with 1099511627776 in *.
    rewrite p_u64_app by (change (2 ^ 64) with 18446744073709551616; lia).
    cbn [bind].
    change (N.shiftl 1 24 - 1) with (N.ones 24). rewrite N.land_ones, N.shiftr_div_pow2.
    change (2 ^ 24) with 16777216.
    do 3 f_equal.
    + rewrite N.add_comm, N.div_add by discriminate. rewrite N.div_small by auto. auto.
    + rewrite N.add_comm, N.mod_add by discriminate. apply N.mod_small; auto.
  - intros a Ha Hl. pose proof (u64_bound a Ha Hl) as Hb.
    exists (mkbt (le_dec a / 2 ^ 24) (le_dec a mod 2 ^ 24)).
    assert (bt_range (mkbt (le_dec a / 2 ^ 24) (le_dec a mod 2 ^ 24))) as Hr.
    { split; cbn [bt_block bt_time].
      - change (2 ^ 64) with 18446744073709551616 in Hb.
        change (2 ^ 40) with 1099511627776. change (2 ^ 24) with 16777216. dlia.
      - change (2 ^ 24) with 16777216. dlia. }
    split; auto. unfold bt_pack. rewrite pack_pair_bt by auto. cbn [bt_block bt_time].
    rewrite N.mul_comm, <- N.div_mod by discriminate.
    rewrite <- Hl. apply le_enc_dec; auto.
  - intros. unfold bt_unpack, p_u64. rewrite p_le_short by auto. reflexivity.
Qed.

Lemma pack_pair_cm m : cm_range m ->
  N.lor (N.shiftl (cm_oblock m) 16 mod W64) (cm_flags m) = cm_oblock m * 2 ^ 16 + cm_flags m.
Proof.
  intros [H1 H2]. rewrite N.mod_small.
  - apply lor_shiftl_add; auto.
  - rewrite N.shiftl_mul_pow2. unfold W64.
    change (2 ^ 48) with 281474976710656 in *. change (2 ^ 16) with 65536. lia.
Qed.

Lemma cm_lossless : lossless cm_codec cm_range.
Proof.
  constructor; cbn [cm_codec cpack cunpack csize].
  - intros. split; [apply le_enc_length|apply le_enc_bytes].
  - intros v rest H. unfold cm_pack, cm_unpack. rewrite pack_pair_cm by auto.
    destruct v as [b t]; destruct H as [H1 H2]; cbn [cm_oblock cm_flags] in *.
    change (2 ^ 16) with 65536 in *. change (2 ^ 48) with 281474976710656 in *.
    rewrite p_u64_app by (change (2 ^ 64) with 18446744073709551616; lia).
    cbn [bind].
    change (N.shiftl 1 16 - 1) with (N.ones 16). rewrite N.land_ones, N.shiftr_div_pow2.
    change (2 ^ 16) with 65536.
    do 3 f_equal.
    + rewrite N.add_comm, N.div_add by discriminate. rewrite N.div_small by auto. auto.
    + rewrite N.add_comm, N.mod_add by discriminate. apply N.mod_small; auto.
  - intros a Ha Hl. pose proof (u64_bound a Ha Hl) as Hb.
    exists (mkcm (le_dec a / 2 ^ 16) (le_dec a mod 2 ^ 16)).
    assert (cm_range (mkcm (le_dec a / 2 ^ 16) (le_dec a mod 2 ^ 16))) as Hr.
    { split; cbn [cm_oblock cm_flags].
      - change (2 ^ 64) with 18446744073709551616 in Hb.
        change (2 ^ 48) with 281474976710656. change (2 ^ 16) with 65536. dlia.
      - change (2 ^ 16) with 65536. dlia. }
    split; auto. unfold cm_pack. rewrite pack_pair_cm by auto. cbn [cm_oblock cm_flags].
    rewrite N.mul_comm, <- N.div_mod by discriminate.
    rewrite <- Hl. apply le_enc_dec; auto.
  - intros. unfold cm_unpack, p_u64. rewrite p_le_short by auto. reflexivity.
Qed.

(** ** Records of several words *)
Ltac enc_props :=
  split; [rewrite ?app_length, ?le_enc_length; reflexivity
         |bts; repeat split; apply le_enc_bytes].
Ltac run_parse :=
  rewrite <- ?app_assoc;
  repeat (first [rewrite p_u64_app by (auto; lia) | rewrite p_u32_app by (auto; lia)];
          cbn [bind]).
Ltac le_back :=
  match goal with
  | H : length ?x = ?n |- context [le_enc ?n (le_dec ?x)] =>
      replace (le_enc n (le_dec x)) with x by (symmetry; rewrite <- H at 1; apply le_enc_dec; auto)
  end.
Ltac short_parse :=
  unfold p_u64, p_u32;
  repeat match goal with
  | |- context [p_le ?n ?l] =>
      destruct (p_le_cases n l) as [[? ->]|(? & ? & -> & ? & ?)]; cbn [bind]; try reflexivity
  end; try lia.

Lemma dd_lossless : lossless dd_codec dd_range.
Proof.
  constructor; cbn [dd_codec cpack cunpack csize].
  - intros. unfold dd_pack. enc_props.
  - intros [m t c s] rest (H1 & H2 & H3 & H4); cbn [dd_mapped dd_tid dd_ctime dd_stime] in *.
    unfold dd_pack, dd_unpack; cbn [dd_mapped dd_tid dd_ctime dd_stime]. run_parse. reflexivity.
  - intros a Ha Hl. change 24%nat with (8 + (8 + (4 + 4)))%nat in Hl.
    split_bytes Hl x. split_bytes Hl x0. split_bytes Hl x1. bts.
    exists (mkdd (le_dec x) (le_dec x0) (le_dec x1) (le_dec a)).
    unfold dd_range, dd_pack; cbn [dd_mapped dd_tid dd_ctime dd_stime]. split.
    + repeat split; first [apply u64_bound | apply u32_bound]; tauto.
    + destruct Ha as (? & ? & ? & ?). repeat le_back. reflexivity.
  - intros. unfold dd_unpack. short_parse.
Qed.

Lemma ie_lossless : lossless ie_codec ie_range.
Proof.
  constructor; cbn [ie_codec cpack cunpack csize].
  - intros. unfold ie_pack. enc_props.
  - intros [m t c] rest (H1 & H2 & H3); cbn [ie_blocknr ie_nr_free ie_none_free_before] in *.
    unfold ie_pack, ie_unpack; cbn [ie_blocknr ie_nr_free ie_none_free_before].
    run_parse. reflexivity.
  - intros a Ha Hl. change 16%nat with (8 + (4 + 4))%nat in Hl.
    split_bytes Hl x. split_bytes Hl x0. bts.
    exists (mkie (le_dec x) (le_dec x0) (le_dec a)).
    unfold ie_range, ie_pack; cbn [ie_blocknr ie_nr_free ie_none_free_before]. split.
    + repeat split; first [apply u64_bound | apply u32_bound]; tauto.
    + destruct Ha as (? & ? & ?). repeat le_back. reflexivity.
  - intros. unfold ie_unpack. short_parse.
Qed.

Lemma smroot_lossless : lossless smroot_codec smroot_range.
Proof.
  constructor; cbn [smroot_codec cpack cunpack csize].
  - intros. unfold smroot_pack. enc_props.
  - intros [m t c s] rest (H1 & H2 & H3 & H4);
      cbn [sr_nr_blocks sr_nr_allocated sr_bitmap_root sr_ref_count_root] in *.
    unfold smroot_pack, smroot_unpack;
      cbn [sr_nr_blocks sr_nr_allocated sr_bitmap_root sr_ref_count_root].
    run_parse. reflexivity.
  - intros a Ha Hl. change 32%nat with (8 + (8 + (8 + 8)))%nat in Hl.
    split_bytes Hl x. split_bytes Hl x0. split_bytes Hl x1. bts.
    exists (mksmroot (le_dec x) (le_dec x0) (le_dec x1) (le_dec a)).
    unfold smroot_range, smroot_pack;
      cbn [sr_nr_blocks sr_nr_allocated sr_bitmap_root sr_ref_count_root]. split.
    + repeat split; apply u64_bound; tauto.
    + destruct Ha as (? & ? & ? & ?). repeat le_back. reflexivity.
  - intros. unfold smroot_unpack. short_parse.
Qed.

Lemma ws_lossless : lossless ws_codec ws_range.
Proof.
  constructor; cbn [ws_codec cpack cunpack csize].
  - intros. unfold ws_pack. enc_props.
  - intros [n r] rest (H1 & H2); cbn [ws_nr_bits ws_root] in *.
    unfold ws_pack, ws_unpack; cbn [ws_nr_bits ws_root]. run_parse. reflexivity.
  - intros a Ha Hl. change 12%nat with (4 + 8)%nat in Hl.
    split_bytes Hl x. bts. exists (mkws (le_dec x) (le_dec a)).
    unfold ws_range, ws_pack; cbn [ws_nr_bits ws_root]. split.
    + split; first [apply u64_bound | apply u32_bound]; tauto.
    + destruct Ha as (? & ?). repeat le_back. reflexivity.
  - intros. unfold ws_unpack. short_parse.
Qed.
