(** Proofs about the B-tree node codec. *)
From Verif Require Import Base Csum_Model Csum_Proofs Codec_Model Codec_Spec Codec_Proofs.

(** ** count *)
Lemma p_count_app {A} (p : list N -> res (A * list N)) (e : A -> list N) (ok : A -> Prop) :
  (forall a r, ok a -> p (e a ++ r) = Ok (a, r)) ->
  forall l r, Forall ok l -> p_count p (length l) (concat (map e l) ++ r) = Ok (l, r).
Proof.
  intros Hp l r. induction 1; cbn [p_count length map concat]; auto.
  rewrite <- app_assoc, Hp by auto. cbn [bind]. rewrite IHForall. reflexivity.
Qed.

Lemma lossless_inv {V} (c : codec V) range i v r : lossless c range -> bytes i ->
  cunpack c i = Ok (v, r) -> range v /\ i = cpack c v ++ r.
Proof.
  intros L Hb H. destruct (Nat.lt_ge_cases (length i) (csize c)).
  - rewrite (ll_short _ _ L) in H by auto. discriminate.
  - rewrite <- (firstn_skipn (csize c) i) in H.
    destruct (ll_onto _ _ L (firstn (csize c) i)) as (v' & Hr & E).
    { apply bytes_firstn; auto. }
    { apply firstn_length_le; auto. }
    rewrite <- E, (ll_round _ _ L) in H by auto. injection H as <- <-. split; auto.
    rewrite E. symmetry. apply firstn_skipn.
Qed.

Lemma lossless_total {V} (c : codec V) range i : lossless c range -> bytes i ->
  (csize c <= length i)%nat -> exists v r, cunpack c i = Ok (v, r).
Proof.
  intros L Hb Hl. rewrite <- (firstn_skipn (csize c) i).
  destruct (ll_onto _ _ L (firstn (csize c) i)) as (v' & Hr & E).
  { apply bytes_firstn; auto. }
  { apply firstn_length_le; auto. }
  rewrite <- E, (ll_round _ _ L) by auto. eauto.
Qed.

Lemma p_count_inv {V} (c : codec V) range n i vs r : lossless c range -> bytes i ->
  p_count (cunpack c) n i = Ok (vs, r) ->
  i = concat (map (cpack c) vs) ++ r /\ length vs = n /\ Forall range vs.
Proof.
  intros L. revert i vs r. induction n; intros i vs r Hb H; cbn [p_count] in H.
  - injection H as <- <-. repeat split; auto.
  - destruct (cunpack c i) as [[v i1]| |] eqn:E1; try discriminate. cbn [bind] in H.
    destruct (p_count (cunpack c) n i1) as [[vs' i2]| |] eqn:E2; try discriminate.
    cbn [bind] in H. injection H as <- <-.
    apply (lossless_inv c range) in E1 as [Hr ->]; auto. apply bytes_app in Hb as [_ Hb].
    apply IHn in E2 as (-> & <- & HF); auto.
    cbn [map concat length]. rewrite <- app_assoc. repeat split; auto.
Qed.

Lemma concat_pack_length {V} (c : codec V) range vs : lossless c range -> Forall range vs ->
  length (concat (map (cpack c) vs)) = (csize c * length vs)%nat.
Proof.
  intros L. induction 1; cbn [map concat length]; [lia|].
  rewrite app_length, IHForall, (proj1 (ll_size _ _ L x H)). lia.
Qed.

Lemma concat_pack_bytes {V} (c : codec V) range vs : lossless c range -> Forall range vs ->
  bytes (concat (map (cpack c) vs)).
Proof.
  intros L. induction 1; cbn [map concat]; [apply bytes_nil|].
  apply bytes_app. split; auto. apply (ll_size _ _ L x H).
Qed.

Lemma p_count_total {V} (c : codec V) range n i : lossless c range -> bytes i ->
  (csize c * n <= length i)%nat -> exists vs r, p_count (cunpack c) n i = Ok (vs, r).
Proof.
  intros L. revert i. induction n; intros i Hb Hl; cbn [p_count]; eauto.
  destruct (lossless_total c range i L Hb) as (v & i1 & E); [lia|].
  rewrite E. cbn [bind]. apply (lossless_inv c range) in E as [Hr ->]; auto.
  rewrite app_length, (proj1 (ll_size _ _ L v Hr)) in Hl.
  apply bytes_app in Hb as [_ Hb].
  destruct (IHn i1 Hb) as (vs & r & ->); [lia|]. cbn [bind]. eauto.
Qed.

Lemma p_count_nopanic {A} (p : list N -> res (A * list N)) n i :
  (forall i, p i <> Panic) -> p_count p n i <> Panic.
Proof.
  intros Hp. revert i. induction n; intros i; cbn [p_count]; [discriminate|].
  destruct (p i) as [[a i1]| |] eqn:E; cbn [bind]; try discriminate.
  - destruct (p_count p n i1) as [[r i2]| |] eqn:E2; cbn [bind]; try discriminate.
    intros _. apply (IHn i1). auto.
  - intros _. apply (Hp i). auto.
Qed.

Lemma p_le_nopanic n i : p_le n i <> Panic.
Proof.
  unfold p_le, p_take. destruct (Nat.ltb _ _); cbn [bind]; discriminate.
Qed.

(** ** Slices *)
Lemma slice_skip {A} off len (a b : list A) : (length a <= off)%nat ->
  slice off len (a ++ b) = slice (off - length a) len b.
Proof.
  intros. unfold slice. rewrite skipn_app, skipn_all2 by auto. reflexivity.
Qed.
Lemma slice_here {A} len (a b : list A) : length a = len -> slice 0 len (a ++ b) = a.
Proof.
  intros <-. unfold slice. cbn [skipn]. rewrite firstn_app, Nat.sub_diag, firstn_all.
  cbn [firstn]. apply app_nil_r.
Qed.
Lemma slice_nth {V} (c : codec V) range vs r i v : lossless c range -> Forall range vs ->
  nth_error vs i = Some v ->
  slice (csize c * i) (csize c) (concat (map (cpack c) vs) ++ r) = cpack c v.
Proof.
  intros L HF. revert i. induction HF; intros i H0; [destruct i; discriminate|].
  pose proof (proj1 (ll_size _ _ L x H)) as Hlen.
  cbn [map concat]. rewrite <- app_assoc. destruct i; cbn [nth_error] in H0.
  - injection H0 as ->. rewrite Nat.mul_0_r. apply slice_here; auto.
  - rewrite slice_skip by lia. replace (csize c * S i - length (cpack c x))%nat
      with (csize c * i)%nat by lia. auto.
Qed.

(** ** Keys *)
Lemma keys_ordered_spec l last : keys_ordered last l = true <->
  increasing l /\ match last, l with Some a, k :: _ => a < k | _, _ => True end.
Proof.
  revert last. induction l as [|k l IH]; intros last; cbn [keys_ordered].
  - destruct last; cbn; tauto.
  - assert (keys_ordered (Some k) l = true <-> increasing (k :: l)) as G.
    { rewrite IH. cbn [increasing]. destruct l; tauto. }
    destruct last as [a|].
    + destruct (N.leb_spec k a).
      * split; [discriminate|]. intros [_ ?]. lia.
      * rewrite G. tauto.
    + rewrite G. tauto.
Qed.

(** ** Header *)
Lemma nh_unpack_inv data h i : bytes data -> nh_unpack data = Ok (h, i) ->
  exists csum flags pad,
    data = le_enc 4 csum ++ le_enc 4 flags ++ le_enc 8 (nh_block h) ++
           le_enc 4 (nh_nr_entries h) ++ le_enc 4 (nh_max_entries h) ++
           le_enc 4 (nh_value_size h) ++ le_enc 4 pad ++ i /\
    csum < 2 ^ 32 /\ flags < 2 ^ 32 /\ nh_block h < 2 ^ 64 /\ nh_nr_entries h < 2 ^ 32 /\
    nh_max_entries h < 2 ^ 32 /\ nh_value_size h < 2 ^ 32 /\
    nh_is_leaf h = (flags =? 2).
Proof.
  intros Hb H. unfold nh_unpack in H.
  repeat match type of H with
  | bind (?p ?l) _ = _ =>
      let E := fresh "E" in
      destruct (p l) as [[? ?]| |] eqn:E; try discriminate; cbn [bind] in H;
      first [ apply (lossless_inv u32_codec _ _ _ _ u32_lossless Hb) in E
            | apply (lossless_inv u64_codec _ _ _ _ u64_lossless Hb) in E ];
      destruct E as [? E]; rewrite E in Hb; apply proj2 in E as E' || idtac;
      apply bytes_app in Hb; destruct Hb as [_ Hb]
  end.
  injection H as <- <-. cbn [nh_block nh_nr_entries nh_max_entries nh_value_size nh_is_leaf].
  subst. eexists _, _, _. split; [reflexivity|]. repeat split; auto.
Qed.

Lemma nh_unpack_total data : bytes data -> (32 <= length data)%nat ->
  exists h i, nh_unpack data = Ok (h, i).
Proof.
  intros Hb Hl. unfold nh_unpack, p_u32, p_u64.
  repeat match goal with
  | |- context [p_le ?n ?l] =>
      destruct (p_le_cases n l) as [[? ->]|(? & ? & -> & ? & ?)]; [exfalso; lia|]; cbn [bind]
  end. eauto.
Qed.

Lemma nh_unpack_nopanic data : nh_unpack data <> Panic.
Proof.
  unfold nh_unpack, p_u32, p_u64.
  repeat match goal with
  | |- context [p_le ?n ?l] =>
      destruct (p_le_cases n l) as [[? ->]|(? & ? & -> & ? & ?)]; cbn [bind]; try discriminate
  end.
Qed.

(** Words of a block given as a concatenation. *)
Ltac word_at :=
  unfold word32_at, word64_at;
  match goal with |- context [slice (N.to_nat ?k) _ _] =>
    let k' := eval vm_compute in (N.to_nat k) in change (N.to_nat k) with k' end;
  repeat (rewrite slice_skip by (rewrite le_enc_length; lia); rewrite le_enc_length; cbn [Nat.sub]);
  rewrite slice_here by apply le_enc_length;
  rewrite le_dec_enc by (auto; lia); auto.

Lemma header_words data csum flags block nr mx vs pad i :
  data = le_enc 4 csum ++ le_enc 4 flags ++ le_enc 8 block ++ le_enc 4 nr ++
         le_enc 4 mx ++ le_enc 4 vs ++ le_enc 4 pad ++ i ->
  flags < 2 ^ 32 -> block < 2 ^ 64 -> nr < 2 ^ 32 -> mx < 2 ^ 32 -> vs < 2 ^ 32 ->
  word32_at data 4 = flags /\ word64_at data 8 = block /\ word32_at data 16 = nr /\
  word32_at data 20 = mx /\ word32_at data 24 = vs.
Proof. intros -> H1 H2 H3 H4 H5. repeat split; word_at. Qed.

(** ** Soundness of the reader *)
Lemma header_len csum flags block nr mx vs pad (i : list N) :
  length (le_enc 4 csum ++ le_enc 4 flags ++ le_enc 8 block ++ le_enc 4 nr ++
         le_enc 4 mx ++ le_enc 4 vs ++ le_enc 4 pad ++ i) = (32 + length i)%nat.
Proof. rewrite !app_length, !le_enc_length. lia. Qed.

Lemma slice_after_header off len csum flags block nr mx vs pad (i : list N) :
  slice (32 + off) len (le_enc 4 csum ++ le_enc 4 flags ++ le_enc 8 block ++ le_enc 4 nr ++
         le_enc 4 mx ++ le_enc 4 vs ++ le_enc 4 pad ++ i) = slice off len i.
Proof.
  repeat (rewrite slice_skip by (rewrite le_enc_length; lia); rewrite le_enc_length).
  f_equal. lia.
Qed.

Lemma nth_error_nth_N (l : list N) i : (i < length l)%nat -> nth_error l i = Some (nth i l 0).
Proof. intros. apply nth_error_nth'. auto. Qed.

Lemma slice_u64 vs r i : Forall (fun v => v < 2 ^ 64) vs -> (i < length vs)%nat ->
  le_dec (slice (8 * i) 8 (concat (map (le_enc 8) vs) ++ r)) = nth i vs 0.
Proof.
  intros HF Hi.
  pose proof (slice_nth u64_codec _ vs r i (nth i vs 0) u64_lossless HF (nth_error_nth_N _ _ Hi)) as E.
  cbn [csize cpack u64_codec] in E. rewrite E. apply le_dec_enc.
  rewrite Forall_forall in HF. apply (HF (nth i vs 0)). apply nth_In; auto.
Qed.

Lemma unpack_node_sound {V} (c : codec V) range blk ig root n :
  lossless c range -> N.of_nat (csize c) + 8 < 2 ^ 32 -> bytes blk -> nlen blk = 4096 ->
  unpack_node_raw c blk ig root = Ok n ->
  node_layout c range blk n /\ node_wf (negb ig) root n.
Proof.
  intros L Hcs Hb Hlen H. unfold unpack_node_raw in H.
  destruct (nh_unpack blk) as [[h i]| |] eqn:Eh; try discriminate. cbn [bind] in H.
  destruct (nh_is_leaf h && _) eqn:Evs; [discriminate|].
  destruct (N.ltb_spec 4096 ((nh_value_size h + 8) mod W32 * nh_max_entries h + NODE_HEADER_SIZE)) as [|Hfit]; [discriminate|].
  destruct (N.ltb_spec (nh_max_entries h) (nh_nr_entries h)) as [|Hnr]; [discriminate|].
  destruct (negb ig && negb (nh_max_entries h mod 3 =? 0)) eqn:E3; [discriminate|].
  destruct (negb ig && negb root && (nh_nr_entries h <? nh_max_entries h / 3)) eqn:E4; [discriminate|].
  apply nh_unpack_inv in Eh as (csum & flags & pad & Eblk & Hc & Hf & Hbk & Hn & Hm & Hv & Hleaf); auto.
  pose proof (header_words _ _ _ _ _ _ _ _ _ Eblk Hf Hbk Hn Hm Hv) as (W1 & W2 & W3 & W4 & W5).
  assert (bytes i) as Hbi by (rewrite Eblk in Hb; bts; tauto).
  assert (length i = N.to_nat 4064) as Hli.
  { pose proof Hlen as Hl. unfold nlen in Hl. rewrite Eblk, header_len in Hl. lia. }
  change p_u64 with (cunpack u64_codec) in H.
  destruct (p_count (cunpack u64_codec) (N.to_nat (nh_nr_entries h)) i) as [[keys i1]| |] eqn:Ek; try discriminate.
  cbn [bind] in H. destruct (keys_ordered None keys) eqn:Eo; [|discriminate]. cbn [negb] in H.
  destruct (p_count (cunpack u64_codec) (N.to_nat (nh_max_entries h - nh_nr_entries h)) i1) as [[pads i2]| |] eqn:Ep; try discriminate.
  cbn [bind] in H.
  apply (p_count_inv u64_codec _ _ _ _ _ u64_lossless Hbi) in Ek as (-> & Hlk & HFk).
  apply bytes_app in Hbi as [_ Hbi].
  apply (p_count_inv u64_codec _ _ _ _ _ u64_lossless Hbi) in Ep as (-> & Hlp & HFp).
  apply bytes_app in Hbi as [_ Hbi].
  pose proof (concat_pack_length _ _ _ u64_lossless HFk) as Lk.
  pose proof (concat_pack_length _ _ _ u64_lossless HFp) as Lp.
  rewrite !app_length, Lk, Lp in Hli. cbn [csize u64_codec] in *.
  apply keys_ordered_spec in Eo as [Eo _].
  assert (nlen keys = nh_nr_entries h) as Nk by (unfold nlen; lia).
  assert (forall j, j < nh_nr_entries h -> nth (N.to_nat j) keys 0 = word64_at blk (32 + 8 * j)) as Gk.
  { intros j Hj. unfold word64_at. rewrite Eblk.
    replace (N.to_nat (32 + 8 * j)) with (32 + 8 * N.to_nat j)%nat by lia.
    rewrite slice_after_header. symmetry. apply slice_u64; auto. lia. }
  assert (forall n', get_header n' = h -> get_keys (V:=V) n' = keys -> node_wf (negb ig) root n') as Gwf.
  { intros n' Eh' Ek'. unfold node_wf. rewrite Eh', Ek'. repeat split; auto.
    - intros Hs. rewrite Hs in E3. cbn [andb] in E3.
      destruct (N.eqb_spec (nh_max_entries h mod 3) 0); [auto|discriminate].
    - intros Hs Hr. rewrite Hs, Hr in E4. cbn [andb negb] in E4.
      apply N.ltb_ge in E4. auto. }
  assert (forall off len, slice (N.to_nat (32 + 8 * nh_max_entries h) + off) len blk =
                          slice off len i2) as Gv.
  { intros off len. rewrite Eblk.
    replace (N.to_nat (32 + 8 * nh_max_entries h) + off)%nat
       with (32 + (8 * N.to_nat (nh_max_entries h) + off))%nat by lia.
    rewrite slice_after_header.
    rewrite slice_skip by (cbn [cpack u64_codec] in *; lia).
    rewrite slice_skip by (cbn [cpack u64_codec] in *; lia).
    f_equal. cbn [cpack u64_codec] in *. lia. }
  destruct (nh_is_leaf h) eqn:El.
  - destruct (p_count (cunpack c) (N.to_nat (nh_nr_entries h)) i2) as [[vals i3]| |] eqn:Ev; try discriminate.
    cbn [bind] in H. injection H as <-. split; [|apply Gwf; auto].
    cbn [andb negb] in Evs. destruct (N.eqb_spec (nh_value_size h) (N.of_nat (csize c))) as [Ecs|]; [|discriminate].
    assert (i2 = concat (map (cpack c) vals) ++ i3 /\ length vals = N.to_nat (nh_nr_entries h) /\ Forall range vals) as (Ei2 & Hlv & HFv).
    { eapply p_count_inv; eauto. }
    unfold node_layout. cbn [get_header get_keys].
    repeat (split; [first [congruence | solve [auto] | solve [rewrite ?W1, El; auto]]|]).
    split; [unfold nlen; lia|]. split; [auto|]. split.
    { rewrite Ecs in Hfit. unfold W32 in Hfit. change (2 ^ 32) with 4294967296 in *.
      rewrite N.mod_small in Hfit by auto. unfold NODE_HEADER_SIZE in Hfit. lia. }
    intros j v Hj Hv'. split.
    { rewrite Forall_forall in HFv. apply HFv. eapply nth_error_In; eauto. }
    replace (N.to_nat (32 + 8 * nh_max_entries h + N.of_nat (csize c) * j))
      with (N.to_nat (32 + 8 * nh_max_entries h) + csize c * N.to_nat j)%nat by lia.
    rewrite Gv, Ei2. symmetry. eapply slice_nth; eauto.
  - destruct (p_count (cunpack u64_codec) (N.to_nat (nh_nr_entries h)) i2) as [[vals i3]| |] eqn:Ev; try discriminate.
    cbn [bind] in H. injection H as <-. split; [|apply Gwf; auto].
    apply (p_count_inv u64_codec _ _ _ _ _ u64_lossless Hbi) in Ev as (Ei2 & Hlv & HFv).
    pose proof (concat_pack_length _ _ _ u64_lossless HFv) as Lv. cbn [csize u64_codec] in Lv.
    unfold node_layout. cbn [get_header get_keys].
    repeat (split; [first [congruence | solve [auto] | solve [rewrite ?W1, El; auto]]|]).
    split; [unfold nlen; lia|]. split.
    { assert (length i2 = length i2) as E0 by reflexivity. rewrite Ei2 in E0 at 2.
      rewrite app_length, Lv in E0. lia. }
    intros j Hj. unfold word64_at.
    replace (N.to_nat (32 + 8 * nh_max_entries h + 8 * j))
      with (N.to_nat (32 + 8 * nh_max_entries h) + 8 * N.to_nat j)%nat by lia.
    rewrite Gv, Ei2. symmetry. apply slice_u64; auto. lia.
Qed.

(** The layout determines the node. *)
Lemma node_layout_det {V} (c : codec V) range blk n n' :
  lossless c range -> node_layout c range blk n -> node_layout c range blk n' -> n = n'.
Proof.
  intros L. unfold node_layout.
  intros (A1 & A2 & A3 & A4 & A5 & A6 & A7 & A8) (B1 & B2 & B3 & B4 & B5 & B6 & B7 & B8).
  assert (get_header n = get_header n') as Eh.
  { destruct (get_header n), (get_header n'). cbn in *. congruence. }
  rewrite <- Eh in *.
  assert (get_keys n = get_keys n') as Ek.
  { apply nth_ext_eq with 0; [unfold nlen in *; lia|]. intros i.
    destruct (Nat.lt_ge_cases i (length (get_keys n))).
    - replace i with (N.to_nat (N.of_nat i)) by lia.
      rewrite A7, B7 by (unfold nlen in *; lia). auto.
    - rewrite !nth_overflow by (unfold nlen in *; lia). auto. }
  destruct n as [h ks vs|h ks vs], n' as [h' ks' vs'|h' ks' vs']; cbn [get_header get_keys] in *; subst.
  - f_equal. destruct A8 as (_ & A & _ & Ha), B8 as (_ & B & _ & Hb).
    apply nth_ext_eq with 0; [unfold nlen in *; lia|]. intros i.
    destruct (Nat.lt_ge_cases i (length vs)).
    + replace i with (N.to_nat (N.of_nat i)) by lia.
      rewrite Ha, Hb by (unfold nlen in *; lia). auto.
    + rewrite !nth_overflow by (unfold nlen in *; lia). auto.
  - destruct A8, B8. congruence.
  - destruct A8, B8. congruence.
  - f_equal. destruct A8 as (_ & A & _ & _ & Ha), B8 as (_ & B & _ & _ & Hb).
    assert (length vs = length vs') as El by (unfold nlen in *; lia).
    clear A6 A7 B6 B7.
    assert (forall i, nth_error vs i = nth_error vs' i) as G.
    { intros i. destruct (nth_error vs i) as [v|] eqn:E1.
      - assert (i < length vs)%nat as Hi by (apply nth_error_Some; congruence).
        destruct (nth_error vs' i) as [v'|] eqn:E2; [|apply nth_error_None in E2; lia].
        f_equal. destruct (Ha (N.of_nat i) v) as [R1 P1]; [unfold nlen in *; lia|rewrite Nat2N.id; auto|].
        destruct (Hb (N.of_nat i) v') as [R2 P2]; [unfold nlen in *; lia|rewrite Nat2N.id; auto|].
        pose proof (ll_round _ _ L v [] R1) as Q1. pose proof (ll_round _ _ L v' [] R2) as Q2.
        rewrite P1 in Q1. rewrite P2 in Q2. congruence.
      - apply nth_error_None in E1. symmetry. apply nth_error_None. lia. }
    clear -G. revert vs' G. induction vs as [|a vs IH]; intros [|b vs'] G; auto.
    + specialize (G 0%nat). discriminate.
    + specialize (G 0%nat). discriminate.
    + pose proof (G 0%nat) as G0. injection G0 as ->. f_equal. apply IH.
      intros i. apply (G (S i)).
Qed.

Lemma unpack_node_complete {V} (c : codec V) range blk ig root n :
  lossless c range -> N.of_nat (csize c) + 8 < 2 ^ 32 -> bytes blk -> nlen blk = 4096 ->
  node_layout c range blk n -> node_wf (negb ig) root n ->
  unpack_node_raw c blk ig root = Ok n.
Proof.
  intros L Hcs Hb Hlen HL HW.
  assert (exists n', unpack_node_raw c blk ig root = Ok n') as (n' & E).
  { unfold unpack_node_raw.
    destruct (nh_unpack_total blk) as (h & i & Eh); auto; [unfold nlen in *; lia|].
    rewrite Eh. cbn [bind].
    apply nh_unpack_inv in Eh as (csum & flags & pad & Eblk & Hc & Hf & Hbk & Hn & Hm & Hv & Hleaf); auto.
    pose proof (header_words _ _ _ _ _ _ _ _ _ Eblk Hf Hbk Hn Hm Hv) as (W1 & W2 & W3 & W4 & W5).
    destruct HL as (A1 & A2 & A3 & A4 & A5 & A6 & A7 & A8).
    assert (get_header n = h) as Hh.
    { destruct (get_header n), h. cbn in *. congruence. }
    destruct HW as (B1 & B2 & B3 & B4 & B5). rewrite Hh in *.
    assert (bytes i) as Hbi by (rewrite Eblk in Hb; bts; tauto).
    assert (length i = N.to_nat 4064) as Hli.
    { pose proof Hlen as Hl. unfold nlen in Hl. rewrite Eblk, header_len in Hl. lia. }
    replace (nh_is_leaf h && negb (nh_value_size h =? N.of_nat (csize c))) with false.
    2:{ destruct n; destruct A8 as (El & A8); rewrite El; auto.
        destruct A8 as (_ & -> & _). rewrite N.eqb_refl. reflexivity. }
    destruct (N.ltb_spec 4096 ((nh_value_size h + 8) mod W32 * nh_max_entries h + NODE_HEADER_SIZE)) as [Hx|Hfit].
    { unfold NODE_HEADER_SIZE in Hx. change W32 with (2 ^ 32) in Hx. lia. }
    destruct (N.ltb_spec (nh_max_entries h) (nh_nr_entries h)) as [|Hnr]; [lia|].
    replace (negb ig && negb (nh_max_entries h mod 3 =? 0)) with false.
    2:{ destruct ig; auto. rewrite B4 by auto. reflexivity. }
    replace (negb ig && negb root && (nh_nr_entries h <? nh_max_entries h / 3)) with false.
    2:{ destruct ig; auto. destruct root; auto. cbn [negb andb].
        symmetry. apply N.ltb_ge. apply B5; auto. }
    assert (8 * nh_max_entries h + 8 * nh_nr_entries h <= 4064 \/
            (8 * nh_max_entries h <= 4064 /\ nh_is_leaf h = true)) as Hroom.
    { destruct n; [left|right]; destruct A8 as (El & A8); [|split; auto];
        lia. }
    change p_u64 with (cunpack u64_codec).
    destruct (p_count_total u64_codec _ (N.to_nat (nh_nr_entries h)) i u64_lossless Hbi) as (keys & i1 & Ek).
    { cbn [csize u64_codec]. lia. }
    rewrite Ek. cbn [bind].
    apply (p_count_inv u64_codec _ _ _ _ _ u64_lossless Hbi) in Ek as (-> & Hlk & HFk).
    pose proof (concat_pack_length _ _ _ u64_lossless HFk) as Lk.
    assert (keys = get_keys n) as Ekeys.
    { apply nth_ext_eq with 0; [unfold nlen in *; lia|]. intros j.
      destruct (Nat.lt_ge_cases j (length keys)).
      - replace j with (N.to_nat (N.of_nat j)) by lia. rewrite A7 by lia.
        unfold word64_at. rewrite Eblk.
        replace (N.to_nat (32 + 8 * N.of_nat j)) with (32 + 8 * j)%nat by lia.
        rewrite slice_after_header. symmetry. rewrite Nat2N.id. apply slice_u64; auto.
      - rewrite !nth_overflow by (unfold nlen in *; lia). auto. }
    rewrite Ekeys. rewrite (proj2 (keys_ordered_spec (get_keys n) None)) by auto.
    cbn [negb].
    apply bytes_app in Hbi as [_ Hbi]. rewrite !app_length, Lk in Hli. cbn [csize u64_codec] in *.
    destruct (p_count_total u64_codec _ (N.to_nat (nh_max_entries h - nh_nr_entries h)) i1 u64_lossless Hbi) as (pads & i2 & Ep).
    { cbn [csize u64_codec]. lia. }
    rewrite Ep. cbn [bind].
    apply (p_count_inv u64_codec _ _ _ _ _ u64_lossless Hbi) in Ep as (-> & Hlp & HFp).
    pose proof (concat_pack_length _ _ _ u64_lossless HFp) as Lp.
    apply bytes_app in Hbi as [_ Hbi]. rewrite !app_length, Lp in Hli. cbn [csize u64_codec] in *.
    destruct n as [h' ks vs|h' ks vs]; cbn [get_header get_keys] in *; subst h'; destruct A8 as (El & A8); rewrite El.
    - destruct (p_count_total u64_codec _ (N.to_nat (nh_nr_entries h)) i2 u64_lossless Hbi) as (vals & i3 & ->).
      { cbn [csize u64_codec]. lia. }
      cbn [bind]. eauto.
    - destruct (p_count_total c _ (N.to_nat (nh_nr_entries h)) i2 L Hbi) as (vals & i3 & ->).
      { destruct A8 as (_ & _ & A8 & _). nia. }
      cbn [bind]. eauto. }
  rewrite E. f_equal. symmetry.
  apply unpack_node_sound with (range := range) in E as [HL' _]; auto.
  eapply node_layout_det; eauto.
Qed.

Lemma unpack_node_nopanic {V} (c : codec V) range blk ig root :
  lossless c range -> bytes blk -> unpack_node_raw c blk ig root <> Panic.
Proof.
  intros L Hb. unfold unpack_node_raw.
  pose proof (nh_unpack_nopanic blk). destruct (nh_unpack blk) as [[h i]| |] eqn:Eh; cbn [bind]; try discriminate; [|congruence].
  assert (bytes i) as Hbi.
  { apply nh_unpack_inv in Eh as (? & ? & ? & -> & _); auto. bts. tauto. }
  repeat match goal with |- (if ?b then _ else _) <> _ => destruct b; [discriminate|] end.
  assert (forall n i, p_count p_u64 n i <> Panic) as P by (intros; apply p_count_nopanic, p_le_nopanic).
  assert (forall n i, bytes i -> p_count (cunpack c) n i <> Panic) as Pc.
  { clear -L. induction n; intros i Hb; cbn [p_count]; [discriminate|].
    destruct (Nat.lt_ge_cases (length i) (csize c)).
    - rewrite (ll_short _ _ L) by auto. discriminate.
    - destruct (lossless_total c range i L Hb H) as (v & r & E). rewrite E. cbn [bind].
      apply (lossless_inv c range) in E as [_ ->]; auto. apply bytes_app in Hb as [_ Hb].
      specialize (IHn r Hb). destruct (p_count (cunpack c) n r) as [[? ?]| |]; cbn [bind]; congruence. }
  pose proof (P (N.to_nat (nh_nr_entries h)) i).
  destruct (p_count p_u64 (N.to_nat (nh_nr_entries h)) i) as [[keys i1]| |] eqn:Ek; cbn [bind]; try discriminate; [|congruence].
  apply (p_count_inv u64_codec _ _ _ _ _ u64_lossless Hbi) in Ek as (-> & _). apply bytes_app in Hbi as [_ Hbi].
  destruct (negb _); [discriminate|].
  pose proof (P (N.to_nat (nh_max_entries h - nh_nr_entries h)) i1).
  destruct (p_count p_u64 (N.to_nat (nh_max_entries h - nh_nr_entries h)) i1) as [[pads i2]| |] eqn:Ep; cbn [bind]; try discriminate; [|congruence].
  apply (p_count_inv u64_codec _ _ _ _ _ u64_lossless Hbi) in Ep as (-> & _). apply bytes_app in Hbi as [_ Hbi].
  destruct (nh_is_leaf h).
  - pose proof (Pc (N.to_nat (nh_nr_entries h)) i2 Hbi).
    destruct (p_count (cunpack c) (N.to_nat (nh_nr_entries h)) i2) as [[? ?]| |]; cbn [bind]; congruence.
  - pose proof (P (N.to_nat (nh_nr_entries h)) i2).
    destruct (p_count p_u64 (N.to_nat (nh_nr_entries h)) i2) as [[? ?]| |]; cbn [bind]; congruence.
Qed.

(** ** Checksummed blocks *)
Lemma overwrite_spec old l b : overwrite old l = Ok b ->
  b = l ++ skipn (length l) old /\ (length l <= length old)%nat /\ length b = length old.
Proof.
  unfold overwrite. destruct (Nat.leb_spec (length l) (length old)); [|discriminate].
  intros [= <-]. repeat split; auto. rewrite app_length, skipn_length. lia.
Qed.

(** Writing [le_enc 4 x ++ body] over a block and checksumming it. *)
Lemma checksummed_block old x body kind : bytes old -> length old = BLOCK_SIZE -> bytes body ->
  (4 + length body <= BLOCK_SIZE)%nat -> kind <> UNKNOWN ->
  exists s blk, (b <- overwrite old (le_enc 4 x ++ body) ;; write_checksum b kind) = Ok blk /\
    s < 2 ^ 32 /\ blk = le_enc 4 s ++ body ++ skipn (4 + length body) old /\
    metadata_block_type blk = kind /\ bytes blk /\ length blk = BLOCK_SIZE.
Proof.
  intros Hb Hl Hbb Hlen Hk. unfold overwrite.
  assert (length (le_enc 4 x ++ body) = 4 + length body)%nat as EL
    by (rewrite app_length, le_enc_length; auto).
  destruct (Nat.leb_spec (length (le_enc 4 x ++ body)) (length old)); [|lia].
  cbn [bind]. rewrite EL.
  set (b := (le_enc 4 x ++ body) ++ skipn (4 + length body) old).
  assert (bytes b) as Hbytes.
  { unfold b. bts. repeat split; auto. apply le_enc_bytes. apply bytes_skipn; auto. }
  assert (length b = BLOCK_SIZE) as HLb.
  { unfold b. rewrite app_length, EL, skipn_length. lia. }
  destruct (write_checksum b kind) as [blk| |] eqn:E.
  - pose proof (write_checksum_ok _ _ _ Hbytes E) as (H1 & H2 & H3 & H4 & _).
    exists (le_dec (firstn 4 blk)), blk. split; [auto|].
    assert (length (firstn 4 blk) = 4)%nat as H5.
    { apply firstn_length_le. rewrite H3, HLb. apply block_size_4. }
    repeat split; auto; try congruence.
    + apply u32_bound; auto. apply bytes_firstn; auto.
    + rewrite <- (firstn_skipn 4 blk) at 1. f_equal.
      * rewrite <- H5 at 2. symmetry. apply le_enc_dec. apply bytes_firstn; auto.
      * rewrite H2. unfold b. rewrite <- app_assoc.
        rewrite skipn_app, le_enc_length, Nat.sub_diag.
        rewrite skipn_all2 by (rewrite le_enc_length; lia). reflexivity.
  - exfalso. unfold write_checksum in E. rewrite HLb, Nat.eqb_refl in E. cbn [negb] in E.
    destruct kind; cbn in E; try discriminate. congruence.
  - exfalso. unfold write_checksum in E. rewrite HLb, Nat.eqb_refl in E. cbn [negb] in E.
    destruct kind; cbn in E; try discriminate.
Qed.

Lemma concat_le_enc_length n l : length (concat (map (le_enc n) l)) = (n * length l)%nat.
Proof.
  induction l; cbn [map concat length]; [lia|]. rewrite app_length, le_enc_length. lia.
Qed.
Lemma concat_le_enc_bytes n l : bytes (concat (map (le_enc n) l)).
Proof.
  induction l; cbn [map concat]; [apply bytes_nil|]. apply bytes_app; split; auto. apply le_enc_bytes.
Qed.
Lemma zeros_u64 n : Forall (fun v => v < 2 ^ 64) (repeat 0 n).
Proof. induction n; cbn [repeat]; constructor; auto. reflexivity. Qed.

Lemma node_fits_strict {V} (c : codec V) range n root : node_fits c range n ->
  N.of_nat (csize c) + 8 < 2 ^ 32 ->
  (root = false -> nh_max_entries (get_header n) / 3 <= nh_nr_entries (get_header n)) ->
  forall ig, node_wf (negb ig) root n.
Proof.
  intros (H1 & H2 & H3 & H4 & H5 & H6 & H7) Hcs Hroot ig. unfold node_wf.
  repeat split; auto.
  destruct n as [h ks vs|h ks vs]; cbn [get_header] in *.
  - destruct H7 as (_ & _ & _ & -> & H7). change ((8 + 8) mod 2 ^ 32) with 16. auto.
  - destruct H7 as (_ & _ & _ & -> & H7). rewrite N.mod_small by auto. lia.
Qed.

Lemma node_block_roundtrip {V} (c : codec V) range old n : lossless c range ->
  N.of_nat (csize c) + 8 < 2 ^ 32 -> bytes old -> nlen old = 4096 -> node_fits c range n ->
  exists blk, node_block c old n = Ok blk /\ bytes blk /\ nlen blk = 4096 /\
    metadata_block_type blk = NODE /\
    forall ig root,
      (ig = false -> root = false ->
         nh_max_entries (get_header n) / 3 <= nh_nr_entries (get_header n)) ->
      check_and_unpack_node c (mkblock (nh_block (get_header n)) blk) ig root = Ok n.
Proof.
  intros L Hcs Hbo Hlo Hfit. pose proof Hfit as (H1 & H2 & H3 & H4 & H5 & H6 & H7).
  set (h := get_header n) in *.
  set (vals := match n with Internal _ _ vs => concat (map (le_enc 8) vs)
                          | Leaf _ _ vs => concat (map (cpack c) vs) end).
  set (pads := repeat 0 (N.to_nat (nh_max_entries h) - length (get_keys n))).
  set (body := le_enc 4 (if nh_is_leaf h then LEAF_NODE else INTERNAL_NODE) ++
               le_enc 8 (nh_block h) ++ le_enc 4 (nh_nr_entries h) ++ le_enc 4 (nh_max_entries h) ++
               le_enc 4 (nh_value_size h) ++ le_enc 4 0 ++
               concat (map (le_enc 8) (get_keys n)) ++ concat (map (le_enc 8) pads) ++ vals).
  assert (pack_node c n = le_enc 4 0 ++ body) as Epack.
  { unfold body, vals, pads, h, pack_node, nh_pack. destruct n; cbn [get_header get_keys];
      rewrite <- !app_assoc; reflexivity. }
  assert (length pads = N.to_nat (nh_max_entries h - nh_nr_entries h)) as Lpads.
  { unfold pads. rewrite repeat_length. unfold nlen in H2. lia. }
  assert (bytes vals /\ (32 + 8 * N.to_nat (nh_max_entries h) + length vals <= BLOCK_SIZE)%nat) as [Hbv Hlv].
  { unfold vals, BLOCK_SIZE. destruct n as [h' ks vs|h' ks vs]; cbn [get_header get_keys] in *; subst h.
    - destruct H7 as (_ & E2 & E3 & E4 & E5). split; [apply concat_le_enc_bytes|].
      rewrite concat_le_enc_length. unfold nlen in *. lia.
    - destruct H7 as (_ & E2 & E3 & E4 & E5). split; [eapply concat_pack_bytes; eauto|].
      rewrite (concat_pack_length c range) by auto. unfold nlen in *.
      assert (csize c * length vs <= csize c * N.to_nat (nh_max_entries h'))%nat
        by (apply Nat.mul_le_mono_l; lia). nia. }
  assert (bytes body) as Hbb.
  { unfold body. bts. repeat split; auto; first [apply le_enc_bytes | apply concat_le_enc_bytes]. }
  assert (length body = 28 + 8 * N.to_nat (nh_max_entries h) + length vals)%nat as Hlb.
  { unfold body. rewrite !app_length, !concat_le_enc_length, !le_enc_length, Lpads.
    unfold nlen in *. lia. }
  destruct (checksummed_block old 0 body NODE Hbo) as (s & blk & E & Hs & Eblk & Ht & Hbb' & Hl'); auto.
  { unfold nlen, BLOCK_SIZE in *. lia. }
  { unfold BLOCK_SIZE in *. lia. }
  { discriminate. }
  exists blk. assert (nlen blk = 4096) as Nl by (unfold nlen, BLOCK_SIZE in *; lia).
  split; [unfold node_block; rewrite Epack; exact E|]. repeat split; auto.
  intros ig root Hmin. unfold check_and_unpack_node. cbn [b_data b_loc]. rewrite Ht.
  enough (unpack_node_raw c blk ig root = Ok n) as ->.
  { cbn [bind]. fold h. rewrite N.eqb_refl. reflexivity. }
  assert (node_wf (negb ig) root n) as Hwf.
  { destruct ig.
    - pose proof (node_fits_strict c range n true Hfit Hcs) as G.
      destruct (G (fun E => ltac:(discriminate E)) true) as (G1 & G2 & G3 & _).
      unfold node_wf. repeat split; auto; discriminate.
    - apply (node_fits_strict c range n root Hfit Hcs); auto. }
  (* parse directly *)
  assert (exists h' i, nh_unpack blk = Ok (h', i)) as (h' & i & Eh).
  { apply nh_unpack_total; auto. unfold nlen in Nl. lia. }
  unfold unpack_node_raw.
  assert (nh_unpack blk = Ok (h, concat (map (le_enc 8) (get_keys n)) ++ concat (map (le_enc 8) pads) ++ vals ++ skipn (4 + length body) old)) as Eh2.
  { assert (nh_nr_entries h < 2 ^ 32 /\ nh_max_entries h < 2 ^ 32 /\ nh_value_size h < 2 ^ 32) as (B1 & B2 & B3).
    { change (2 ^ 32) with 4294967296 in *.
      destruct n as [h0 ks vs|h0 ks vs]; cbn [get_header] in *; destruct H7 as (_ & _ & _ & -> & H7); lia. }
    clear Eh. rewrite Eblk. unfold body, nh_unpack. rewrite <- !app_assoc. rewrite p_u32_app by auto. cbn [bind].
    rewrite p_u32_app by (destruct (nh_is_leaf h); reflexivity). cbn [bind].
    rewrite p_u64_app by auto. cbn [bind].
    do 3 (rewrite p_u32_app by auto; cbn [bind]). rewrite p_u32_app by reflexivity. cbn [bind].
    replace ((if nh_is_leaf h then LEAF_NODE else INTERNAL_NODE) =? LEAF_NODE) with (nh_is_leaf h)
      by (destruct (nh_is_leaf h); reflexivity).
    destruct h; reflexivity. }
  rewrite Eh2. cbn [bind].
  destruct Hwf as (_ & W2 & W3 & W4 & W5). fold h in W2, W3, W4, W5.
  replace (nh_is_leaf h && negb (nh_value_size h =? N.of_nat (csize c))) with false.
  2:{ destruct n; destruct H7 as (-> & _ & _ & -> & _); cbn [andb]; auto.
      rewrite N.eqb_refl. reflexivity. }
  change W32 with (2 ^ 32). unfold NODE_HEADER_SIZE.
  destruct (N.ltb_spec 4096 ((nh_value_size h + 8) mod 2 ^ 32 * nh_max_entries h + 32)) as [Hx|_]; [lia|].
  destruct (N.ltb_spec (nh_max_entries h) (nh_nr_entries h)) as [|_]; [lia|].
  rewrite H6. rewrite andb_false_r.
  replace (negb ig && negb root && (nh_nr_entries h <? nh_max_entries h / 3)) with false.
  2:{ destruct ig; auto. destruct root; auto. cbn [negb andb].
      symmetry. apply N.ltb_ge. apply W5; auto. }
  replace (N.to_nat (nh_nr_entries h)) with (length (get_keys n)) by (unfold nlen in H2; lia).
  assert (forall a r, a < 2 ^ 64 -> p_u64 (le_enc 8 a ++ r) = Ok (a, r)) as P64 by (intros; apply p_u64_app; auto).
  rewrite (p_count_app p_u64 (le_enc 8) _ P64) by auto. cbn [bind].
  rewrite (proj2 (keys_ordered_spec (get_keys n) None)) by auto. cbn [negb].
  rewrite <- Lpads. rewrite (p_count_app p_u64 (le_enc 8) _ P64) by (unfold pads; apply zeros_u64). cbn [bind].
  unfold vals, h in *. destruct n as [h0 ks vs|h0 ks vs]; cbn [get_header get_keys] in *;
    destruct H7 as (-> & E2 & E3 & E4 & E5).
  - replace (length ks) with (length vs) by (unfold nlen in *; lia).
    rewrite (p_count_app p_u64 (le_enc 8) _ P64) by auto. reflexivity.
  - replace (length ks) with (length vs) by (unfold nlen in *; lia).
    rewrite (p_count_app (cunpack c) (cpack c) range) by (auto; intros; apply (ll_round _ _ L); auto). reflexivity.
Qed.
