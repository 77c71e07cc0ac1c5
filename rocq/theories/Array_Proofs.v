From Coq Require Import Permutation.
From Verif Require Import Base Csum_Model Csum_Proofs Codec_Model Codec_Spec Codec_Proofs NodeCodec_Proofs
  SpaceMap_Model SpaceMap_Spec SpaceMap_Proofs Io_Proofs IoMany_Proofs Utils_Model Utils_Proofs Batcher_Model Batcher_Spec Batcher_Proofs
  Builder_Model Builder_Spec Builder_Proofs NodeBuilder_Proofs BtreeBuild_Proofs Array_Model Array_Spec.

Arguments write_checksum : simpl never.

(** ** Growing the set of used blocks *)
(** The step from [w] to [w'] took the blocks [l], which were free, and left the used
    blocks alone. *)
Record grew (n max : N) (w w' : wb) (l : list N) : Prop := {
  gr_env : env n max w';
  gr_cnt : forall x, cnt w' x = cnt w x + occ x l;
  gr_free : forall x, In x l -> cnt w x = 0 /\ x < n;
  gr_nodup : NoDup l;
  gr_frame : forall x, 0 < cnt w x -> wb_view w' x = wb_view w x;
  gr_base : wb_base w' = wb_base w }.

Lemma grew_refl n max w : env n max w -> grew n max w w [].
Proof. intros. constructor; auto; [intros; cbn; lia|intros ? []|constructor]. Qed.
Lemma grew_trans n max w1 w2 w3 l m : grew n max w1 w2 l -> grew n max w2 w3 m -> grew n max w1 w3 (l ++ m).
Proof.
  intros [A1 A2 A3 A4 A5 A6] [B1 B2 B3 B4 B5 B6]. constructor; auto.
  - intros x. rewrite B2, A2, occ_app. lia.
  - intros x Hx. apply in_app_or in Hx as [Hx|Hx]; auto. destruct (B3 x Hx) as [H ?]. rewrite A2 in H. split; [lia|auto].
  - apply NoDup_app_iff_local. conj; auto. intros x Hx Hm. destruct (B3 x Hm) as [H _]. rewrite A2 in H.
    apply occ_in in Hx. lia.
  - intros x Hx. rewrite B5; [auto|rewrite A2; lia].
  - congruence.
Qed.
Lemma grew_cnt n max w w' l x : grew n max w w' l -> 0 < cnt w x -> 0 < cnt w' x.
Proof. intros H Hx. rewrite (gr_cnt _ _ _ _ _ H). lia. Qed.

(** ** One array block *)
Lemma array_per_fits {V} (c : codec V) : (0 < csize c)%nat -> N.of_nat (csize c) * array_per c + 24 <= 4096.
Proof. intros Hc. unfold array_per. pose proof (N.mul_div_le (4096 - 24) (N.of_nat (csize c)) ltac:(lia)). lia. Qed.
Lemma array_per_pos {V} (c : codec V) : (0 < csize c <= 4072)%nat -> 0 < array_per c.
Proof. intros Hc. unfold array_per. apply N.div_str_pos. lia. Qed.

Lemma array_block_roundtrip {V} (c : codec V) rg old b vs : lossless c rg -> (0 < csize c <= 4072)%nat ->
  bytes old -> nlen old = 4096 -> b < 2 ^ 64 -> nlen vs <= array_per c -> Forall rg vs ->
  let h := mkah (array_per c) (nlen vs) (N.of_nat (csize c)) b in
  exists data blk, overwrite old (pack_array_block c (mkab h vs)) = Ok data /\ write_checksum data ARRAY = Ok blk /\
    bytes blk /\ nlen blk = 4096 /\ metadata_block_type blk = ARRAY /\ unpack_array_block c blk = Ok (mkab h vs).
Proof.
  intros L Hc Hbo Hlo Hb Hn Hr h. pose proof (array_per_fits c ltac:(lia)) as Hfit.
  assert (Hlen : length (pack_array_block c (mkab h vs)) = (24 + csize c * length vs)%nat).
  { unfold pack_array_block, ah_pack. cbn [ab_hdr ab_values]. rewrite !app_length, !le_enc_length, (concat_pack_length c rg) by auto. lia. }
  assert (Hbp : bytes (pack_array_block c (mkab h vs))).
  { unfold pack_array_block, ah_pack. rewrite !bytes_app. conj; try apply le_enc_bytes. eapply concat_pack_bytes; eauto. }
  assert (Hfl : (24 + csize c * length vs <= 4096)%nat). { unfold nlen in *. nia. }
  unfold nlen in Hlo.
  assert (Ho : overwrite old (pack_array_block c (mkab h vs)) = Ok (pack_array_block c (mkab h vs) ++ skipn (24 + csize c * length vs) old)).
  { unfold overwrite. rewrite Hlen. destruct (Nat.leb_spec (24 + csize c * length vs)%nat (length old)); [auto|lia]. }
  set (data := pack_array_block c (mkab h vs) ++ skipn (24 + csize c * length vs) old) in *.
  assert (Hld : length data = 4096%nat). { unfold data. rewrite app_length, skipn_length, Hlen. lia. }
  assert (Hbd : bytes data). { unfold data. apply bytes_app. split; auto. apply bytes_skipn. auto. }
  destruct (proj2 (write_checksum_total data ARRAY)) as [blk Hblk]. { split; [rewrite Hld; reflexivity|discriminate]. }
  exists data, blk. destruct (write_checksum_ok _ _ _ Hbd Hblk) as (K1 & K2 & K3 & K4 & _).
  conj; auto. { unfold nlen. rewrite K3, Hld. reflexivity. }
  assert (Hsk : skipn 4 blk = le_enc 4 (array_per c) ++ le_enc 4 (nlen vs) ++ le_enc 4 (N.of_nat (csize c)) ++ le_enc 8 b ++
                 concat (map (cpack c) vs) ++ skipn (24 + csize c * length vs) old).
  { rewrite K2. unfold data, pack_array_block, ah_pack, h. cbn [ab_hdr ab_values ah_max ah_nr ah_size ah_block].
    rewrite <- !app_assoc. apply skipn_exact. apply le_enc_length. }
  assert (Hfst : exists v, blk = le_enc 4 v ++ skipn 4 blk /\ v < 2 ^ 32).
  { exists (le_dec (firstn 4 blk)). split.
    - rewrite <- (firstn_skipn 4 blk) at 1. f_equal. symmetry.
      assert (length (firstn 4 blk) = 4%nat) as E4 by (rewrite firstn_length, K3, Hld; reflexivity).
      rewrite <- E4 at 1. apply le_enc_dec. apply bytes_firstn. auto.
    - apply u32_bound; [apply bytes_firstn; auto|rewrite firstn_length, K3, Hld; reflexivity]. }
  destruct Hfst as (v & Hv & Hv32). rewrite Hv, Hsk. unfold unpack_array_block, ah_unpack.
  assert (array_per c <= 4096 /\ nlen vs <= 4096 /\ N.of_nat (csize c) <= 4096) as (Q1 & Q2 & Q3) by nia.
  rewrite p_u32_app by auto. cbn [bind].
  rewrite p_u32_app by (change (2 ^ 32) with 4294967296; lia). cbn [bind].
  rewrite p_u32_app by (change (2 ^ 32) with 4294967296; lia). cbn [bind].
  rewrite p_u32_app by (change (2 ^ 32) with 4294967296; lia). cbn [bind].
  rewrite p_u64_app by auto. cbn [bind ah_max ah_nr ah_size ah_block].
  rewrite N.eqb_refl. cbn [negb].
  rewrite N.mod_small by (unfold W32; lia).
  destruct (N.ltb_spec 4096 (N.of_nat (csize c) * array_per c + 24)); [lia|].
  destruct (N.ltb_spec (array_per c) (nlen vs)); [lia|].
  unfold nlen at 1. rewrite Nat2N.id. rewrite (p_count_app (cunpack c) (cpack c) rg); auto.
  intros a r Ha. apply (ll_round _ _ L). auto.
Qed.

Lemma lt_div_up j nr p : 0 < p -> (j < div_up nr p <-> j * p < nr).
Proof.
  intros Hp. unfold div_up. split; intros H.
  - assert (j + 1 <= (nr + (p - 1)) / p) as H1 by lia.
    pose proof (N.mul_div_le (nr + (p - 1)) p ltac:(lia)). nia.
  - assert (j + 1 <= (nr + (p - 1)) / p); [|lia]. apply N.div_le_lower_bound; lia.
Qed.
Lemma snoc_range j : range 0 (j + 1) = range 0 j ++ [j].
Proof. rewrite (range_app 0 j (j + 1)) by lia. rewrite (range_cons j) by lia. rewrite (range_nil (j + 1) (j + 1)) by lia. auto. Qed.
Lemma nlen_snoc {A} (l : list A) x : nlen (l ++ [x]) = nlen l + 1.
Proof. unfold nlen. rewrite app_length. cbn. lia. Qed.
Lemma map_const_repeat {A B} (d : B) (l : list A) : map (fun _ => d) l = repeat d (length l).
Proof. induction l; cbn; congruence. Qed.

Section Build.
Variables n max : N.
Hypothesis Hn64 : n < 2 ^ 64.
Context {V : Type}.
Variable c : codec V.
Variable rg : V -> Prop.
Variable dflt : V.
Hypothesis L : lossless c rg.
Hypothesis Hcs : (0 < csize c <= 4072)%nat.
Hypothesis Hd : rg dflt.
Notation per := (array_per c).

Lemma write_array_block_wp vs w : env n max w -> nlen vs <= per -> Forall rg vs ->
  wp (write_array_block c vs) w
     (fun w' b => grew n max w w' [b] /\ array_block_at c (wb_view w') b vs)
     (full n).
Proof.
  intros [Hinv Hgood Hjunk] Hlen Hr. unfold write_array_block. apply wp_bind. unfold wp, wb_alloc, bindst.
  destruct (wb_alloc_loc w) as [w1 r1] eqn:E1. apply (wb_alloc_loc_spec n max) in E1; [|apply Hinv].
  destruct E1 as (I1 & Eb & El & Eg & Eba & Eq & Ej & [(loc & -> & Hloc & H0 & Hc & _)|(-> & Hfull & Hsm & _)]).
  2:{ intros x Hx. unfold cnt. rewrite Hsm. apply Hfull; auto. }
  cbn [b_loc b_data].
  destruct (array_block_roundtrip c rg (wb_junk w1 loc) loc vs L Hcs) as (data & blk & Ho & Hw & B1 & B2 & B3 & B4); auto; try lia.
  { rewrite Ej. apply Hjunk. } { rewrite Ej. apply Hjunk. }
  unfold lift. rewrite Ho.
  destruct (wb_write (mkblock loc data) ARRAY w1) as [w2 r2] eqn:E2.
  apply wb_write_spec in E2; [|rewrite Eg; auto|rewrite Eg, Eq; apply Hinv].
  destruct E2 as (C1 & C2 & C3 & C4 & C5 & C6 & C7 & C8). rewrite Hw in C8. destruct C8 as (-> & Hview & _).
  assert (Hv1 : forall x, wb_view w1 x = wb_view w x).
  { intros x. unfold wb_view, wb_disk. rewrite Eb, El, Eg, Eq. auto. }
  cbn [ret fst snd]. split.
  - constructor.
    + constructor.
      * constructor; [rewrite C3; auto|auto].
      * rewrite C2, Eg. auto.
      * rewrite C6, Ej. auto.
    + intros x. unfold cnt. rewrite C3, Hc, upd_spec. cbn [occ]. destruct (N.eqb_spec x loc) as [->|]; [rewrite H0; lia|lia].
    + intros x [<-|[]]. auto.
    + repeat constructor; auto.
    + intros x Hx. rewrite Hview. destruct (N.eqb_spec x loc) as [->|]; [unfold cnt in Hx; lia|auto].
    + congruence.
  - assert (wb_view w2 loc = blk) as Ev. { rewrite Hview, N.eqb_refl. auto. }
    unfold array_block_at. rewrite Ev. conj; auto.
Qed.

Lemma array_block_ext d d' b vs : d' b = d b -> array_block_at c d b vs -> array_block_at c d' b vs.
Proof. unfold array_block_at. intros ->. auto. Qed.

(** ** The builder *)
(** Entries written so far. *)
Definition pos (a : abuilder V) : N := nlen (abb_blocks a) * per + nlen (abb_values a).
Definition cap_of (nr j : N) : N := N.min (nr - j * per) per.
Record AInv (nr : N) (w : wb) (a : abuilder V) (kvs : list (N * V)) : Prop := {
  ai_nr : abb_nr a = nr;
  ai_nblocks : abb_nblocks a = div_up nr per;
  ai_cap : abb_cap a = cap_of nr (nlen (abb_blocks a));
  ai_len : nlen (abb_values a) <= abb_cap a;
  ai_blocks : nlen (abb_blocks a) <= div_up nr per;
  ai_used : forall b, In b (abb_blocks a) -> 0 < cnt w b /\ b < n;
  ai_nodup : NoDup (abb_blocks a);
  ai_held : Forall2 (array_block_at c (wb_view w)) (abb_blocks a)
     (map (fun j => map (value_at dflt kvs) (range (j * per) (j * per + cap_of nr j))) (range 0 (nlen (abb_blocks a))));
  ai_vals : abb_values a = map (value_at dflt kvs) (range (nlen (abb_blocks a) * per) (pos a));
  ai_keys : increasing (map fst kvs) /\ Forall (fun kv => fst kv < pos a /\ fst kv < nr /\ rg (snd kv)) kvs }.

Lemma per_pos : 0 < per. Proof. apply array_per_pos. auto. Qed.

Lemma AInv_new nr w : nr + per <= 2 ^ 64 -> AInv nr w (abb_new c nr) [].
Proof.
  intros Hnr. unfold abb_new. constructor; cbn [abb_nr abb_nblocks abb_blocks abb_cap abb_values]; auto.
  - unfold div_up_u64, div_up. pose proof per_pos. rewrite N.mod_small; auto. unfold W64. lia.
  - unfold cap_of, nlen. cbn [length N.of_nat]. rewrite N.mul_0_l, N.sub_0_r. auto.
  - unfold nlen. cbn. lia.
  - unfold nlen. cbn. lia.
  - intros ? [].
  - constructor.
  - constructor.
  - split; constructor.
Qed.

(** Other users of the device do not disturb the builder. *)
Lemma AInv_stable nr w w' l a kvs : AInv nr w a kvs -> grew n max w w' l -> AInv nr w' a kvs.
Proof.
  intros [A1 A2 A3 A4 A5 A6 A7 A8 A9 A10] G. constructor; auto.
  - intros b Hb. destruct (A6 b Hb). split; auto. eapply grew_cnt; eauto.
  - eapply Forall2_impl_in; [|exact A8]. intros b vs Hb H. eapply array_block_ext; [|exact H].
    apply (gr_frame _ _ _ _ _ G). apply A6. auto.
Qed.

Lemma value_at_rg kvs i : Forall (fun kv => rg (snd kv)) kvs -> rg (value_at dflt kvs i).
Proof.
  intros H. unfold value_at. induction H as [|[k v] r Hv Hr IH]; cbn [assoc]; auto. cbn in Hv. destruct (i =? k); auto.
Qed.
Lemma value_at_beyond kvs i b : Forall (fun kv => fst kv < b) kvs -> b <= i -> value_at dflt kvs i = dflt.
Proof.
  intros H Hi. unfold value_at. induction H as [|[k v] r Hv Hr IH]; cbn [assoc]; auto. cbn in Hv.
  destruct (N.eqb_spec i k); [lia|auto].
Qed.
Lemma map_beyond kvs b lo hi : Forall (fun kv => fst kv < b) kvs -> b <= lo ->
  map (value_at dflt kvs) (range lo hi) = repeat dflt (N.to_nat (hi - lo)).
Proof.
  intros H Hi. rewrite <- range_length. rewrite <- (map_const_repeat dflt). apply map_ext_in. intros x Hx. apply in_range in Hx. eapply value_at_beyond; eauto. lia.
Qed.

Lemma cap_next nr j : (if j <? div_up nr per - 1 then N.min (nr - (j + 1) * per) per else 0) = cap_of nr (j + 1).
Proof.
  pose proof per_pos. pose proof (lt_div_up (j + 1) nr per ltac:(lia)). unfold cap_of.
  destruct (N.ltb_spec j (div_up nr per - 1)); auto.
  assert (nr <= (j + 1) * per).
  { apply N.nlt_ge. intros Hx. apply H0 in Hx. lia. }
  replace (nr - (j + 1) * per) with 0 by lia. symmetry. apply N.min_0_l.
Qed.

Lemma kvs_below nr w a kvs : AInv nr w a kvs -> Forall (fun kv => fst kv < pos a) kvs.
Proof. intros H. eapply Forall_impl; [|apply (ai_keys _ _ _ _ H)]. tauto. Qed.
Lemma kvs_rg nr w a kvs : AInv nr w a kvs -> Forall (fun kv => rg (snd kv)) kvs.
Proof. intros H. eapply Forall_impl; [|apply (ai_keys _ _ _ _ H)]. tauto. Qed.
Lemma resized nr w a kvs k : AInv nr w a kvs -> nlen (abb_values a) <= k ->
  resize dflt (abb_values a) k = map (value_at dflt kvs) (range (nlen (abb_blocks a) * per) (nlen (abb_blocks a) * per + k)).
Proof.
  intros H Hk. pose proof (kvs_below _ _ _ _ H) as Hb. unfold resize.
  rewrite firstn_all2 by (unfold nlen in *; lia). rewrite (ai_vals _ _ _ _ H) at 1. unfold pos in *.
  rewrite (range_app (nlen (abb_blocks a) * per) (nlen (abb_blocks a) * per + nlen (abb_values a)) (nlen (abb_blocks a) * per + k)) by lia.
  rewrite map_app. f_equal. symmetry. erewrite map_beyond; [|exact Hb|unfold pos; lia]. f_equal. unfold nlen. lia.
Qed.

Lemma emit_block_wp nr w a kvs : AInv nr w a kvs -> env n max w -> nlen (abb_blocks a) < div_up nr per ->
  wp (emit_block c dflt a) w
     (fun w' a' => exists b, grew n max w w' [b] /\ AInv nr w' a' kvs /\ abb_blocks a' = abb_blocks a ++ [b] /\ abb_values a' = [] /\ pos a <= pos a')
     (full n).
Proof.
  intros H He Hlt. pose proof H as [A1 A2 A3 A4 A5 A6 A7 A8 A9 A10]. unfold emit_block. apply wp_bind.
  set (cur := nlen (abb_blocks a)) in *. pose proof per_pos as Hp.
  assert (Hres : resize dflt (abb_values a) (abb_cap a) = map (value_at dflt kvs) (range (cur * per) (cur * per + cap_of nr cur))).
  { rewrite <- A3. eapply resized; eauto. }
  eapply wp_mono; [apply write_array_block_wp; auto| |auto].
  - rewrite Hres. unfold nlen. rewrite map_length, range_length. unfold cap_of. lia.
  - rewrite Hres. apply Forall_forall. intros v Hv. apply in_map_iff in Hv as (i & <- & _). apply value_at_rg. eapply kvs_rg; eauto.
  - intros w' b [G Hb]. apply wp_ret. exists b. rewrite Hres in Hb.
    assert (Hpos : pos a <= (cur + 1) * per).
    { unfold pos. fold cur. unfold cap_of in A3. nia. }
    conj; auto; [|unfold pos at 2; cbn [abb_blocks abb_values nlen length N.of_nat]; rewrite nlen_snoc; fold cur; unfold nlen; cbn; lia].
    constructor; cbn [abb_nr abb_nblocks abb_blocks abb_cap abb_values]; auto.
    + rewrite nlen_snoc, A1, A2. fold cur. apply cap_next.
    + unfold nlen. cbn. lia.
    + rewrite nlen_snoc. fold cur. lia.
    + intros x Hx. apply in_app_or in Hx as [Hx|[<-|[]]].
      * destruct (A6 x Hx). split; auto. eapply grew_cnt; eauto.
      * split; [|apply (gr_free _ _ _ _ _ G); left; auto]. rewrite (gr_cnt _ _ _ _ _ G). cbn [occ]. rewrite N.eqb_refl. lia.
    + apply NoDup_app_iff_local. conj; auto; [repeat constructor; auto|]. intros x Hx [<-|[]].
      destruct (A6 _ Hx) as [Hc _]. pose proof (proj1 (gr_free _ _ _ _ _ G b (or_introl eq_refl))). lia.
    + rewrite nlen_snoc. fold cur. rewrite snoc_range, map_app. apply Forall2_app.
      * apply (ai_held _ _ _ _ (AInv_stable _ _ _ _ _ _ H G)).
      * constructor; [exact Hb|constructor].
    + unfold pos. cbn [abb_blocks abb_values]. rewrite range_nil; [auto|unfold nlen; cbn; lia].
    + destruct A10 as [K1 K2]. split; auto. eapply Forall_impl; [|exact K2]. intros kv (I1 & I2 & I3). conj; auto.
      unfold pos. cbn [abb_blocks abb_values]. rewrite nlen_snoc. fold cur. unfold nlen. cbn [length]. lia.
Qed.

Lemma emit_blocks_wp nr kvs : forall k w a, AInv nr w a kvs -> env n max w -> nlen (abb_blocks a) + N.of_nat k <= div_up nr per ->
  wp (emit_blocks c dflt k a) w
     (fun w' a' => exists l, grew n max w w' l /\ AInv nr w' a' kvs /\ abb_blocks a' = abb_blocks a ++ l /\ length l = k /\ ((k = O)%nat -> a' = a) /\ ((k <> O)%nat -> abb_values a' = []) /\ pos a <= pos a')
     (full n).
Proof.
  induction k as [|k IH]; intros w a H He Hk; cbn [emit_blocks].
  - apply wp_ret. exists []. conj; auto; [apply grew_refl; auto|rewrite app_nil_r; auto|congruence|lia].
  - apply wp_bind. eapply wp_mono; [apply (emit_block_wp nr w a kvs); [auto|auto|clear - Hk; lia]| |auto].
    intros w1 a1 (b & G1 & I1 & B1 & V1 & P1). eapply wp_mono; [apply IH; auto| |auto].
    + apply G1.
    + rewrite B1, nlen_snoc. lia.
    + intros w2 a2 (l & G2 & I2 & B2 & L2 & Z2 & V2 & P2). exists (b :: l). conj; auto; try congruence.
      * apply (grew_trans _ _ _ _ _ [b] l G1 G2).
      * rewrite B2, B1, <- app_assoc. auto.
      * cbn. lia.
      * intros _. destruct k as [|k]; [rewrite Z2 by auto; auto|apply V2; discriminate].
      * lia.
Qed.

Lemma value_at_snoc kvs k v i : value_at dflt (kvs ++ [(k, v)]) i =
  match assoc kvs i with Some u => u | None => if i =? k then v else dflt end.
Proof.
  unfold value_at. induction kvs as [|[k' v'] r IH]; cbn [assoc app]; [destruct (i =? k); auto|].
  destruct (i =? k'); auto.
Qed.
Lemma value_at_snoc_lt kvs k v i : i <> k -> value_at dflt (kvs ++ [(k, v)]) i = value_at dflt kvs i.
Proof. intros Hi. rewrite value_at_snoc. unfold value_at. destruct (N.eqb_spec i k); [lia|auto]. Qed.
Lemma value_at_snoc_eq kvs k v b : Forall (fun kv => fst kv < b) kvs -> b <= k -> value_at dflt (kvs ++ [(k, v)]) k = v.
Proof.
  intros H Hb. rewrite value_at_snoc, N.eqb_refl.
  induction H as [|[k' v'] r Hk Hr IH]; cbn [assoc]; auto. cbn in Hk. destruct (N.eqb_spec k k'); [lia|auto].
Qed.

(** Pushing fails only for an index out of range or not above the last one, or because
    the device is full. *)
Lemma push_wp nr w a kvs k v : AInv nr w a kvs -> env n max w -> rg v ->
  (pos a = match rev kvs with [] => 0 | (k', _) :: _ => k' + 1 end) ->
  wp (abb_push c dflt k v a) w
     (fun w' a' => exists l, grew n max w w' l /\ AInv nr w' a' (kvs ++ [(k, v)]) /\ abb_blocks a' = abb_blocks a ++ l /\ pos a' = k + 1)
     (fun w' => full n w' \/ nr <= k \/ k < pos a).
Proof.
  intros H He Hv Hpos. unfold abb_push. rewrite (ai_nr _ _ _ _ H).
  destruct (N.leb_spec nr k) as [Hk|Hk]; [cbn; auto|].
  pose proof per_pos as Hp. pose proof (N.div_mod k per ltac:(lia)) as Hdm. pose proof (N.mod_lt k per ltac:(lia)) as Hmod.
  set (bi := k / per) in *. set (i := k mod per) in *.
  assert (Hbi : bi < div_up nr per). { apply lt_div_up; auto. nia. }
  apply wp_bind. eapply wp_mono; [apply (emit_blocks_wp nr kvs); auto| |auto].
  { pose proof (ai_blocks _ _ _ _ H). lia. }
  intros w1 a1 (l & G & I & B & Ln & Z & Vn & P).
  assert (Hnb : nlen (abb_blocks a1) = N.max (nlen (abb_blocks a)) bi).
  { rewrite B. unfold nlen in *. rewrite app_length. lia. }
  destruct (N.ltb_spec bi (nlen (abb_blocks a1))) as [Hb1|Hb1]; cbn [orb].
  { right. right. assert (length l = O) as L0 by lia. rewrite L0 in *. 
    rewrite <- (Z ltac:(lia)). unfold pos. nia. }
  destruct (N.ltb_spec i (nlen (abb_values a1))) as [Hi1|Hi1].
  { right. right. destruct (Nat.eq_dec (length l) O) as [L0|L0].
    - rewrite L0 in *. rewrite <- (Z ltac:(lia)). unfold pos. replace (nlen (abb_blocks a1)) with bi by lia. nia.
    - rewrite Vn in Hi1 by lia. cbn in Hi1. lia. }
  assert (Hbe : nlen (abb_blocks a1) = bi) by lia.
  apply wp_ret. pose proof I as [A1 A2 A3 A4 A5 A6 A7 A8 A9 A10].
  set (vs := if nlen (abb_values a1) <? i then resize dflt (abb_values a1) i else abb_values a1).
  assert (Hvs : vs = map (value_at dflt kvs) (range (bi * per) k)).
  { unfold vs. destruct (N.ltb_spec (nlen (abb_values a1)) i).
    - rewrite (resized _ _ _ _ _ I) by lia. rewrite Hbe. f_equal. f_equal. nia.
    - rewrite A9. unfold pos. rewrite Hbe. f_equal. f_equal. nia. }
  assert (Hlv : nlen (vs ++ [v]) = i + 1).
  { rewrite nlen_snoc, Hvs. unfold nlen. rewrite map_length, range_length. nia. }
  pose proof (kvs_below _ _ _ _ I) as Hbelow.
  assert (Hp1 : pos a1 <= k). { unfold pos. rewrite Hbe. nia. }
  assert (Hext : forall lo hi, hi <= k -> map (value_at dflt (kvs ++ [(k, v)])) (range lo hi) = map (value_at dflt kvs) (range lo hi)).
  { intros lo hi Hh. apply map_ext_in. intros x Hx. apply in_range in Hx. apply value_at_snoc_lt. lia. }
  set (a2 := mkabb _ _ _ _ _).
  assert (Hp2 : pos a2 = k + 1). { unfold pos, a2. cbn [abb_blocks abb_values]. rewrite Hlv, Hbe. nia. }
  exists l. conj; auto. constructor; cbn [a2 abb_nr abb_nblocks abb_blocks abb_cap abb_values]; auto.
  - rewrite Hlv, A3, Hbe. unfold cap_of. nia.
  - erewrite map_ext_in; [exact A8|]. intros j Hj. apply in_range in Hj. apply Hext. unfold cap_of. rewrite Hbe in Hj. nia.
  - rewrite Hp2, Hbe, (range_app (bi * per) k (k + 1)) by nia. rewrite map_app, Hext by lia. rewrite <- Hvs.
    rewrite (range_cons k), range_nil by lia. cbn [map]. erewrite value_at_snoc_eq; eauto.
  - destruct A10 as [K1 K2]. rewrite Hp2. split.
    + rewrite map_app. apply increasing_split. conj; auto; [cbn; auto|].
      intros x y Hx [<-|[]]. apply in_map_iff in Hx as (kv & <- & Hkv). rewrite Forall_forall in Hbelow. specialize (Hbelow _ Hkv). cbn. lia.
    + apply Forall_app. split; [|repeat constructor; cbn; auto; lia].
      eapply Forall_impl; [|exact K2]. cbn. intros kv (I1 & I2 & I3). conj; auto. lia.
Qed.

Definition at_end (a : abuilder V) (kvs : list (N * V)) : Prop :=
  pos a = match rev kvs with [] => 0 | (k', _) :: _ => k' + 1 end.

Lemma pushes_wp nr : forall more w a kvs, AInv nr w a kvs -> at_end a kvs -> env n max w -> Forall (fun kv => rg (snd kv)) more ->
  wp (abb_pushes c dflt more a) w
     (fun w' a' => exists l, grew n max w w' l /\ AInv nr w' a' (kvs ++ more) /\ at_end a' (kvs ++ more) /\ abb_blocks a' = abb_blocks a ++ l)
     (fun w' => full n w' \/ ~ increasing (map fst (kvs ++ more)) \/ exists kv, In kv more /\ nr <= fst kv).
Proof.
  induction more as [|[k v] more IH]; intros w a kvs H Ha He Hr; cbn [abb_pushes].
  - apply wp_ret. exists []. rewrite !app_nil_r. conj; auto. apply grew_refl. auto.
  - inversion Hr as [|? ? Hv Hr']; subst. cbn in Hv. apply wp_bind. eapply wp_mono; [apply (push_wp nr w a kvs); auto| |].
    + intros w1 a1 (l & G & I & B & P).
      assert (Ha1 : at_end a1 (kvs ++ [(k, v)])). { unfold at_end. rewrite rev_app_distr. cbn [rev app]. auto. }
      eapply wp_mono; [apply (IH w1 a1 (kvs ++ [(k, v)])); auto; apply G| |].
      * intros w2 a2 (l2 & G2 & I2 & A2 & B2). rewrite <- app_assoc in *. cbn [app] in *. exists (l ++ l2). conj; auto.
        -- eapply grew_trans; eauto.
        -- rewrite B2, B, app_assoc. auto.
      * intros w2 [Hf|[Hi|(kv & Hin & Hkv)]]; auto.
        -- rewrite <- app_assoc in Hi. auto.
        -- right. right. exists kv. cbn. auto.
    + intros w1 [Hf|[Hk|Hk]]; auto.
      * right. right. exists (k, v). cbn. auto.
      * right. left. intros Hinc. rewrite map_app in Hinc. apply increasing_split in Hinc as (_ & _ & Hlt).
        unfold at_end in Ha. destruct (rev kvs) as [|[k' v'] r] eqn:Er; [lia|].
        assert (In k' (map fst kvs)). { apply in_map_iff. exists (k', v'). split; auto. apply in_rev. rewrite Er. cbn; auto. }
        specialize (Hlt k' k ltac:(auto) ltac:(cbn; auto)). lia.
Qed.

Lemma abb_complete_wp nr w a kvs : AInv nr w a kvs -> env n max w ->
  wp (abb_complete c dflt a) w
     (fun w' bs => exists l, grew n max w w' l /\ bs = abb_blocks a ++ l /\ nlen bs = div_up nr per /\ NoDup bs /\ (forall b, In b bs -> 0 < cnt w' b /\ b < n) /\ Forall2 (array_block_at c (wb_view w')) bs
          (map (fun j => map (value_at dflt kvs) (range (j * per) (j * per + cap_of nr j))) (range 0 (div_up nr per))))
     (full n).
Proof.
  intros H He. unfold abb_complete. apply wp_bind. pose proof (ai_blocks _ _ _ _ H) as Hle.
  eapply wp_mono; [apply (emit_blocks_wp nr kvs); auto| |auto].
  { rewrite (ai_nblocks _ _ _ _ H). lia. }
  intros w1 a1 (l & G & I & B & Ln & _). apply wp_ret. exists l. 
  assert (Hn1 : nlen (abb_blocks a1) = div_up nr per).
  { rewrite B. unfold nlen in *. rewrite app_length, Ln, (ai_nblocks _ _ _ _ H). lia. }
  conj; auto; try apply I. rewrite <- Hn1. apply I.
Qed.
End Build.

(** ** Trees of values *)
Lemma noop_counter {V} (rg : V -> Prop) : counter_ok rg noop_inc (fun (_ : unit) _ => True) (fun _ _ => False).
Proof. constructor; auto. Qed.

Lemma occ_flat_map {A} x (f : A -> list N) l : occ x (flat_map f l) = fold_right (fun a acc => occ x (f a) + acc) 0 l.
Proof. induction l; cbn [flat_map fold_right]; auto. rewrite occ_app. lia. Qed.
Lemma foot_split {V} (c : codec V) d x : forall depth root b kvs foot, tree c d root depth b kvs foot ->
  occ x foot = occ x (inner c d depth b) + occ x (map fst (leaves c d depth b)).
Proof.
  induction depth as [|dp IH]; intros root b kvs foot H; cbn [tree] in H.
  - destruct H as (h & ks & vs & Hh & _ & _ & _ & _ & _ & _ & ->). cbn [inner leaves]. rewrite (holds_raw _ _ _ _ _ Hh).
    cbn [map fst occ]. lia.
  - destruct H as (h & ch & subs & Hh & _ & _ & _ & _ & HF & _ & ->). cbn [inner leaves]. rewrite (holds_raw _ _ _ _ _ Hh).
    cbn [occ]. clear Hh. rewrite occ_concat. rewrite <- N.add_assoc. f_equal.
    induction HF as [|kb sub ch subs (A & B & C) HF IHF]; cbn [map fold_right flat_map]; [cbn; lia|].
    rewrite !occ_app, map_app, occ_app, IHF, (IH _ _ _ _ C). lia.
Qed.

Lemma occ_NoDup l : (forall x, occ x l <= 1) -> NoDup l.
Proof.
  induction l as [|a l IH]; intros H; constructor.
  - intros Hin. apply occ_in in Hin. specialize (H a). cbn [occ] in H. rewrite N.eqb_refl in H. lia.
  - apply IH. intros x. specialize (H x). cbn [occ] in H. lia.
Qed.
Lemma nth_nseq k : forall b i d, (i < k)%nat -> nth i (nseq b k) d = b + N.of_nat i.
Proof.
  induction k as [|k IH]; intros b i d Hi; [lia|]. cbn [nseq]. destruct i as [|i]; cbn [nth]; [lia|]. rewrite IH by lia. lia.
Qed.
Lemma nth_range b e i d : N.of_nat i < e - b -> nth i (range b e) d = b + N.of_nat i.
Proof. intros H. apply nth_nseq. lia. Qed.
Lemma map_fst_combine {A B} (l : list A) (m : list B) : length l = length m -> map fst (combine l m) = l.
Proof. revert m. induction l as [|a l IH]; intros [|b m] H; cbn in *; try lia; auto. rewrite IH by lia. auto. Qed.

Lemma build_tree_wp {V} n max (c : codec V) rg w kvs : n < 2 ^ 64 -> lossless c rg -> N.of_nat (csize c) + 8 < 2 ^ 32 ->
  4 <= calc_max_entries c -> env n max w -> entries_ok rg kvs ->
  wp (btree_build c noop_inc (map push_op kvs) tt) w
     (fun w' r => exists depth foot, grew n max w w' foot /\ tree c (wb_view w') true depth (fst r) kvs foot /\ fst r < n)
     (exhausted n max).
Proof.
  intros Hn L Hcs Hm He [Hinc Hr]. unfold btree_build. apply wp_bind. eapply wp_mono.
  - eapply (build_values_wp n max c rg (leaf_io V) false noop_inc (fun _ _ => True) (fun _ _ => False) w [] tt kvs); auto.
    + apply leaf_io_ok.
    + apply noop_counter.
  - intros w1 [ns rc1] [Hb _]. cbn [fst snd] in *. apply wp_bind. eapply wp_mono.
    + eapply (build_btree_wp n max c rg (fun _ _ => True) w [] (fun _ => False) kvs w1 ns rc1 false); eauto. split; auto.
    + intros w2 root (He2 & Hb2 & Hfr & depth & foot & Ht & Hlt & Hlv & Hinn & Hcnt). apply wp_ret. cbn [fst snd].
      exists depth, foot. conj; auto.
      destruct Hb as (_ & (kvss & HF & _) & _ & _ & _ & Ho).
      assert (Hleaf : forall x, In x (map fst (leaves c (wb_view w2) depth root)) -> (cnt w x = 0 /\ occ x (map fst (leaves c (wb_view w2) depth root)) = 1) /\ x < n).
      { assert (El : map fst (leaves c (wb_view w2) depth root) = map su_block ns).
        { rewrite Hlv. clear - HF. induction HF as [|s kvs ns kvss (A & B & C & D & h & E & F & G) HF IH]; cbn [flat_map map]; auto.
          rewrite map_app, IH. cbn [leaves]. cbn [io_make leaf_io] in E. rewrite (holds_raw _ _ _ _ _ E). reflexivity. }
        rewrite El. intros x Hx. apply in_map_iff in Hx as (s & <- & Hs). split.
        - unfold origin in Ho. rewrite Forall_forall in Ho. specialize (Ho s Hs). destruct (own false s); [auto|destruct Ho as [[] _]].
        - clear - HF Hs. induction HF as [|s' kvs ns kvss (A & _) HF IH]; [destruct Hs|]. destruct Hs as [<-|Hs]; auto. }
      pose proof (fun x => foot_split c (wb_view w2) x _ _ _ _ _ Ht) as Hsp.
      assert (Hall : forall x, In x foot -> (cnt w x = 0 /\ occ x foot = 1) /\ x < n).
      { intros x Hx. destruct (in_dec N.eq_dec x (inner c (wb_view w2) depth root)) as [Hi|Hi]; [apply Hinn; auto|].
        apply occ_in in Hx. rewrite Hsp, (occ_not_in x (inner _ _ _ _)) in Hx by auto. rewrite Hsp, (occ_not_in x (inner _ _ _ _)) by auto.
        apply Hleaf. apply occ_in. lia. }
      constructor; auto.
      * intros x Hx. destruct (Hall x Hx) as [[? ?] ?]. auto.
      * apply occ_NoDup. intros x. destruct (in_dec N.eq_dec x foot) as [Hx|Hx]; [|rewrite occ_not_in by auto; lia].
        destruct (Hall x Hx) as [[? ?] ?]. lia.
    + auto.
  - intros w1 [[H|(v & vs & [] & _)]|H]; auto. contradiction.
Qed.

Section Whole.
Variables n max : N.
Hypothesis Hn64 : n < 2 ^ 64.
Context {V : Type}.
Variable c : codec V.
Variable rg : V -> Prop.
Variable dflt : V.
Hypothesis L : lossless c rg.
Hypothesis Hcs : (0 < csize c <= 4072)%nat.
Hypothesis Hd : rg dflt.
Notation per := (array_per c).

Definition chunk (nr : N) (kvs : list (N * V)) (j : N) : list V :=
  map (value_at dflt kvs) (range (j * per) (j * per + cap_of c nr j)).
Lemma chunks_concat nr kvs k : k * per <= nr \/ k <= div_up nr per ->
  concat (map (chunk nr kvs) (range 0 k)) = map (value_at dflt kvs) (range 0 (N.min nr (k * per))).
Proof.
  pose proof (per_pos c Hcs) as Hp.
  intros Hk. assert (Hk' : k <= div_up nr per).
  { destruct Hk as [Hk|Hk]; auto. unfold div_up. apply N.div_le_lower_bound; lia. }
  clear Hk. revert Hk'. induction k as [|k IH] using N.peano_ind; intros Hk.
  - rewrite range_nil by lia. cbn [map concat]. rewrite range_nil by lia. auto.
  - rewrite <- N.add_1_r, snoc_range, map_app, concat_app, IH by lia. cbn [map concat]. rewrite app_nil_r.
    assert (k * per < nr) as Hlt by (apply lt_div_up; auto; lia).
    rewrite (range_app 0 (k * per) (N.min nr ((k + 1) * per))) by nia. rewrite map_app. f_equal.
    + f_equal. f_equal. lia.
    + unfold chunk. f_equal. f_equal. unfold cap_of. nia.
Qed.

Lemma ab_complete_wp nr w a kvs : nr + per <= 2 ^ 64 -> AInv n c rg dflt nr w a kvs -> env n max w ->
  wp (ab_complete c dflt a) w
     (fun w' root => exists l foot, grew n max w w' (l ++ foot) /\ root < n /\ NoDup (abb_blocks a ++ l) /\
        array_at c (wb_view w') root (contents dflt nr kvs) foot (abb_blocks a ++ l))
     (exhausted n max).
Proof.
  intros Hnr H He. unfold ab_complete. apply wp_bind. pose proof (per_pos c Hcs) as Hp.
  eapply wp_mono; [apply (abb_complete_wp n max Hn64 c rg dflt L Hcs Hd nr w a kvs); auto| |intros w1 Hf; left; exact Hf].
  intros w1 bs (l & G & Hbs & Hlen & Hnd & Hused & Hheld). apply wp_bind.
  assert (Hok : entries_ok (fun v => v < 2 ^ 64) (index_blocks bs)).
  { unfold index_blocks. assert (Hl : length (range 0 (nlen bs)) = length bs) by (rewrite range_length; unfold nlen; lia).
    split.
    - rewrite map_fst_combine by auto. apply range_increasing.
    - apply Forall_forall. intros [i b] Hib. cbn [fst snd].
      pose proof (in_combine_l _ _ _ _ Hib) as Hi. pose proof (in_combine_r _ _ _ _ Hib) as Hbb.
      apply in_range in Hi. destruct (Hused b Hbb). split; [|lia]. rewrite Hlen in Hi.
      assert (i * per < nr) by (apply lt_div_up; auto; lia). nia. }
  change (map (fun kv => @PushValue N (fst kv) (snd kv)) (index_blocks bs)) with (map (@push_op N) (index_blocks bs)).
  eapply wp_mono.
  - apply (build_tree_wp n max u64_codec (fun v => v < 2 ^ 64) w1 (index_blocks bs)); auto.
    + apply u64_lossless.
    + reflexivity.
    + rewrite m_u64. lia.
    + apply G.
  - intros w2 [root []] (depth & foot & G2 & Ht & Hr). cbn [fst] in *. apply wp_ret. exists l, foot. rewrite <- Hbs. conj; auto.
    + eapply grew_trans; eauto.
    + exists depth, (map (chunk nr kvs) (range 0 (div_up nr per))). conj; auto.
      * eapply Forall2_impl_in; [|exact Hheld]. intros b vs Hb Hab. eapply array_block_ext; [|exact Hab].
        apply (gr_frame _ _ _ _ _ G2). apply Hused. auto.
      * rewrite chunks_concat by lia. unfold contents. f_equal. f_equal.
        assert (~ div_up nr per * per < nr) by (rewrite <- lt_div_up by auto; lia). lia.
      * intros j Hj. rewrite map_length, range_length in Hj.
        assert (Hnth : nth j (map (chunk nr kvs) (range 0 (div_up nr per))) [] = chunk nr kvs (N.of_nat j)).
        { rewrite nth_indep with (d' := chunk nr kvs 0) by (rewrite map_length, range_length; lia).
          rewrite map_nth. f_equal. rewrite nth_range by lia. lia. }
        assert (N.of_nat j * per < nr) as Hlt by (apply lt_div_up; auto; lia).
        rewrite Hnth. unfold contents, nlen. rewrite map_length, range_length.
        assert (Hlc : N.of_nat (length (chunk nr kvs (N.of_nat j))) = cap_of c nr (N.of_nat j)).
        { unfold chunk. rewrite map_length, range_length. lia. }
        fold per. rewrite Hlc. unfold cap_of in *. split; [|intros E; rewrite E in Hlc; cbn in Hlc].
        -- change ((4096 - 24) / N.of_nat (csize c)) with per. lia.
        -- lia.
  - auto.
Qed.

Lemma array_build_wp nr kvs w : nr + per <= 2 ^ 64 -> env n max w -> Forall (fun kv => rg (snd kv)) kvs ->
  wp (array_build c dflt nr kvs) w
     (fun w' root => exists blocks foot, grew n max w w' (blocks ++ foot) /\ root < n /\
        array_at c (wb_view w') root (contents dflt nr kvs) foot blocks /\
        increasing (map fst kvs) /\ Forall (fun kv => fst kv < nr) kvs)
     (fun w' => exhausted n max w' \/ ~ increasing (map fst kvs) \/ exists kv, In kv kvs /\ nr <= fst kv).
Proof.
  intros Hnr He Hr. unfold array_build. apply wp_bind. eapply wp_mono.
  - apply (pushes_wp n max Hn64 c rg dflt L Hcs Hd nr kvs w (abb_new c nr) []); auto.
    + apply AInv_new; auto.
    + unfold at_end, pos, abb_new, nlen. cbn. auto.
  - intros w1 a (l & G & I & _ & B). cbn [app] in *.
    eapply wp_mono; [apply (ab_complete_wp nr w1 a kvs); auto; apply G| |intros w2 Hf; left; exact Hf].
    intros w2 root (l2 & foot & G2 & Hroot & Hnd & Ha). exists (abb_blocks a ++ l2), foot.
    replace (abb_blocks a) with l in * by (rewrite B; reflexivity). conj; auto.
    + rewrite <- app_assoc. eapply grew_trans; eauto.
    + apply I.
    + eapply Forall_impl; [|apply (ai_keys _ _ _ _ _ _ _ _ I)]. tauto.
  - intros w1 [Hf|[Hi|Hk]]; auto. left. left. exact Hf.
Qed.
End Whole.
