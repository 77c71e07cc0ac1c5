(** Restoring the writesets. *)
From Verif Require Import Base Csum_Model Codec_Model Codec_Spec Codec_Proofs SpaceMap_Model Utils_Model Batcher_Model Builder_Model Builder_Spec Builder_Proofs
  Walker_Model ThinOut_Model Array_Model Array_Spec Array_Proofs ArrayWalk_Proofs Era_Model Era_Spec.

(** ** The words pushed *)
Record pst := mkpst { p_out : list (N * N); p_index : N; p_entry : N }.
Definition p_push (s : pst) : list (N * N) := p_out s ++ [(p_index s, p_entry s)].
Fixpoint p_fill (k : nat) (s : pst) : pst :=
  match k with O => s | S k => p_fill k (mkpst (p_push s) (add32 (p_index s) 1) ones64) end.
Definition p_move (idx : N) (s : pst) : pst := if p_index s <? idx then mkpst (p_push s) idx 0 else s.
Definition p_blocks (r : N * N) (s : pst) : pst :=
  let '(first, len) := r in
  let last := sub32 (add32 first len) 1 in
  let idx := N.shiftr first 6 in
  let last_idx := N.shiftr last 6 in
  let s := p_move idx s in
  let bi_first := N.land first 63 in
  let bi_last := N.land last 63 in
  if idx =? last_idx then mkpst (p_out s) (p_index s) (N.lor (p_entry s) (N.land (upto bi_last) (from bi_first)))
  else
    let s := p_fill (N.to_nat (last_idx - idx)) (mkpst (p_out s) (p_index s) (N.lor (p_entry s) (from bi_first))) in
    mkpst (p_push s) (add32 (p_index s) 1) (N.lor (p_entry s) (upto bi_last)).
Fixpoint p_all (rs : list (N * N)) (s : pst) : pst := match rs with [] => s | r :: rs => p_all rs (p_blocks r s) end.

Notation pushes := (abb_pushes u64_codec 0).
Lemma pushes_app : forall P Q (b : abuilder N) w, pushes (P ++ Q) b w = (b' <~ pushes P b ;; pushes Q b') w.
Proof.
  induction P as [|[k v] P IH]; intros Q b w; cbn [app abb_pushes]; [reflexivity|]. unfold bindst.
  destruct (abb_push u64_codec 0 k v b w) as [w1 [b1| |]]; auto. rewrite IH. unfold bindst. destruct (pushes P b1 w1) as [w2 [b2| |]]; auto.
Qed.
(** [m] does the pushes that lead from [s] to [s'], starting with builder [b]. *)
Definition does (m : st wb wsst) (b : abuilder N) (s s' : pst) : Prop :=
  exists Q, p_out s' = p_out s ++ Q /\ forall w, m w = (b' <~ pushes Q b ;; ret (mkwsst b' (p_index s') (p_entry s'))) w.
Lemma does_bind m f b s s1 s2 : does m b s s1 -> (forall b1, does (f (mkwsst b1 (p_index s1) (p_entry s1))) b1 s1 s2) -> does (bindst m f) b s s2.
Proof.
  intros (Q & E & H) H2. destruct (H2 b) as (Q2 & E2 & _). exists (Q ++ Q2). split; [rewrite E2, E, app_assoc; auto|].
  intros w. unfold bindst at 1. rewrite H. unfold bindst. rewrite pushes_app. unfold bindst. cbn [ret].
  destruct (pushes Q b w) as [w1 [b1| |]]; auto. cbn [ret]. destruct (H2 b1) as (Q3 & E3 & H3).
  assert (Q3 = Q2) as -> by (rewrite E2 in E3; apply app_inv_head in E3; auto). rewrite H3. reflexivity.
Qed.
Lemma does_ret b s e x : does (ret (mkwsst b e x)) b s (mkpst (p_out s) e x).
Proof. exists []. split; [cbn; rewrite app_nil_r; auto|]. intros w. reflexivity. Qed.
Lemma does_same b s : does (ret (mkwsst b (p_index s) (p_entry s))) b s s.
Proof. exists []. split; [rewrite app_nil_r; auto|]. intros w. reflexivity. Qed.
Lemma does_push b s e x : does (b' <~ ws_push (mkwsst b (p_index s) (p_entry s)) ;; ret (mkwsst b' e x)) b s (mkpst (p_push s) e x).
Proof.
  exists [(p_index s, p_entry s)]. split; auto. intros w. cbn [abb_pushes p_index p_entry]. unfold ws_push, bindst. cbn [w_index w_entry w_builder ret].
  destruct (abb_push _ _ _ _ _ w) as [w1 [b1| |]]; auto.
Qed.
Lemma does_fill : forall k b s, does (fill k (mkwsst b (p_index s) (p_entry s))) b s (p_fill k s).
Proof.
  induction k as [|k IH]; intros b s; cbn [fill p_fill]; [apply does_same|].
  destruct (does_push b s (add32 (p_index s) 1) ones64) as (Q & E & H).
  assert (D : does (b' <~ (b' <~ ws_push (mkwsst b (p_index s) (p_entry s)) ;; ret (mkwsst b' (add32 (p_index s) 1) ones64)) ;; fill k b') b s
     (p_fill k (mkpst (p_push s) (add32 (p_index s) 1) ones64))).
  { eapply does_bind; [exists Q; eauto|]. intros b1. apply (IH b1 (mkpst (p_push s) (add32 (p_index s) 1) ones64)). }
  destruct D as (Q' & E' & H'). exists Q'. split; auto. intros w. rewrite <- H'. unfold bindst, ret. cbn [w_index].
  destruct (ws_push _ w) as [w1 [b1| |]]; auto.
Qed.
Lemma does_blocks r b s : does (writeset_blocks r (mkwsst b (p_index s) (p_entry s))) b s (p_blocks r s).
Proof.
  destruct r as [first len]. unfold writeset_blocks, p_blocks. cbv zeta. cbn [w_index].
  set (idx := N.shiftr first 6). set (last := sub32 (add32 first len) 1).
  apply (does_bind _ _ b s (p_move idx s)).
  { unfold p_move. destruct (p_index s <? idx); [apply does_push|apply does_same]. }
  intros b1. cbn [w_builder w_index w_entry]. set (s1 := p_move idx s).
  destruct (idx =? N.shiftr last 6); [apply does_ret|].
  set (s2 := mkpst (p_out s1) (p_index s1) (N.lor (p_entry s1) (from (N.land first 63)))).
  apply (does_bind _ _ b1 s1 (p_fill (N.to_nat (N.shiftr last 6 - idx)) s2)).
  - destruct (does_fill (N.to_nat (N.shiftr last 6 - idx)) b1 s2) as (Q & E & H). exists Q. split; auto.
  - intros b2. cbn [w_index w_entry]. apply does_push.
Qed.
Lemma does_all : forall rs b s, does (writeset_all rs (mkwsst b (p_index s) (p_entry s))) b s (p_all rs s).
Proof.
  induction rs as [|r rs IH]; intros b s; cbn [writeset_all p_all]; [apply does_same|].
  eapply does_bind; [apply does_blocks|]. intros b1. apply IH.
Qed.
(** The array that is built. *)
Definition ws_words (rs : list (N * N)) : list (N * N) := p_push (p_all rs (mkpst [] 0 0)).
Lemma restore_is_build nr rs w : restore_writeset nr rs w = array_build u64_codec 0 (div_up_u64 nr 64) (ws_words rs) w.
Proof.
  unfold restore_writeset, array_build, writeset_b, ws_words, p_push.
  destruct (does_all rs (abb_new u64_codec (div_up_u64 nr 64)) (mkpst [] 0 0)) as (Q & E & H). cbn [p_out app p_index p_entry] in E, H.
  rewrite E. unfold bindst at 1. rewrite H. unfold bindst. rewrite pushes_app. unfold bindst. cbn [ret abb_pushes].
  destruct (pushes Q _ w) as [w1 [b1| |]]; auto. cbn [ret]. unfold writeset_e, ws_push, bindst. cbn [w_index w_entry w_builder].
  destruct (abb_push _ _ _ _ _ w1) as [w2 [b2| |]]; auto.
Qed.

(** ** Which bits they have *)
Lemma upto_bits b i : b < 64 -> N.testbit (upto b) i = (i <=? b).
Proof.
  intros Hb. unfold upto. rewrite N.lxor_spec, N.shiftl_1_l.
  assert (H64 : 2 ^ b < 2 ^ 64) by (apply N.pow_lt_mono_r; lia). pose proof (N.pow_nonzero 2 b ltac:(lia)).
  assert (E : wsub (2 ^ b) 1 = N.ones b).
  { unfold wsub. rewrite N.ones_equiv, N.pred_sub. replace (2 ^ b + 2 ^ 64 - 1) with (2 ^ b - 1 + 1 * 2 ^ 64) by lia.
    rewrite N.mod_add by (apply N.pow_nonzero; lia). apply N.mod_small. lia. }
  rewrite E, N.pow2_bits_eqb.
  destruct (N.lt_ge_cases i b) as [Hi|Hi]; [rewrite N.ones_spec_low by auto|rewrite N.ones_spec_high by auto];
    destruct (N.eqb_spec b i); destruct (N.leb_spec i b); try lia; reflexivity.
Qed.
Lemma from_bits b i : b < 64 -> N.testbit (from b) i = (b <=? i) && (i <? 64).
Proof.
  intros Hb. unfold from, ones64, W64. change 18446744073709551616 with (2 ^ 64).
  destruct (N.ltb_spec i 64) as [Hi|Hi]; rewrite ?Bool.andb_true_r, ?Bool.andb_false_r.
  - rewrite N.mod_pow2_bits_low by auto. destruct (N.leb_spec b i).
    + rewrite N.shiftl_spec_high by lia. change (2 ^ 64 - 1) with (N.ones 64). apply N.ones_spec_low. lia.
    + apply N.shiftl_spec_low. auto.
  - apply N.mod_pow2_bits_high. auto.
Qed.
Lemma ones64_bits i : N.testbit ones64 i = (i <? 64).
Proof. change ones64 with (N.ones 64). destruct (N.ltb_spec i 64); [apply N.ones_spec_low|apply N.ones_spec_high]; auto. Qed.

Lemma assoc_above : forall (P : list (N * N)) i, Forall (fun kv => fst kv < i) P -> assoc P i = None.
Proof.
  induction P as [|[k v] P IH]; intros i H; cbn [assoc]; auto. inversion H as [|? ? Hk Hr]; subst. cbn in Hk.
  destruct (N.eqb_spec i k); [lia|auto].
Qed.
Lemma val_snoc (P : list (N * N)) e x i : Forall (fun kv => fst kv < e) P -> value_at 0 (P ++ [(e, x)]) i = if i =? e then x else value_at 0 P i.
Proof.
  intros H. destruct (N.eqb_spec i e) as [->|Hne].
  - unfold value_at. induction H as [|[k v] P Hk HP IH]; cbn [app assoc]; [rewrite N.eqb_refl; auto|]. cbn in Hk. destruct (N.eqb_spec e k); [lia|auto].
  - unfold value_at. clear H. induction P as [|[k v] P IH]; cbn [app assoc]; [destruct (N.eqb_spec i e); [lia|auto]|]. destruct (i =? k); auto.
Qed.
(** bit [x] of the words pushed so far and the buffered one *)
(** [hi]: where the next range may start; [rs]: the ranges so far *)
Definition word (s : pst) (i : N) : N := value_at 0 (p_push s) i.
Lemma keys_below s : increasing (map fst (p_push s)) -> Forall (fun kv => fst kv < p_index s) (p_out s).
Proof.
  unfold p_push. rewrite map_app. intros H. apply increasing_split in H as (_ & _ & H). apply Forall_forall. intros kv Hin. apply H; [apply in_map; auto|left; auto].
Qed.
Lemma word_entry P e x i : increasing (map fst (P ++ [(e, x)])) -> word (mkpst P e x) i = if i =? e then x else value_at 0 P i.
Proof.
  intros H. apply (keys_below (mkpst P e x)) in H. cbn [p_out p_index] in H. unfold word, p_push. cbn [p_out p_index p_entry].
  apply val_snoc. exact H.
Qed.
Lemma word_push s e' y i : increasing (map fst (p_push s)) -> p_index s < e' ->
  increasing (map fst (p_push (mkpst (p_push s) e' y))) /\
  word (mkpst (p_push s) e' y) i = if i =? e' then y else word s i.
Proof.
  intros H He. pose proof (keys_below s H) as Hb.
  assert (Hi : increasing (map fst (p_push s ++ [(e', y)]))).
  { rewrite map_app. apply increasing_split. split; [auto|]. split; [cbn; auto|]. intros a b Ha [<-|[]].
    unfold p_push in Ha. rewrite map_app in Ha. apply in_app_or in Ha as [Ha|[<-|[]]]; [|auto].
    apply in_map_iff in Ha as (kv & <- & Hkv). rewrite Forall_forall in Hb. specialize (Hb _ Hkv). cbn [fst]. lia. }
  split; [exact Hi|]. rewrite word_entry by exact Hi. reflexivity.
Qed.
Lemma word_beyond s i : increasing (map fst (p_push s)) -> p_index s < i -> word s i = 0.
Proof.
  intros H Hi. apply keys_below in H. unfold word, p_push. rewrite val_snoc by exact H. destruct (N.eqb_spec i (p_index s)); [lia|].
  unfold value_at. rewrite assoc_above; auto. eapply Forall_impl; [|exact H]. cbn. intros; lia.
Qed.
Lemma fill_spec : forall k s, increasing (map fst (p_push s)) -> p_index s + N.of_nat k < 2 ^ 32 -> p_entry s < 2 ^ 64 -> Forall (fun kv => snd kv < 2 ^ 64) (p_out s) ->
  let s' := p_fill k s in
  increasing (map fst (p_push s')) /\ p_index s' = p_index s + N.of_nat k /\ (k <> O -> p_entry s' = ones64) /\
  (p_entry s' < 2 ^ 64) /\ Forall (fun kv => snd kv < 2 ^ 64) (p_out s') /\
  forall i, word s' i = if (p_index s <? i) && (i <=? p_index s + N.of_nat k) then ones64 else word s i.
Proof.
  induction k as [|k IH]; intros s H Hk Hs1 Hs2; cbv zeta; cbn [p_fill].
  - cbn [N.of_nat]. rewrite N.add_0_r. conj; auto; [congruence|]. intros i. destruct (N.ltb_spec (p_index s) i); destruct (N.leb_spec i (p_index s)); try lia; reflexivity.
  - assert (Ea : add32 (p_index s) 1 = p_index s + 1) by (apply N.mod_small; unfold W32; lia). rewrite Ea.
    destruct (word_push s (p_index s + 1) ones64 0 H ltac:(lia)) as [H1 _].
    destruct (IH (mkpst (p_push s) (p_index s + 1) ones64)) as (A & B & C & D & E & F); cbn [p_index p_entry p_out] in *; auto; try lia.
    { reflexivity. }
    { unfold p_push. apply Forall_app. auto. }
    conj; auto; [lia| |].
    + intros _. destruct k; [reflexivity|]. apply C. lia.
    + intros i. rewrite F. destruct (word_push s (p_index s + 1) ones64 i H ltac:(lia)) as [_ H2]. rewrite H2.
      destruct (N.eqb_spec i (p_index s + 1)); destruct (N.ltb_spec (p_index s + 1) i); destruct (N.ltb_spec (p_index s) i);
        destruct (N.leb_spec i (p_index s + 1 + N.of_nat k)); destruct (N.leb_spec i (p_index s + N.of_nat (S k))); cbn [andb]; try lia; try reflexivity.
Qed.
Definition p_bit (s : pst) (x : N) : bool := N.testbit (word s (x / 64)) (x mod 64).
Record PInv (hi : N) (rs : list (N * N)) (s : pst) : Prop := {
  pi_keys : increasing (map fst (p_push s));
  pi_small : p_entry s < 2 ^ 64 /\ Forall (fun kv => snd kv < 2 ^ 64) (p_out s);
  pi_below : forall x, marked rs x -> x < hi;
  pi_marked : forall x, marked rs x -> p_bit s x = true;
  pi_drift : hi = 0 \/ (0 < hi /\ (hi - 1) / 64 <= p_index s /\ ((hi - 1) / 64 < p_index s -> forall i, (hi - 1) / 64 <= i <= p_index s -> word s i = ones64));
  pi_bound : p_index s <= 2 * ((hi - 1) / 64);
  pi_start : hi = 0 -> rs = [];
  pi_exact : Forall within_word rs -> (forall x, p_bit s x = true -> marked rs x) /\ (0 < hi -> p_index s = (hi - 1) / 64) }.
Lemma lor_ones x : x < 2 ^ 64 -> N.lor ones64 x = ones64.
Proof.
  intros Hx. apply N.bits_inj. intros i. rewrite N.lor_spec, ones64_bits. destruct (N.ltb_spec i 64); [reflexivity|]. cbn.
  destruct (N.eq_dec x 0) as [->|]; [apply N.bits_0|]. apply N.bits_above_log2. apply N.log2_lt_pow2; [lia|].
  eapply N.lt_le_trans; [exact Hx|]. apply N.pow_le_mono_r; lia.
Qed.
Lemma bits_small x : (forall i, 64 <= i -> N.testbit x i = false) -> x < 2 ^ 64.
Proof.
  intros H. destruct (N.eq_dec x 0) as [->|]; [reflexivity|]. apply N.log2_lt_pow2; [lia|].
  destruct (N.lt_ge_cases (N.log2 x) 64) as [|Hge]; auto. specialize (H _ Hge). rewrite N.bit_log2 in H by auto. discriminate.
Qed.
Lemma small_bits x i : x < 2 ^ 64 -> 64 <= i -> N.testbit x i = false.
Proof.
  intros Hx Hi. destruct (N.eq_dec x 0) as [->|]; [apply N.bits_0|]. apply N.bits_above_log2. apply N.log2_lt_pow2; [lia|].
  eapply N.lt_le_trans; [exact Hx|]. apply N.pow_le_mono_r; lia.
Qed.
Lemma lor_small x y : x < 2 ^ 64 -> y < 2 ^ 64 -> N.lor x y < 2 ^ 64.
Proof. intros Hx Hy. apply bits_small. intros i Hi. rewrite N.lor_spec, !small_bits by auto. reflexivity. Qed.
Lemma from_small b : from b < 2 ^ 64.
Proof. unfold from. apply N.mod_lt. discriminate. Qed.
Lemma marked_snoc rs b l x : marked (rs ++ [(b, l)]) x <-> marked rs x \/ b <= x < b + l.
Proof.
  unfold marked. split.
  - intros (b' & e' & Hin & H). apply in_app_iff in Hin as [Hin|[Hin|[]]]; [left; eauto|]. injection Hin as <- <-. auto.
  - intros [(b' & e' & Hin & H)|H]; [exists b', e'|exists b, l]; split; auto; apply in_or_app; cbn; auto.
Qed.
Lemma word_set P e x x' i : increasing (map fst (P ++ [(e, x)])) ->
  increasing (map fst (P ++ [(e, x')])) /\ word (mkpst P e x') i = if i =? e then x' else word (mkpst P e x) i.
Proof.
  intros H. assert (H' : increasing (map fst (P ++ [(e, x')]))) by (rewrite map_app in *; exact H).
  split; auto. rewrite !word_entry by auto. destruct (i =? e); auto.
Qed.

Lemma step hi rs s b l : PInv hi rs s -> hi <= b -> 0 < l -> b + l < 2 ^ 32 -> PInv (b + l) (rs ++ [(b, l)]) (p_blocks (b, l) s).
Proof.
  intros [K1 [K2 K3] K4 K5 K6 Kb K7 K8] Hb Hl Hm. unfold p_blocks. cbv zeta.
  assert (E1 : sub32 (add32 b l) 1 = b + l - 1).
  { unfold sub32, add32. rewrite (N.mod_small (b + l)) by exact Hm. replace (b + l + W32 - 1) with (b + l - 1 + 1 * W32) by lia.
    rewrite N.mod_add by discriminate. apply N.mod_small. unfold W32. lia. }
  rewrite E1, !N.shiftr_div_pow2. change 63 with (N.ones 6). rewrite !N.land_ones. change (2 ^ 6) with 64.
  set (last := b + l - 1) in *. assert (Hlast : b <= last /\ last < 2 ^ 32 - 1 /\ b + l = last + 1) by lia. clearbody last. destruct Hlast as (Hl1 & Hl2 & Hl3).
  rewrite Hl3 in Hm |- *. clear E1.
  set (idx := b / 64). set (lidx := last / 64).
  assert (Hidx : idx <= lidx) by (apply N.div_le_mono; lia).
  assert (Hhi : hi = 0 \/ (hi - 1) / 64 <= idx) by (right; apply N.div_le_mono; lia).
  (* skip to the word of the first block *)
  assert (Hmv : exists s1, p_move idx s = s1 /\ increasing (map fst (p_push s1)) /\ p_entry s1 < 2 ^ 64 /\ Forall (fun kv => snd kv < 2 ^ 64) (p_out s1) /\
     (forall i, word s1 i = word s i) /\ idx <= p_index s1 <= 2 * idx /\
     (p_index s1 = idx \/ (hi <> 0 /\ (hi - 1) / 64 < p_index s1 /\ forall i, (hi - 1) / 64 <= i <= p_index s1 -> word s1 i = ones64)) /\
     (Forall within_word rs -> p_index s1 = idx)).
  { eexists. split; [reflexivity|]. unfold p_move. destruct (N.ltb_spec (p_index s) idx) as [Hlt|Hge].
    - destruct (word_push s idx 0 0 K1 Hlt) as [A _]. cbn [p_entry p_out p_index]. conj; auto; try lia.
      + unfold p_push. apply Forall_app. auto.
      + intros i. destruct (word_push s idx 0 i K1 Hlt) as [_ B]. rewrite B. destruct (N.eqb_spec i idx) as [Ei|]; auto.
        symmetry. apply word_beyond; auto. lia.
    - conj; [auto|auto|auto|auto|lia|lia| |].
      + destruct K6 as [->|(H1 & H2 & H3)]; [left; change ((0 - 1) / 64) with 0 in Kb; lia|].
        destruct (N.eq_dec (p_index s) idx); [auto|]. right. split; [lia|]. split; [lia|]. apply H3. lia.
      + intros HF. destruct (K8 HF) as [_ Hx]. destruct Hhi as [->|]; [change ((0 - 1) / 64) with 0 in Kb; lia|].
        destruct (N.eq_dec hi 0) as [->|]; [change ((0 - 1) / 64) with 0 in Kb; lia|]. rewrite Hx in * by lia. lia. }
  destruct Hmv as (s1 & -> & A1 & A2 & A3 & A4 & A5 & A6 & A7).
  assert (Hold : forall x, marked rs x -> N.testbit (word s1 (x / 64)) (x mod 64) = true).
  { intros x Hx. rewrite A4. apply K5. auto. }
  assert (Hbits : forall i, word s1 i < 2 ^ 64).
  { intros i. unfold word, value_at. destruct (assoc (p_push s1) i) eqn:E; [|reflexivity].
    assert (HF : Forall (fun kv => snd kv < 2 ^ 64) (p_push s1)) by (unfold p_push; apply Forall_app; auto).
    clear - E HF. induction HF as [|[k v] P Hk HP IH]; cbn [assoc] in E; [discriminate|]. destruct (i =? k); [injection E as <-; auto|auto]. }
  assert (Ewe : word s1 (p_index s1) = p_entry s1).
  { destruct s1 as [P e x]. cbn [p_index p_entry]. rewrite word_entry by exact A1. rewrite N.eqb_refl. auto. }
  assert (Hbelow : forall x, marked (rs ++ [(b, l)]) x -> x < last + 1).
  { intros x. rewrite marked_snoc. intros [Hx|Hx]; [specialize (K4 _ Hx); lia|lia]. }
  assert (Hhi' : (last + 1 - 1) / 64 = lidx) by (rewrite N.add_sub; auto).
  destruct (N.eqb_spec idx lidx) as [Eq|Hne].
  - (* within a word *)
    set (m := N.land (upto (last mod 64)) (from (b mod 64))).
    assert (Hmb : forall i, N.testbit m i = (b mod 64 <=? i) && (i <=? last mod 64)).
    { intros i. unfold m. rewrite N.land_spec, upto_bits, from_bits by (apply N.mod_lt; discriminate).
      pose proof (N.mod_lt last 64 ltac:(discriminate)).
      destruct (N.leb_spec i (last mod 64)); destruct (N.leb_spec (b mod 64) i); destruct (N.ltb_spec i 64); cbn [andb]; try lia; reflexivity. }
    assert (Hms : m < 2 ^ 64).
    { apply bits_small. intros i Hi. rewrite Hmb. pose proof (N.mod_lt last 64 ltac:(discriminate)). destruct (N.leb_spec i (last mod 64)); [lia|]. apply Bool.andb_false_r. }
    clearbody m. destruct s1 as [P e x]. cbn [p_out p_index p_entry] in *.
    assert (Hx : forall y, b <= y <= last -> y / 64 = idx /\ N.testbit m (y mod 64) = true).
    { intros y Hy. assert (y / 64 = idx). { apply N.le_antisymm; [rewrite Eq|]; apply N.div_le_mono; lia. }
      split; auto. rewrite Hmb. unfold idx, lidx in *. pose proof (N.div_mod y 64 ltac:(discriminate)). pose proof (N.div_mod b 64 ltac:(discriminate)).
      pose proof (N.div_mod last 64 ltac:(discriminate)). destruct (N.leb_spec (b mod 64) (y mod 64)); destruct (N.leb_spec (y mod 64) (last mod 64)); try reflexivity; lia. }
    assert (Hset : forall i, word (mkpst P e (N.lor x m)) i = if i =? e then N.lor x m else word (mkpst P e x) i).
    { intros i. apply (word_set P e x (N.lor x m) i A1). }
    constructor; cbn [p_out p_index p_entry].
    + apply (word_set P e x (N.lor x m) 0 A1).
    + split; auto. apply lor_small; auto.
    + auto.
    + intros y Hy. apply marked_snoc in Hy. unfold p_bit. rewrite Hset. destruct (N.eqb_spec (y / 64) e) as [Ey|Ey].
      * rewrite N.lor_spec. destruct Hy as [Hy|Hy].
        -- pose proof (Hold y Hy) as Ho. rewrite Ey, Ewe in Ho. rewrite Ho. reflexivity.
        -- rewrite (proj2 (Hx y ltac:(lia))). apply Bool.orb_true_r.
      * destruct Hy as [Hy|Hy]; [auto|]. destruct (Hx y ltac:(lia)) as [Ei _]. destruct A6 as [|(H1 & H2 & H3)]; [lia|].
        rewrite H3 by (destruct Hhi; [lia|]; lia). rewrite ones64_bits. destruct (N.ltb_spec (y mod 64) 64); auto. pose proof (N.mod_lt y 64 ltac:(discriminate)). lia.
    + right. split; [lia|]. rewrite Hhi', <- Eq. split; [lia|]. intros Hlt i Hi. destruct A6 as [|(H1 & H2 & H3)]; [lia|]. rewrite Hset.
      destruct (N.eqb_spec i e) as [->|]; [|apply H3; destruct Hhi; lia]. assert (Ex : x = ones64) by (rewrite <- Ewe; apply H3; lia). rewrite Ex. apply lor_ones. auto.
    + rewrite Hhi', <- Eq. lia.
    + lia.
    + intros HF. apply Forall_app in HF as [HF _]. specialize (A7 HF). subst e. destruct (K8 HF) as [K9 _].
      rewrite Hhi', <- Eq. split; [|auto]. intros y. unfold p_bit. rewrite Hset, marked_snoc.
      destruct (N.eqb_spec (y / 64) idx) as [Ey|Ey]; [|rewrite A4; auto].
      assert (Ex : x = word s (y / 64)) by (rewrite <- A4, Ey; auto). rewrite N.lor_spec, Ex. fold (p_bit s y). intros Hor. apply Bool.orb_true_iff in Hor as [Hor|Hor]; [auto|].
      right. rewrite Hmb in Hor. apply andb_prop in Hor as [Ha Hb']. apply N.leb_le in Ha. apply N.leb_le in Hb'. unfold idx, lidx in *.
      pose proof (N.div_mod y 64 ltac:(discriminate)). pose proof (N.div_mod b 64 ltac:(discriminate)). pose proof (N.div_mod last 64 ltac:(discriminate)). lia.
  - (* across words *)
    assert (Hk : N.of_nat (N.to_nat (lidx - idx)) = lidx - idx) by lia.
    set (s2 := mkpst (p_out s1) (p_index s1) (N.lor (p_entry s1) (from (b mod 64)))).
    assert (B1 : increasing (map fst (p_push s2)) /\ forall i, word s2 i = if i =? p_index s1 then N.lor (p_entry s1) (from (b mod 64)) else word s1 i).
    { destruct s1 as [P e x]. cbn [p_out p_index p_entry s2] in *. split; [apply (word_set P e x _ 0 A1)|]. intros i. apply (word_set P e x _ i A1). }
    destruct B1 as [B1 B2].
    assert (Hl26 : lidx < 2 ^ 26) by (unfold lidx; apply N.div_lt_upper_bound; [discriminate|]; change (64 * 2 ^ 26) with (2 ^ 32); lia).
    destruct (fill_spec (N.to_nat (lidx - idx)) s2 B1) as (C1 & C2 & C3 & C4 & C5 & C6).
    { cbn [s2 p_index]. rewrite Hk. change (2 ^ 26) with 67108864 in Hl26. change (2 ^ 32) with 4294967296. lia. }
    { cbn [s2 p_entry]. apply lor_small; auto. apply from_small. }
    { exact A3. }
    set (s3 := p_fill (N.to_nat (lidx - idx)) s2) in *. clearbody s3. specialize (C3 ltac:(lia)). rewrite C3.
    cbn [s2 p_index] in C2, C6. rewrite Hk in *.
    assert (Hup : upto (last mod 64) < 2 ^ 64).
    { apply bits_small. intros i Hi. rewrite upto_bits by (apply N.mod_lt; discriminate). pose proof (N.mod_lt last 64 ltac:(discriminate)). apply N.leb_gt. lia. }
    rewrite lor_ones by auto.
    assert (Ea : add32 (p_index s3) 1 = p_index s3 + 1).
    { apply N.mod_small. unfold W32. change (2 ^ 26) with 67108864 in Hl26. lia. }
    rewrite Ea.
    assert (D : forall i, word (mkpst (p_push s3) (p_index s3 + 1) ones64) i =
       if (p_index s1 <? i) && (i <=? p_index s3 + 1) then ones64 else if i =? p_index s1 then N.lor (p_entry s1) (from (b mod 64)) else word s1 i).
    { intros i. destruct (word_push s3 (p_index s3 + 1) ones64 i C1 ltac:(lia)) as [_ H2]. rewrite H2, C6, <- C2, B2.
      destruct (N.eqb_spec i (p_index s3 + 1)); destruct (N.ltb_spec (p_index s1) i); destruct (N.leb_spec i (p_index s3)); destruct (N.leb_spec i (p_index s3 + 1)); cbn [andb]; try lia; reflexivity. }
    assert (Hones : forall y, N.testbit ones64 (y mod 64) = true).
    { intros y. rewrite ones64_bits. apply N.ltb_lt. apply N.mod_lt. discriminate. }
    constructor; cbn [p_out p_index p_entry].
    + apply (word_push s3 (p_index s3 + 1) ones64 0 C1). lia.
    + split; [reflexivity|]. unfold p_push. apply Forall_app. split; auto.
    + auto.
    + intros y Hy. apply marked_snoc in Hy. unfold p_bit. rewrite D.
      destruct ((p_index s1 <? y / 64) && (y / 64 <=? p_index s3 + 1)) eqn:Erng; [apply Hones|].
      destruct (N.eqb_spec (y / 64) (p_index s1)) as [Ey|Ey].
      * rewrite N.lor_spec. destruct Hy as [Hy|Hy].
        -- pose proof (Hold y Hy) as Ho. rewrite Ey, Ewe in Ho. rewrite Ho. reflexivity.
        -- destruct A6 as [E6|(H1 & H2 & H3)].
           ++ rewrite from_bits by (apply N.mod_lt; discriminate). rewrite (proj2 (N.ltb_lt _ _) (N.mod_lt y 64 ltac:(discriminate))).
              assert (b mod 64 <= y mod 64).
              { unfold idx in *. pose proof (N.div_mod y 64 ltac:(discriminate)). pose proof (N.div_mod b 64 ltac:(discriminate)). lia. }
              destruct (N.leb_spec (b mod 64) (y mod 64)); [|lia]. apply Bool.orb_true_r.
           ++ assert (Ex : p_entry s1 = ones64) by (rewrite <- Ewe; apply H3; lia). rewrite Ex, Hones. reflexivity.
      * destruct Hy as [Hy|Hy]; [auto|].
        assert (Hyi : idx <= y / 64 <= lidx) by (split; apply N.div_le_mono; lia).
        assert (y / 64 < p_index s1).
        { destruct (N.ltb_spec (p_index s1) (y / 64)); [|lia]. destruct (N.leb_spec (y / 64) (p_index s3 + 1)); [discriminate|lia]. }
        destruct A6 as [E6|(H1 & H2 & H3)]; [lia|]. rewrite H3 by (destruct Hhi; lia). apply Hones.
    + right. split; [lia|]. rewrite Hhi'. split; [lia|]. intros Hlt i Hi. rewrite D.
      destruct (N.ltb_spec (p_index s1) i) as [Hi1|Hi1]; [destruct (N.leb_spec i (p_index s3 + 1)); [reflexivity|lia]|]. cbn [andb].
      destruct A6 as [E6|(H1 & H2 & H3)]; [lia|]. destruct (N.eqb_spec i (p_index s1)) as [->|].
      * assert (Ex : p_entry s1 = ones64) by (rewrite <- Ewe; apply H3; lia). rewrite Ex. apply lor_ones. apply from_small.
      * apply H3. destruct Hhi; lia.
    + rewrite Hhi', C2. lia.
    + lia.
    + intros HF. apply Forall_app in HF as [_ HF]. inversion HF as [|? ? Hw _]; subst. unfold within_word in Hw. cbn [fst snd] in Hw.
      exfalso. apply Hne. unfold idx, lidx. rewrite Hw. f_equal. lia.
Qed.

Lemma all_steps : forall rs2 hi rs s nr, PInv hi rs s -> marked_ranges hi nr rs2 -> nr < 2 ^ 32 -> exists hi', PInv hi' (rs ++ rs2) (p_all rs2 s) /\ (hi' <= N.max hi nr) /\ (hi' = hi \/ 0 < hi').
Proof.
  induction rs2 as [|[b l] rs2 IH]; intros hi rs s nr H Hm Hnr; cbn [p_all].
  - exists hi. rewrite app_nil_r. split; auto. split; [lia|auto].
  - destruct Hm as (M1 & M2 & M3 & M4). pose proof (step hi rs s b l H M1 M2 ltac:(lia)) as H1.
    destruct (IH _ _ _ nr H1 M4 Hnr) as (hi' & A & B & C). exists hi'. rewrite <- app_assoc in A. cbn [app] in A. split; auto. split; lia.
Qed.
Lemma PInv_start : PInv 0 [] (mkpst [] 0 0).
Proof.
  assert (Hm : forall x, ~ marked [] x) by (intros x (? & ? & [] & _)).
  assert (Hw : forall i, word (mkpst [] 0 0) i = 0) by (intros i; unfold word, value_at, p_push; cbn; destruct (i =? 0); auto).
  constructor; cbn [p_out p_index p_entry]; auto.
  - cbn. auto.
  - split; [reflexivity|constructor].
  - intros x Hx. destruct (Hm x Hx).
  - intros x Hx. destruct (Hm x Hx).
  - cbn. lia.
  - intros _. split; [|lia]. intros x. unfold p_bit. rewrite Hw, N.bits_0. discriminate.
Qed.
(** every key below the number of words when no range crosses words *)
Lemma ws_words_facts nr rs : marked_ranges 0 nr rs -> nr < 2 ^ 32 ->
  increasing (map fst (ws_words rs)) /\ Forall (fun kv => snd kv < 2 ^ 64) (ws_words rs) /\
  (forall x, marked rs x -> N.testbit (value_at 0 (ws_words rs) (x / 64)) (x mod 64) = true) /\
  (Forall within_word rs -> (forall x, N.testbit (value_at 0 (ws_words rs) (x / 64)) (x mod 64) = true -> marked rs x) /\
     (0 < nr -> Forall (fun kv => fst kv < div_up nr 64) (ws_words rs))).
Proof.
  intros Hm Hnr. destruct (all_steps rs 0 [] (mkpst [] 0 0) nr PInv_start Hm Hnr) as (hi & [K1 [K2 K3] K4 K5 K6 Kb K7 K8] & Hhi & H0). cbn [app] in *.
  change (ws_words rs) with (p_push (p_all rs (mkpst [] 0 0))). set (s := p_all rs (mkpst [] 0 0)) in *. conj; auto.
  - unfold p_push. apply Forall_app. auto.
  - intros HF. destruct (K8 HF) as [H1 H2]. split; auto. intros Hp.
    assert (Hi : p_index s < div_up nr 64).
    { destruct H0 as [->|H0]; [change ((0 - 1) / 64) with 0 in Kb; unfold div_up; dlia|]. rewrite H2 by auto. unfold div_up. dlia. }
    pose proof (keys_below s K1) as Hb. unfold p_push. apply Forall_app. split; [eapply Forall_impl; [|exact Hb]; cbn; intros; lia|]. repeat constructor. auto.
Qed.
