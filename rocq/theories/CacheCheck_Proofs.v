From Verif Require Import IoMany_Proofs Base Csum_Model Codec_Model Codec_Spec Codec_Proofs Pack_Proofs Utils_Model Walker_Model Array_Model Array_Spec Array_Proofs WritebackUpd_Proofs CacheCheck_Model CacheCheck_Spec.

Lemma testbit_land1 a : negb (N.land a 1 =? 0) = N.testbit a 0.
Proof.
  change 1 with (N.ones 1). rewrite N.land_ones. change (2 ^ 1) with 2. rewrite <- N.bit0_mod.
  destruct (N.testbit a 0); reflexivity.
Qed.
Lemma small_flags k a : a < 2 ^ 32 -> 0 < k <= 32 -> N.land a (N.lxor (W32 - 1) (N.ones k)) = 0 <-> a < 2 ^ k.
Proof.
  intros Ha Hk. change (W32 - 1) with (N.ones 32). split; intros H.
  - destruct (N.eq_dec a 0) as [->|Hz]; [apply N.neq_0_lt_0, N.pow_nonzero; lia|]. apply N.log2_lt_pow2; [lia|].
    destruct (N.lt_ge_cases (N.log2 a) k) as [|Hge]; auto. exfalso. assert (Hl : N.log2 a < 32) by (apply N.log2_lt_pow2; lia).
    assert (Hb : N.testbit (N.land a (N.lxor (N.ones 32) (N.ones k))) (N.log2 a) = true).
    { rewrite N.land_spec, N.lxor_spec, N.bit_log2 by auto. rewrite N.ones_spec_low by lia. rewrite N.ones_spec_high by lia. reflexivity. }
    rewrite H, N.bits_0 in Hb. discriminate.
  - apply N.bits_inj. intros i. rewrite N.bits_0, N.land_spec, N.lxor_spec. destruct (N.lt_ge_cases i k) as [Hi|Hi].
    + rewrite (N.ones_spec_low k), (N.ones_spec_low 32) by lia. rewrite andb_false_r. auto.
    + assert (E : N.testbit a i = false). { destruct (N.eq_dec a 0) as [->|Hz]; [apply N.bits_0|]. apply N.bits_above_log2. assert (N.log2 a < k) by (apply N.log2_lt_pow2; lia). lia. }
      rewrite E. auto.
Qed.
Lemma flags1_ok m : cm_flags m < 2 ^ 32 -> check_flags1 m = true <-> cm_flags m = 0 \/ cm_flags m = 1 \/ cm_flags m = 3.
Proof.
  intros Hm. unfold check_flags1. rewrite andb_true_iff, N.eqb_eq. change (N.lor 1 2) with (N.ones 2). rewrite (small_flags 2) by lia. change (2 ^ 2) with 4.
  unfold cm_valid, cm_dirty. split.
  - intros [H1 H2]. assert (Hc : cm_flags m = 0 \/ cm_flags m = 1 \/ cm_flags m = 2 \/ cm_flags m = 3) by lia.
    destruct Hc as [E|[E|[E|E]]]; rewrite E in H2; auto. vm_compute in H2. discriminate H2.
  - intros [->|[->| ->]]; split; [lia|reflexivity|lia|reflexivity|lia|reflexivity].
Qed.
Lemma flags2_ok m b : cm_flags m < 2 ^ 32 -> check_flags2 m b = true <-> cm_flags m = 1 \/ (cm_flags m = 0 /\ b <> Some true).
Proof.
  intros Hm. unfold check_flags2. rewrite andb_true_iff, N.eqb_eq. change (N.lxor (W32 - 1) 1) with (N.lxor (W32 - 1) (N.ones 1)). rewrite (small_flags 1) by lia. change (2 ^ 1) with 2.
  unfold cm_valid. split.
  - intros [H1 H2]. assert (Hc : cm_flags m = 0 \/ cm_flags m = 1) by lia. destruct Hc as [E|E]; rewrite E in *; auto. right. split; auto. intros ->. vm_compute in H2. discriminate H2.
  - intros [->|[-> H]]; split; [lia|reflexivity|lia|]. destruct b as [[|]|]; auto; congruence.
Qed.

Definition seen_ok (s : fbits) : Prop := forall x, In x (fb_set s) -> x < fb_len s.
Lemma existsb_in x l : existsb (N.eqb x) l = true <-> In x l.
Proof. rewrite existsb_exists. split; [intros (y & H & E); apply N.eqb_eq in E; subst; auto|intros H; exists x; split; auto; apply N.eqb_refl]. Qed.

(** One entry. *)
Lemma check_oblock_spec limit m seen seen' ok : seen_ok seen -> check_oblock limit m seen = (seen', ok) ->
  seen_ok seen' /\
  (ok = true <-> if cm_valid m then cm_oblock m < limit /\ ~ In (cm_oblock m) (fb_set seen) else cm_oblock m = 0) /\
  (ok = true -> fb_set seen' = if cm_valid m then cm_oblock m :: fb_set seen else fb_set seen).
Proof.
  intros Hs E. unfold check_oblock in E. destruct (cm_valid m); cbn [negb] in E.
  - destruct (N.leb_spec limit (cm_oblock m)) as [Hl|Hl].
    { injection E as <- <-. conj; auto; [|discriminate]. split; [discriminate|lia]. }
    destruct (N.leb_spec (fb_len seen) (cm_oblock m)) as [Hg|Hg].
    { injection E as <- <-. cbn [fb_insert fb_grow fb_set fb_len]. conj; auto.
      - intros x [<-|Hx]; cbn [fb_insert fb_grow fb_set fb_len] in *; [lia|]. specialize (Hs x Hx). lia.
      - split; auto. intros _. split; auto. intros H. specialize (Hs _ H). lia. }
    unfold fb_contains in E. destruct (N.ltb_spec (cm_oblock m) (fb_len seen)); [|lia]. cbn [andb] in E.
    destruct (existsb (N.eqb (cm_oblock m)) (fb_set seen)) eqn:Ex; injection E as <- <-.
    + apply existsb_in in Ex. conj; auto; [|discriminate]. split; [discriminate|tauto].
    + conj; auto.
      * intros x [<-|Hx]; cbn [fb_insert fb_set fb_len]; auto.
      * split; auto. intros _. split; auto. intros H'. apply existsb_in in H'. congruence.
  - injection E as <- <-. conj; auto. destruct (N.ltb_spec 0 (cm_oblock m)); cbn [negb]; split; auto; try discriminate; lia.
Qed.
(** A list of entries. *)
Definition valid_oblocks (es : list (N * cmapping)) : list N := map (fun e => cm_oblock (snd e)) (filter (fun e => cm_valid (snd e)) es).
Lemma check_entries_spec limit flags : forall es seen seen' ok, seen_ok seen -> check_entries limit flags seen es = (seen', ok) ->
  seen_ok seen' /\
  (ok = true <-> (forall i m, In (i, m) es -> flags i m = true /\ (if cm_valid m then cm_oblock m < limit else cm_oblock m = 0)) /\
     NoDup (valid_oblocks es) /\ (forall x, In x (valid_oblocks es) -> ~ In x (fb_set seen))) /\
  (ok = true -> forall x, In x (fb_set seen') <-> In x (valid_oblocks es) \/ In x (fb_set seen)).
Proof.
  induction es as [|[i m] es IH]; intros seen seen' ok Hs E; cbn [check_entries] in E.
  - injection E as <- <-. cbn [valid_oblocks filter map]. conj; auto; [|intros _ x; cbn [In]; tauto]. split; auto. intros _. conj; [intros ? ? []|constructor|intros ? []].
  - destruct (check_oblock limit m seen) as [seen1 ok1] eqn:E1. destruct (check_entries limit flags seen1 es) as [seen2 ok2] eqn:E2. injection E as <- <-.
    destruct (check_oblock_spec limit m seen seen1 ok1 Hs E1) as (H1 & H2 & H3). destruct (IH seen1 seen2 ok2 H1 E2) as (I1 & I2 & I3). split; auto.
    assert (Hv : valid_oblocks ((i, m) :: es) = if cm_valid m then cm_oblock m :: valid_oblocks es else valid_oblocks es).
    { unfold valid_oblocks. cbn [filter snd]. destruct (cm_valid m); reflexivity. }
    rewrite Hv. split.
    + rewrite !andb_true_iff, I2. split.
      * intros [[F O1] (A & B & C)]. pose proof (proj1 H2 O1) as K. rewrite (H3 O1) in C. destruct (cm_valid m) eqn:Em.
        -- destruct K as [K1 K2]. conj.
           ++ intros j x [Ej|Hj]; [injection Ej as <- <-; rewrite Em; auto|auto].
           ++ constructor; auto. intros Hin. apply (C _ Hin). left. auto.
           ++ intros x [<-|Hx]; auto. intros Hx'. apply (C x Hx). right. auto.
        -- conj; auto. intros j x [Ej|Hj]; [injection Ej as <- <-; rewrite Em; auto|auto].
      * intros (A & B & C). destruct (A i m ltac:(left; auto)) as [F K]. destruct (cm_valid m) eqn:Em.
        -- assert (O1 : ok1 = true) by (apply H2; split; auto; apply C; left; auto). rewrite (H3 O1). conj; auto.
           ++ intros j x Hj. apply A. right. auto.
           ++ inversion B; auto.
           ++ intros x Hx [<-|Hx']; [inversion B; contradiction|]. apply (C x); auto. right. auto.
        -- assert (O1 : ok1 = true) by (apply H2; auto). rewrite (H3 O1). conj; auto. intros j x Hj. apply A. right. auto.
    + intros Hok. apply andb_prop in Hok as [Hok O2]. apply andb_prop in Hok as [_ O1]. intros x. rewrite (I3 O2 x), (H3 O1). destruct (cm_valid m); cbn [In]; tauto.
Qed.

(** ** The blocks *)
Definition reads (eng : N -> option (list N)) (b : N) (a : array_block cmapping) : Prop :=
  exists data, eng b = Some data /\ metadata_block_type data = ARRAY /\ unpack_array_block cm_codec data = Ok a.
Lemma reads_fun eng b a a' : reads eng b a -> reads eng b a' -> a = a'.
Proof. intros (d & H1 & H2 & H3) (d' & K1 & K2 & K3). congruence. Qed.
Section Blocks.
Context (eng : N -> option (list N)) (limit : N) (flags : N -> cmapping -> bool) (ent : N -> array_block cmapping -> list (N * cmapping)).
Let visit (seen : fbits) (i : N) (a : array_block cmapping) := check_entries limit flags seen (ent i a).
Fixpoint all_ent (j : N) (l : list (array_block cmapping)) : list (N * cmapping) :=
  match l with [] => [] | a :: r => ent j a ++ all_ent (j + 1) r end.
Definition good (es : list (N * cmapping)) (seen : list N) : Prop :=
  (forall i m, In (i, m) es -> flags i m = true /\ (if cm_valid m then cm_oblock m < limit else cm_oblock m = 0)) /\
  NoDup (valid_oblocks es) /\ (forall x, In x (valid_oblocks es) -> ~ In x seen).
Lemma valid_app a b : valid_oblocks (a ++ b) = valid_oblocks a ++ valid_oblocks b.
Proof using. unfold valid_oblocks. rewrite filter_app, map_app. auto. Qed.
Lemma good_app a b seen seen' : (forall x, In x seen' <-> In x (valid_oblocks a) \/ In x seen) ->
  good (a ++ b) seen <-> good a seen /\ good b seen'.
Proof using.
  intros Hs. unfold good. rewrite valid_app. split.
  - intros (A & B & C). apply Utils_Proofs.NoDup_app_iff_local in B as (B1 & B2 & B3). conj; auto.
    + intros i m H. apply A, in_or_app. auto.
    + intros x H. apply C, in_or_app. auto.
    + intros i m H. apply A, in_or_app. auto.
    + intros x H Hx. apply Hs in Hx as [Hx|Hx]; [apply (B3 x Hx H)|]. apply (C x); auto. apply in_or_app. auto.
  - intros ((A & B & C) & (A' & B' & C')). conj.
    + intros i m H. apply in_app_or in H as [H|H]; auto.
    + apply Utils_Proofs.NoDup_app_iff_local. conj; auto. intros x H H'. apply (C' x H'), Hs. auto.
    + intros x H. apply in_app_or in H as [H|H]; auto. intros Hx. apply (C' x H), Hs. auto.
Qed.
Lemma blocks_spec : forall blocks j seen seen' es, seen_ok seen ->
  visit_array_blocks cm_codec eng visit seen (combine (range j (j + nlen blocks)) blocks) = (seen', es) ->
  (es = [] <-> exists abs, Forall2 (reads eng) blocks abs /\ good (all_ent j abs) (fb_set seen)).
Proof using.
  induction blocks as [|b blocks IH]; intros j seen seen' es Hs E.
  - rewrite range_nil in E by (unfold nlen; cbn; lia). cbn [combine visit_array_blocks] in E. injection E as <- <-. split; auto. intros _.
    exists []. split; constructor; [intros ? ? []|split; [constructor|intros ? []]].
  - assert (Hl : nlen (b :: blocks) = 1 + nlen blocks) by (unfold nlen; cbn [length]; lia). rewrite Hl, (range_cons j) in E by lia. cbn [combine visit_array_blocks] in E.
    destruct (visit_array_block cm_codec eng visit seen j b) as [s1 e1] eqn:E1. replace (j + (1 + nlen blocks)) with (j + 1 + nlen blocks) in E by lia.
    destruct (visit_array_blocks cm_codec eng visit s1 _) as [s2 es2] eqn:E2. injection E as <- <-.
    unfold visit_array_block in E1.
    assert (Hno : e1 <> None -> ~ exists abs, Forall2 (reads eng) (b :: blocks) abs /\ good (all_ent j abs) (fb_set seen)).
    { intros Hne (abs & HF & Hg). inversion HF as [|? a ? abs' Ha HF']; subst. destruct Ha as (data & D1 & D2 & D3). rewrite D1, D2, D3 in E1.
      cbn [all_ent] in Hg. destruct (visit seen j a) as [s ok] eqn:Ev. injection E1 as <- <-. unfold visit in Ev.
      destruct (check_entries_spec limit flags (ent j a) seen s ok Hs Ev) as (K1 & K2 & K3). destruct ok; [congruence|].
      assert (Hg1 : good (ent j a) (fb_set seen)). { eapply (good_app (ent j a) (all_ent (j + 1) abs') (fb_set seen) (valid_oblocks (ent j a) ++ fb_set seen)) in Hg; [apply Hg|]. intros x. rewrite in_app_iff. tauto. }
      apply K2 in Hg1. discriminate. }
    destruct e1 as [e1|]. { split; [discriminate|]. intros H. exfalso. apply Hno; [discriminate|exact H]. }
    destruct (eng b) as [data|] eqn:Eb; [|discriminate]. destruct (metadata_block_type data) eqn:Et; try discriminate.
    destruct (unpack_array_block cm_codec data) as [a| |] eqn:Eu; try discriminate. destruct (visit seen j a) as [s ok] eqn:Ev. destruct ok; [|discriminate]. injection E1 as <-.
    unfold visit in Ev. destruct (check_entries_spec limit flags (ent j a) seen s true Hs Ev) as (K1 & K2 & K3).
    assert (Hr : reads eng b a) by (exists data; auto).
    rewrite (IH (j + 1) s s2 es2 K1 E2). split.
    + intros (abs & HF & Hg). exists (a :: abs). split; [constructor; auto|]. cbn [all_ent]. apply (good_app _ _ _ (fb_set s)); [apply K3; auto|]. split; auto. apply K2; auto.
    + intros (abs & HF & Hg). inversion HF as [|? a' ? abs' Ha HF']; subst. assert (a' = a) by (eapply reads_fun; eauto). subst a'. exists abs'. split; auto.
      cbn [all_ent] in Hg. apply (good_app _ _ _ (fb_set s)) in Hg; [apply Hg|]. apply K3; auto.
Qed.
End Blocks.
