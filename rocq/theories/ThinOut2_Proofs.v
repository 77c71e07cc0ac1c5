From Coq Require Import Permutation Sorted.
From Verif Require Import Base Csum_Model Codec_Model SpaceMap_Model Batcher_Model Builder_Model
  Builder_Spec Pack_Proofs SbCodec_Proofs ThinOut_Model ThinOut_Spec ThinOut_Proofs.

(** ** trim *)
Lemma find_first_spec f l :
  find_first f l <= nlen l /\
  (forall i e, i < find_first f l -> nth_error l (N.to_nat i) = Some e -> f e = false) /\
  (find_first f l < nlen l -> exists e, nth_error l (N.to_nat (find_first f l)) = Some e /\ f e = true).
Proof.
  induction l as [|a r (I1 & I2 & I3)]; cbn [find_first].
  - unfold nlen; cbn. split; [lia|split]; intros; lia.
  - unfold nlen in *. cbn [length]. destruct (f a) eqn:E.
    + split; [lia|split; [intros; lia|]]. intros. exists a. auto.
    + split; [lia|split].
      * intros i e Hi. destruct (N.eq_dec i 0) as [->|].
        { cbn. intros [= <-]. auto. }
        replace (N.to_nat i) with (S (N.to_nat (i - 1))) by lia. cbn. apply I2. lia.
      * intros Hlt. destruct I3 as (e & ? & ?); [lia|]. exists e.
        replace (N.to_nat (1 + find_first f r)) with (S (N.to_nat (find_first f r))) by lia. auto.
Qed.

Definition ents (data : list N) : list bitmap_entry :=
  match bitmap_unpack data with Ok (bm, _) => bm_entries bm | _ => [] end.
Definition is_block (data : list N) : Prop := bytes data /\ nlen data = 4096.
Lemma ents_ok data : is_block data -> trim_unpack data = Ok (ents data) /\ nlen (ents data) = 16320.
Proof.
  intros [H1 H2]. destruct (bitmap_unpack_block _ H1 H2) as (bm & E & L & _).
  unfold trim_unpack, ents. rewrite E. auto.
Qed.

(** the entry of block [b] *)
Definition ent (bitmaps : list (list N)) (b : N) : option bitmap_entry :=
  match nth_error bitmaps (N.to_nat (b / 16320)) with
  | Some data => nth_error (ents data) (N.to_nat (b mod 16320))
  | None => None
  end.
Lemma in_use_ent bitmaps b : Forall is_block bitmaps -> b < nlen bitmaps * 16320 ->
  exists e, ent bitmaps b = Some e /\ in_use bitmaps b = negb (unused e).
Proof.
  intros HF Hb. unfold ent, in_use.
  destruct (nth_error bitmaps (N.to_nat (b / 16320))) as [data|] eqn:E.
  2: { apply nth_error_None in E. unfold nlen in Hb. exfalso. dlia. }
  rewrite Forall_forall in HF. destruct (ents_ok data) as [Eu L].
  { apply HF. eapply nth_error_In; eauto. }
  unfold trim_unpack, ents in *. destruct (bitmap_unpack data) as [[bm rest]| |]; try discriminate.
  destruct (nth_error (bm_entries bm) (N.to_nat (b mod 16320))) as [e|] eqn:Ee.
  - exists e. split; auto. destruct e as [[|p]|]; reflexivity.
  - apply nth_error_None in Ee. unfold nlen in L. exfalso. dlia.
Qed.

Section Trim.
Variable bitmaps : list (list N).
Variable nr : N.
Hypothesis HB : Forall is_block bitmaps.
Hypothesis HN : nr <= nlen bitmaps * 16320.

Definition ri_inv (s : range_iter) : Prop :=
  ri_current s <= nr /\
  (ri_current s < nr ->
   ri_index s = ri_current s / 16320 /\
   exists data, nth_error bitmaps (N.to_nat (ri_index s)) = Some data /\ ri_bitmap s = ents data).

Lemma ri_skip_spec f fuel : forall s, ri_inv s -> ri_current s < nr ->
  (length bitmaps < fuel + N.to_nat (ri_index s))%nat ->
  exists s', ri_skip fuel (find_first f) bitmaps nr s = (s', Ok tt) /\ ri_inv s' /\
    ri_current s <= ri_current s' /\
    (forall b e, ri_current s <= b < ri_current s' -> ent bitmaps b = Some e -> f e = false) /\
    (ri_current s' < nr -> exists e, ent bitmaps (ri_current s') = Some e /\ f e = true).
Proof.
  induction fuel as [|fuel IH]; intros s Hi Hc Hf.
  { destruct Hi as [_ Hi]. destruct (Hi Hc) as (E & data & En & _).
    assert (N.to_nat (ri_index s) < length bitmaps)%nat by (apply nth_error_Some; congruence). lia. }
  destruct Hi as [Hle Hi]. destruct (Hi Hc) as (E & data & En & Eb).
  assert (Hd: is_block data) by (rewrite Forall_forall in HB; apply HB; eapply nth_error_In; eauto).
  destruct (ents_ok data Hd) as [_ Hlen].
  cbn [ri_skip]. unfold ENTRIES_PER_BITMAP in *. rewrite Eb.
  set (off := ri_current s mod 16320) in *.
  assert (Hoff: off < 16320) by (apply N.mod_lt; discriminate).
  assert (Hcur: ri_current s = 16320 * ri_index s + off) by (rewrite E; apply N.div_mod; discriminate).
  destruct (N.ltb_spec (nlen (ents data)) off) as [?|_]; [lia|].
  destruct (find_first_spec f (skipn (N.to_nat off) (ents data))) as (F1 & F2 & F3).
  set (n := find_first f (skipn (N.to_nat off) (ents data))) in *.
  assert (Lsk: nlen (skipn (N.to_nat off) (ents data)) = 16320 - off).
  { unfold nlen in *. rewrite skipn_length. lia. }
  rewrite Lsk in F1, F3.
  assert (Hent: forall b, ri_current s <= b < 16320 * (ri_index s + 1) ->
      ent bitmaps b = nth_error (skipn (N.to_nat off) (ents data)) (N.to_nat (b - ri_current s))).
  { intros b Hb. unfold ent.
    assert (b / 16320 = ri_index s) by (symmetry; apply (N.div_unique b 16320 (ri_index s) (b - 16320 * ri_index s)); lia).
    assert (b mod 16320 = b - 16320 * ri_index s) by (symmetry; apply (N.mod_unique b 16320 (ri_index s) (b - 16320 * ri_index s)); lia).
    rewrite H, H0, En. rewrite <- (firstn_skipn (N.to_nat off) (ents data)) at 1.
    rewrite nth_error_app2 by (rewrite firstn_length; unfold nlen in Hlen; lia).
    f_equal. rewrite firstn_length. unfold nlen in Hlen. lia. }
  assert (Hfree: forall b e, ri_current s <= b < ri_current s + n -> b < nr -> ent bitmaps b = Some e -> f e = false).
  { intros b e Hb _ He. rewrite Hent in He by lia. eapply F2; eauto. lia. }
  cbn [ri_current ri_index ri_bitmap].
  destruct (N.eqb_spec (N.min (ri_current s + n) nr) nr) as [He|He].
  { eexists. split; [reflexivity|]. unfold ri_inv. cbn [ri_current ri_index ri_bitmap]. rewrite He. conj; try lia.
    intros b e Hb. apply Hfree; lia. }
  assert (Hsm: ri_current s + n < nr) by lia.
  replace (N.min (ri_current s + n) nr) with (ri_current s + n) in * by lia.
  destruct (N.eq_dec n (16320 - off)) as [Hn|Hn].
  - (* move to the next bitmap *)
    assert (Hie: (ri_current s + n) / 16320 = ri_index s + 1).
    { symmetry. apply (N.div_unique _ 16320 (ri_index s + 1) 0); lia. }
    rewrite Hie. destruct (N.eqb_spec (ri_index s + 1) (ri_index s)) as [?|_]; [lia|]. cbn [negb].
    destruct (nth_error bitmaps (N.to_nat (ri_index s + 1))) as [data'|] eqn:En'.
    2: { apply nth_error_None in En'. unfold nlen in HN. exfalso. lia. }
    assert (Hd': is_block data') by (rewrite Forall_forall in HB; apply HB; eapply nth_error_In; eauto).
    destruct (ents_ok data' Hd') as [Eu' _]. rewrite Eu'.
    destruct (IH (mkri (ri_index s + 1) (ents data') (ri_current s + n))) as (s' & Es & I1 & I2 & I3 & I4).
    { split; cbn [ri_current ri_index ri_bitmap]; [lia|]. intros _. split; auto. eauto. }
    { cbn; lia. }
    { cbn [ri_index]. lia. }
    exists s'. cbn [ri_current] in *. conj; auto; try lia.
    intros b e Hb He'. destruct (N.lt_ge_cases b (ri_current s + n)).
    + apply (Hfree b e); auto; lia.
    + apply (I3 b e); auto; lia.
  - assert (Hie: (ri_current s + n) / 16320 = ri_index s).
    { symmetry. apply (N.div_unique _ 16320 (ri_index s) (off + n)); lia. }
    rewrite Hie, N.eqb_refl. cbn [negb]. eexists. split; [reflexivity|].
    unfold ri_inv. cbn [ri_current ri_index ri_bitmap]. conj; try lia.
    + intros _. split; eauto.
    + intros b e Hb. apply Hfree; lia.
    + intros _. destruct F3 as (e & Ee & Hfe); [lia|]. exists e. split; auto.
      rewrite Hent by lia. replace (ri_current s + n - ri_current s) with n by lia. auto.
Qed.

(** one range: blocks from [current] to [start] are free, those in it used *)
Lemma ri_next_spec s : ri_inv s -> 
  exists s' r, ri_next bitmaps nr s = (s', Ok r) /\ ri_inv s' /\
  match r with
  | None => forall b, ri_current s <= b < nr -> in_use bitmaps b = false
  | Some (start, stop) =>
      ri_current s <= start < stop /\ stop <= nr /\ ri_current s' = stop /\
      (forall b, ri_current s <= b < start -> in_use bitmaps b = false) /\
      (forall b, start <= b < stop -> in_use bitmaps b = true)
  end.
Proof.
  intros Hi. unfold ri_next. destruct (N.leb_spec nr (ri_current s)) as [Hc|Hc].
  { exists s, None. split; [reflexivity|]. split; auto. intros; lia. }
  assert (Hfuel: forall s, (length bitmaps < S (length bitmaps) + N.to_nat (ri_index s))%nat) by (intros; lia).
  destruct (ri_skip_spec (fun e => negb (unused e)) _ s Hi Hc (Hfuel s)) as (s1 & E1 & I1 & G1 & A1 & B1).
  change find_first_set with (find_first (fun e => negb (unused e))). rewrite E1.
  assert (U1: forall b, ri_current s <= b < ri_current s1 -> in_use bitmaps b = false).
  { intros b Hb. destruct I1 as [I1 _]. destruct (in_use_ent bitmaps b HB) as (e & He & ->); [lia|].
    rewrite (A1 b e Hb He). auto. }
  destruct (N.eqb_spec (ri_current s1) nr) as [He|He].
  { exists s1, None. split; [reflexivity|]. split; auto. rewrite <- He. auto. }
  assert (Hc1: ri_current s1 < nr) by (destruct I1; lia).
  destruct (ri_skip_spec unused _ s1 I1 Hc1 (Hfuel s1)) as (s2 & E2 & I2 & G2 & A2 & B2).
  change find_first_unset with (find_first unused). rewrite E2.
  assert (U2: forall b, ri_current s1 <= b < ri_current s2 -> in_use bitmaps b = true).
  { intros b Hb. destruct I2 as [I2 _]. destruct (in_use_ent bitmaps b HB) as (e & He' & ->); [lia|].
    rewrite (A2 b e Hb He'). auto. }
  assert (Hlt: ri_current s1 < ri_current s2).
  { destruct (N.eq_dec (ri_current s1) (ri_current s2)) as [Heq|]; [|lia].
    destruct (B1 Hc1) as (e & X1 & X2). destruct B2 as (e' & Y1 & Y2); [lia|].
    rewrite <- Heq in Y1. rewrite X1 in Y1. injection Y1 as <-. rewrite Y2 in X2. discriminate. }
  exists s2, (Some (ri_current s1, ri_current s2)). split; [reflexivity|]. split; auto.
  destruct I2 as [I2 _]. conj; auto; lia.
Qed.

(** a discard of the blocks [a, a+n), all free *)
Definition good_discard (bs lo : N) (d : N * N) : Prop :=
  exists a n, d = (a * bs, n * bs) /\ lo <= a /\ 1 <= n /\ a + n <= nr /\
    forall b, a <= b < a + n -> in_use bitmaps b = false.

Lemma trim_loop_spec ioctl bs fuel : nr * bs < 2 ^ 64 -> forall s, ri_inv s ->
  (N.to_nat (nr - ri_current s) < fuel)%nat ->
  let '(ds, x) := trim_loop fuel ioctl bs nr bitmaps (ri_current s) s in
  x <> Panic /\ Forall (good_discard bs (ri_current s)) ds /\
  ((forall d, ioctl d = true) -> x = Ok tt) /\
  (x = Ok tt -> forall b, ri_current s <= b < nr -> in_use bitmaps b = false ->
     exists a n, In (a * bs, n * bs) ds /\ a <= b < a + n).
Proof.
  intros Hbs. induction fuel as [|fuel IH]; intros s Hi Hf; [lia|].
  cbn [trim_loop]. destruct (ri_next_spec s Hi) as (s' & r & -> & Hi' & Hr).
  assert (Hw: forall a, a <= nr -> wmul a bs = a * bs).
  { intros. apply wmul_small. eapply N.le_lt_trans; [|apply Hbs]. apply N.mul_le_mono_r. auto. }
  destruct r as [[start stop]|].
  - destruct Hr as (H1 & H2 & H3 & H4 & H5). subst stop.
    assert (Hf': (N.to_nat (nr - ri_current s') < fuel)%nat) by lia.
    specialize (IH s' Hi' Hf').
    destruct (trim_loop fuel ioctl bs nr bitmaps (ri_current s') s') as [ds x].
    destruct IH as (P1 & P2 & P3 & P4).
    assert (Hrest: Forall (good_discard bs (ri_current s)) ds).
    { eapply Forall_impl; [|apply P2]. intros d (a & n & ? & ? & ? & ? & ?). exists a, n. conj; auto. lia. }
    destruct (N.ltb_spec (ri_current s) start) as [Hlt|Hge].
    + rewrite !Hw by lia.
      assert (Hd: good_discard bs (ri_current s) (ri_current s * bs, (start - ri_current s) * bs)).
      { exists (ri_current s), (start - ri_current s). conj; auto; try lia. intros. apply H4. lia. }
      destruct (ioctl _) eqn:Ei.
      * conj; auto. intros Hx b Hb Hu. destruct (N.lt_ge_cases b start).
        { exists (ri_current s), (start - ri_current s). split; [left; auto|lia]. }
        destruct (N.lt_ge_cases b (ri_current s')).
        { rewrite H5 in Hu by lia. discriminate. }
        destruct (P4 Hx b ltac:(lia) Hu) as (a & n & Hin & ?). exists a, n. split; auto. right; auto.
      * conj; auto; try discriminate. intros Hall. rewrite Hall in Ei. discriminate.
    + conj; auto. intros Hx b Hb Hu. destruct (N.lt_ge_cases b (ri_current s')).
      { rewrite H5 in Hu by lia. discriminate. }
      apply P4; auto; lia.
  - destruct (N.ltb_spec (ri_current s) nr) as [Hlt|Hge].
    + rewrite !Hw by lia.
      assert (Hd: good_discard bs (ri_current s) (ri_current s * bs, (nr - ri_current s) * bs)).
      { exists (ri_current s), (nr - ri_current s). conj; auto; try lia. intros. apply Hr. lia. }
      destruct (ioctl _) eqn:Ei; conj; auto; try discriminate.
      * intros _ b Hb _. exists (ri_current s), (nr - ri_current s). split; [left; auto|lia].
      * intros Hall. rewrite Hall in Ei. discriminate.
    + conj; auto; try discriminate. intros; lia.
Qed.
End Trim.

(** ** rmap *)
Definition dev_triples (regions : list (N * N)) (dev : N) (kvs : list (N * block_time)) : list (N * N * N) :=
  map (fun kv => (bt_block (snd kv), dev, fst kv)) (filter (fun kv => in_regions regions (bt_block (snd kv))) kvs).

Definition rr_ok (r : rregion) : Prop :=
  rr_begin r < rr_end r /\ rr_end r <= 2 ^ 40 /\ rr_thin r + (rr_end r - rr_begin r) < 2 ^ 64.
Definition rr_adj (a b : rregion) : Prop :=
  rr_dev b = rr_dev a /\ rr_begin b = rr_end a /\ rr_thin b = rr_thin a + (rr_end a - rr_begin a).

Fixpoint rruns (cur : rregion) (l : list (N * N * N)) : list rregion :=
  match l with
  | [] => if rr_begin cur <? rr_end cur then [cur] else []
  | (data, dev, thin) :: r =>
      match rr_adjacent cur dev thin data with
      | Some c => rruns c r
      | None => cur :: rruns (mkrr data (wadd data 1) dev thin) r
      end
  end.
Lemma rmap_visit_runs regions dev kvs : forall cur rest,
  rruns cur (dev_triples regions dev kvs ++ rest) =
  snd (rmap_visit regions dev cur kvs) ++ rruns (fst (rmap_visit regions dev cur kvs)) rest.
Proof.
  induction kvs as [|[k v] r IH]; intros; [reflexivity|].
  unfold dev_triples in *. cbn [filter map rmap_visit snd fst]. destruct (in_regions regions (bt_block v)); cbn [negb].
  - cbn [map app rruns snd fst]. destruct (rr_adjacent cur dev k (bt_block v)); [apply IH|].
    rewrite IH. destruct (rmap_visit regions dev _ r). reflexivity.
  - apply IH.
Qed.
Lemma rmap_devices_runs regions devs : forall cur,
  let '(c, out) := rmap_devices regions cur devs in
  (if rr_begin c <? rr_end c then out ++ [c] else out) =
  rruns cur (flat_map (fun d => dev_triples regions (fst d mod 2 ^ 32) (snd d)) devs).
Proof.
  induction devs as [|[dev kvs] r IH]; intros; cbn [rmap_devices flat_map fst snd].
  - destruct (_ <? _) eqn:E; cbn [rruns]; rewrite E; reflexivity.
  - rewrite rmap_visit_runs. destruct (rmap_visit regions (dev mod 2 ^ 32) cur kvs) as [c1 o1]. cbn [fst snd].
    specialize (IH c1). destruct (rmap_devices regions c1 r) as [c2 o2]. rewrite <- IH.
    destruct (_ <? _); auto. rewrite app_assoc. reflexivity.
Qed.

Lemma rr_triples_cons b e d t : b < e -> rr_triples (mkrr b e d t) = (b, d, t) :: rr_triples (mkrr (b + 1) e d (t + 1)).
Proof.
  intros. unfold rr_triples. cbn [rr_begin rr_end rr_dev rr_thin]. rewrite range_cons by lia. cbn [map].
  rewrite !N.add_0_r. f_equal.
  assert (HS: forall a n, map (fun i => (b + i, d, t + i)) (nseq (a + 1) n) = map (fun i => (b + 1 + i, d, t + 1 + i)) (nseq a n)).
  { intros a n. revert a. induction n; intros; cbn [nseq map]; [reflexivity|]. rewrite IHn. f_equal. f_equal; [f_equal|]; lia. }
  unfold range. rewrite HS. do 2 f_equal. lia.
Qed.
Lemma rr_triples_snoc b e d t : b <= e -> rr_triples (mkrr b (e + 1) d t) = rr_triples (mkrr b e d t) ++ [(e, d, t + (e - b))].
Proof.
  intros. unfold rr_triples. cbn [rr_begin rr_end rr_dev rr_thin].
  rewrite (range_app 0 (e - b) (e + 1 - b)) by lia. rewrite map_app. f_equal.
  rewrite range_cons by lia. rewrite range_nil by lia. cbn. f_equal. f_equal. f_equal. lia.
Qed.

Definition cur_ok (c : rregion) : Prop := rr_ok c \/ (rr_begin c = rr_end c /\ rr_end c < 2 ^ 64).
Lemma rruns_spec l : Forall (fun x => let '(data, dev, thin) := x in data < 2 ^ 40 /\ thin < 2 ^ 64 - 1) l ->
  forall cur, cur_ok cur ->
  flat_map rr_triples (rruns cur l) = rr_triples cur ++ l /\
  Forall rr_ok (rruns cur l) /\
  consecutive (fun a b => ~ rr_adj a b) (rruns cur l) /\
  (rr_ok cur -> exists c r, rruns cur l = c :: r /\ rr_begin c = rr_begin cur /\ rr_dev c = rr_dev cur /\ rr_thin c = rr_thin cur).
Proof.
  assert (2 ^ 40 < 2 ^ 64) as H40 by reflexivity.
  induction 1 as [|[[data dev] thin] l [Hd Ht] HF IH]; intros cur Hc.
  - cbn [rruns]. destruct (N.ltb_spec (rr_begin cur) (rr_end cur)).
    + cbn. destruct Hc as [Hc|[? ?]]; [|lia]. conj; auto. intros _. eauto 10.
    + cbn. destruct Hc as [[? ?]|[? ?]]; [lia|]. conj; auto.
      * rewrite app_nil_r. unfold rr_triples. rewrite range_nil by lia. reflexivity.
      * intros [? ?]. lia.
  - cbn [rruns]. unfold rr_adjacent.
    assert (Hone: cur_ok (mkrr data (wadd data 1) dev thin) /\ rr_ok (mkrr data (wadd data 1) dev thin) /\
       rr_triples (mkrr data (wadd data 1) dev thin) = [(data, dev, thin)]).
    { rewrite wadd_small by lia.
      assert (rr_ok (mkrr data (data + 1) dev thin)) by (unfold rr_ok; cbn; lia).
      conj; auto. left; auto.
      rewrite rr_triples_snoc by lia. unfold rr_triples. cbn [rr_begin rr_end]. rewrite range_nil by lia. cbn [map app].
      rewrite N.sub_diag, N.add_0_r. reflexivity. }
    destruct Hone as (Ho1 & Ho2 & Ho3).
    destruct Hc as [Hc|[Hc Hc2]].
    + destruct Hc as (C1 & C2 & C3). rewrite wsub_small by lia.
      destruct (N.eqb_spec (rr_end cur - rr_begin cur) 0) as [?|_]; [lia|].
      rewrite (wadd_small (rr_thin cur)) by lia.
      destruct (negb (dev =? rr_dev cur) || negb (data =? rr_end cur) || negb (thin =? rr_thin cur + (rr_end cur - rr_begin cur))) eqn:E.
      * destruct (IH _ Ho1) as (I1 & I2 & I3 & I4). destruct (I4 Ho2) as (c & r & Er & E1 & E2 & E3). conj.
        { cbn [flat_map]. rewrite I1, Ho3. reflexivity. }
        { constructor; auto. unfold rr_ok; auto. }
        { cbn [consecutive]. split; auto. rewrite Er. intros (A1 & A2 & A3). cbn in E1, E2, E3.
          rewrite !orb_true_iff, !negb_true_iff, !N.eqb_neq in E. destruct E as [[E|E]|E]; congruence. }
        { intros _. eauto 10. }
      * rewrite !orb_false_iff, !negb_false_iff, !N.eqb_eq in E. destruct E as [[-> ->] ->].
        rewrite wadd_small by lia.
        assert (Hn: rr_ok (mkrr (rr_begin cur) (rr_end cur + 1) (rr_dev cur) (rr_thin cur))) by (unfold rr_ok; cbn; lia).
        destruct (IH _ (or_introl Hn)) as (I1 & I2 & I3 & I4). conj; auto.
        { rewrite I1, rr_triples_snoc by lia. destruct cur; cbn. rewrite <- app_assoc. reflexivity. }
    + rewrite wsub_small by lia. rewrite Hc, N.sub_diag. cbn [N.eqb].
      destruct (IH _ Ho1) as (I1 & I2 & I3 & I4). conj; auto.
      * rewrite I1, Ho3. replace (rr_triples cur) with (@nil (N * N * N)); [reflexivity|].
        unfold rr_triples. rewrite range_nil by lia. reflexivity.
      * intros [? ?]. lia.
Qed.

Lemma rr_insert_perm x l : Permutation (rr_insert x l) (x :: l).
Proof.
  induction l as [|y r IH]; cbn; auto. destruct (rr_le x y); auto.
  rewrite IH. apply perm_swap.
Qed.
Lemma rr_sort_perm l : Permutation (rr_sort l) l.
Proof. induction l; cbn; auto. unfold rr_sort in *. rewrite rr_insert_perm. auto. Qed.
Lemma rr_le_begin x y : rr_le x y = true -> rr_begin x <= rr_begin y.
Proof. unfold rr_le. destruct (N.ltb_spec (rr_begin x) (rr_begin y)); [lia|]. destruct (N.ltb_spec (rr_begin y) (rr_begin x)); [discriminate|lia]. Qed.
Lemma rr_le_false x y : rr_le x y = false -> rr_begin y <= rr_begin x.
Proof. unfold rr_le. destruct (N.ltb_spec (rr_begin x) (rr_begin y)); [discriminate|lia]. Qed.
Lemma rr_insert_sorted x l : StronglySorted rr_before l -> StronglySorted rr_before (rr_insert x l).
Proof.
  induction 1 as [|y r Hs IH Hf]; cbn.
  - repeat constructor.
  - destruct (rr_le x y) eqn:E.
    + constructor; [constructor; auto|]. apply rr_le_begin in E. constructor; [exact E|].
      eapply Forall_impl; [|apply Hf]. unfold rr_before. intros; lia.
    + constructor; auto. apply rr_le_false in E. rewrite Forall_forall in *. intros z Hz.
      apply (Permutation_in _ (rr_insert_perm x r)) in Hz. destruct Hz as [<-|Hz]; auto.
Qed.
Lemma rr_sort_sorted l : StronglySorted rr_before (rr_sort l).
Proof. induction l; cbn; [constructor|]. apply rr_insert_sorted. auto. Qed.

(** lexicographic order of (device, thin block) *)
Definition lex (x y : N * N * N) : Prop :=
  let '(_, d, t) := x in let '(_, d', t') := y in d < d' \/ (d = d' /\ t < t').

Lemma rr_triples_last b e d t : b < e -> In (e - 1, d, t + (e - b) - 1) (rr_triples (mkrr b e d t)).
Proof.
  intros. unfold rr_triples. cbn [rr_begin rr_end rr_dev rr_thin]. apply in_map_iff. exists (e - b - 1).
  split; [|apply in_range; lia]. f_equal; [f_equal|]; lia.
Qed.
Lemma rr_triples_first b e d t : b < e -> In (b, d, t) (rr_triples (mkrr b e d t)).
Proof. intros. rewrite rr_triples_cons by auto. left; auto. Qed.

Lemma StronglySorted_app {A} (R : A -> A -> Prop) l1 l2 : StronglySorted R (l1 ++ l2) ->
  StronglySorted R l1 /\ StronglySorted R l2 /\ forall x y, In x l1 -> In y l2 -> R x y.
Proof.
  induction l1 as [|a r IH]; cbn; intros H.
  - split; [constructor|]. split; auto. intros ? ? [].
  - inversion H as [|? ? Hs Hf]; subst. destruct (IH Hs) as (I1 & I2 & I3). rewrite Forall_app in Hf. destruct Hf as [F1 F2].
    conj; auto. constructor; auto. intros x y [<-|Hx] Hy; auto. rewrite Forall_forall in F2. auto.
Qed.

Lemma rr_no_adj l : Forall rr_ok l -> StronglySorted lex (flat_map rr_triples l) ->
  consecutive (fun a b => ~ rr_adj a b) l -> forall a b, In a l -> In b l -> ~ rr_adj a b.
Proof.
  induction l as [|r l IH]; intros HF HS HC a b Ha Hb Hadj; [destruct Ha|].
  inversion HF as [|? ? Hr HF']; subst. cbn [flat_map] in HS. apply StronglySorted_app in HS as (S1 & S2 & S3).
  cbn [consecutive] in HC. destruct HC as [HC1 HC2].
  assert (Hfst: forall x, In x l -> In (rr_begin x, rr_dev x, rr_thin x) (flat_map rr_triples l)).
  { intros x Hx. apply in_flat_map. exists x. split; auto. rewrite Forall_forall in HF'. destruct (HF' x Hx) as (? & _).
    destruct x; cbn in *. apply rr_triples_first; auto. }
  destruct Ha as [<-|Ha], Hb as [<-|Hb].
  - destruct Hadj as (_ & ? & _). destruct Hr; lia.
  - (* a is the head *)
    destruct l as [|r' l']; [destruct Hb|].
    pose proof (Hfst r' (or_introl eq_refl)) as Hr'. pose proof (Hfst b Hb) as Hb'.
    destruct Hr as (Hr1 & Hr2 & Hr3).
    assert (Hlast: In (rr_end r - 1, rr_dev r, rr_thin r + (rr_end r - rr_begin r) - 1) (rr_triples r)).
    { destruct r; cbn in *. apply rr_triples_last; auto. }
    pose proof (S3 _ _ Hlast Hr') as L1. cbn in L1. destruct Hadj as (A1 & A2 & A3).
    destruct Hb as [<-|Hb].
    { apply HC1. unfold rr_adj. auto. }
    assert (L2: lex (rr_begin r', rr_dev r', rr_thin r') (rr_begin b, rr_dev b, rr_thin b)).
    { cbn [flat_map] in S2. apply StronglySorted_app in S2 as (_ & _ & S4). apply S4.
      - inversion HF' as [|? ? (? & _) _]; subst. destruct r'; cbn in *. apply rr_triples_first; auto.
      - apply in_flat_map. exists b. split; auto. rewrite Forall_forall in HF'. destruct (HF' b (or_intror Hb)) as (? & _).
        destruct b; cbn in *. apply rr_triples_first; auto. }
    cbn in L2. lia.
  - (* b is the head *)
    destruct Hadj as (A1 & A2 & A3). rewrite Forall_forall in HF'. destruct (HF' a Ha) as (Ha1 & _ & _).
    assert (Hin: In (rr_begin a, rr_dev a, rr_thin a) (flat_map rr_triples l)) by auto.
    assert (In (rr_begin r, rr_dev r, rr_thin r) (rr_triples r)).
    { destruct Hr as (? & _). destruct r; cbn in *. apply rr_triples_first; auto. }
    specialize (S3 _ _ H Hin). cbn in S3. lia.
  - exact (IH HF' S2 HC2 a b Ha Hb Hadj).
Qed.

(** ** migration stream *)
Lemma contiguous_run_spec ks : forall begin count,
  increasing (begin + count - 1 :: ks) -> 1 <= count -> (forall k, In k ks -> k < 2 ^ 64 - 1) -> begin + count < 2 ^ 64 ->
  exists n rest, contiguous_run begin count ks = (count + n, rest) /\
    ks = nseq (begin + count) (N.to_nat n) ++ rest /\ (forall k, In k rest -> begin + count + n < k).
Proof.
  induction ks as [|k r IH]; intros begin count Hi Hc Hb Hw; cbn [contiguous_run].
  - exists 0, []. rewrite N.add_0_r. conj; auto. intros ? [].
  - rewrite wadd_small by lia.
    destruct (N.eqb_spec k (begin + count)) as [->|Hne].
    + assert (begin + count < 2 ^ 64 - 1) by (apply Hb; left; auto).
      rewrite wadd_small by lia.
      destruct (IH begin (count + 1)) as (n & rest & -> & -> & Hr).
      * replace (begin + (count + 1) - 1) with (begin + count) by lia. apply increasing_strong in Hi. apply Hi.
      * lia.
      * intros. apply Hb. right; auto.
      * lia.
      * exists (n + 1), rest. conj.
        { f_equal. lia. }
        { replace (N.to_nat (n + 1)) with (S (N.to_nat n)) by lia. cbn [nseq app].
          replace (begin + (count + 1)) with (begin + count + 1) by lia. reflexivity. }
        { intros. apply Hr in H0. lia. }
    + exists 0, (k :: r). rewrite !N.add_0_r. conj; auto.
      assert (Hk: begin + count < k).
      { assert (begin + count - 1 < k) by (eapply increasing_head_lt; eauto; left; auto). lia. }
      intros x [<-|Hx]; auto. apply increasing_strong in Hi as [_ Hi]. apply increasing_strong in Hi as [Hi _].
      specialize (Hi _ Hx). lia.
Qed.

Lemma thin_stream_spec bs : 0 < bs -> forall fuel current ks,
  increasing ks -> (forall k, In k ks -> current <= k /\ (k + 1) * bs < 2 ^ 64) -> current * bs < 2 ^ 64 ->
  (2 * length ks + match ks with k :: _ => if (k =? current)%N then 0 else 1 | [] => 0 end < fuel)%nat ->
  exists cs, thin_stream fuel bs current ks = Ok cs /\
    contiguous (current * bs) cs (match ks with [] => current * bs | _ => (last ks 0 + 1) * bs end) /\
    (forall byte, copies cs Copy byte <-> In (byte / bs) ks) /\
    (forall byte, copies cs Skip byte <-> current * bs <= byte /\ byte < match ks with [] => 0 | _ => (last ks 0 + 1) * bs end /\ ~ In (byte / bs) ks) /\
    consecutive (fun a b => ck_contents a <> ck_contents b) cs /\
    (match cs with c :: _ => (ck_contents c = Copy -> In current ks) | [] => True end).
Proof.
  intros Hbs. induction fuel as [|f IH]; intros current ks Hi Hk Hcur Hf; [lia|].
  cbn [thin_stream]. destruct ks as [|k r].
  { exists []. cbn. conj; auto.
    - intros. split; [|tauto]. intros (? & [] & _).
    - intros. split; [|lia]. intros (? & [] & _). }
  assert (Hle: current <= k /\ (k + 1) * bs < 2 ^ 64) by (apply Hk; left; auto).
  assert (Hk64: forall x, (x + 1) * bs < 2 ^ 64 -> x < 2 ^ 64 - 1) by (intros; nia).
  rewrite (wmul_small current bs Hcur).
  destruct (N.eqb_spec k current) as [->|Hne].
  - destruct (contiguous_run_spec r current 1) as (n & rest & -> & Hr & Hrest).
    { replace (current + 1 - 1) with current by lia. auto. }
    { lia. }
    { intros x Hx. apply Hk64. apply Hk. right; auto. }
    { specialize (Hk64 current). lia. }
    assert (Hlast: current + (1 + n) - 1 = last (current :: nseq (current + 1) (N.to_nat n)) 0).
    { clear. assert (HG: forall m a, last (nseq a (S m)) 0 = a + N.of_nat m).
      { induction m; intros; [cbn; lia|]. change (nseq a (S (S m))) with (a :: nseq (a + 1) (S m)).
        change (last (a :: nseq (a + 1) (S m)) 0) with (last (nseq (a + 1) (S m)) 0). rewrite IHm. lia. }
      change (current :: nseq (current + 1) (N.to_nat n)) with (nseq current (S (N.to_nat n))). rewrite HG. lia. }
    assert (Hend: (current + (1 + n)) * bs < 2 ^ 64).
    { destruct (N.eq_dec n 0) as [->|Hn]; [replace (current + (1 + 0)) with (current + 1) by lia; tauto|].
      assert (Hin: In (current + n) (current :: r)).
      { right. rewrite Hr. apply in_or_app. left. apply in_nseq. lia. }
      apply Hk in Hin. replace (current + (1 + n)) with (current + n + 1) by lia. tauto. }
    assert (Hsub: current + (1 + n) < 2 ^ 64) by nia.
    rewrite (wadd_small current (1 + n) Hsub).
    destruct (IH (current + (1 + n)) rest) as (cs & -> & I1 & I2 & I3 & I4 & I5).
    { rewrite Hr in Hi. apply increasing_strong in Hi as [_ Hi]. apply increasing_app in Hi. tauto. }
    { intros x Hx. split.
      - apply Hrest in Hx. lia.
      - apply Hk. right. rewrite Hr. apply in_or_app; auto. }
    { auto. }
    { rewrite Hr in Hf. cbn [length] in Hf. rewrite app_length, nseq_length in Hf.
      destruct rest as [|x rr]; [cbn in *; lia|]. destruct (x =? current + (1 + n)); lia. }
    cbn [bind]. eexists. split; [reflexivity|].
    rewrite wmul_small by (eapply N.le_lt_trans; [|exact Hend]; apply N.mul_le_mono_r; lia).
    assert (HLR: match rest with [] => (current + (1 + n)) * bs | _ => (last rest 0 + 1) * bs end = (last (current :: r) 0 + 1) * bs).
    { rewrite Hr. destruct rest as [|x rr].
      - rewrite app_nil_r, <- Hlast. f_equal. lia.
      - rewrite app_comm_cons. f_equal. f_equal. symmetry.
        clear. induction (current :: nseq (current + 1) (N.to_nat n)) as [|a l IH]; [reflexivity|].
        cbn [app]. rewrite <- IH. destruct l; reflexivity. }
    assert (HIn: forall x, In x (current :: r) <-> (current <= x < current + (1 + n)) \/ In x rest).
    { intros x. rewrite Hr. cbn [In]. rewrite in_app_iff, in_nseq. split.
      - intros [<-|[?|?]]; [left; lia|left; lia|right; auto].
      - intros [H|H]; [|right; right; auto]. destruct (N.eq_dec current x); [left; auto|right; left; lia]. }
    assert (Hdiv: forall byte, (current * bs <= byte < current * bs + (1 + n) * bs) <-> current <= byte / bs < current + (1 + n)).
    { intros byte. pose proof (N.div_mod byte bs ltac:(lia)) as D. pose proof (N.mod_lt byte bs ltac:(lia)) as M.
      set (q := byte / bs) in *. set (m := byte mod bs) in *. clearbody q m. split; nia. }
    conj.
    + cbn [contiguous ck_offset ck_len]. conj; auto. nia.
      replace (current * bs + (1 + n) * bs) with ((current + (1 + n)) * bs) by lia.
      rewrite <- HLR. destruct rest; auto.
    + intros byte. rewrite HIn. rewrite <- I2. unfold copies. split.
      * intros (c & [<-|Hin] & Hc & Hb); [left; apply Hdiv; auto|right; eauto].
      * intros [Hb|(c & Hin & Hc & Hb)].
        { eexists. split; [left; reflexivity|]. split; auto. cbn. apply Hdiv. auto. }
        { exists c. split; [right; auto|auto]. }
    + intros byte. rewrite HIn. split.
      * intros (c & [<-|Hin] & Hc & Hb); [discriminate|].
        assert (HSk: copies cs Skip byte) by (exists c; auto). apply I3 in HSk. destruct HSk as (S1 & S2 & S3).
        destruct rest as [|x rr]; [lia|]. rewrite <- HLR. conj; [lia|auto|].
        intros [Hx|Hx]; [|auto]. apply Hdiv in Hx. lia.
      * intros (S1 & S2 & S3).
        assert (HSk: copies cs Skip byte).
        { apply I3. conj.
          - assert (~ (current * bs <= byte < current * bs + (1 + n) * bs)) by (rewrite Hdiv; tauto). lia.
          - rewrite <- HLR in S2. destruct rest; auto.
            assert (current * bs <= byte < current * bs + (1 + n) * bs) by lia. apply Hdiv in H. tauto.
          - tauto. }
        destruct HSk as (c & Hin & Hc). exists c. split; [right; auto|auto].
    + cbn [consecutive]. split; auto. destruct cs as [|c cs']; auto. cbn [ck_contents]. intros Hc.
      symmetry in Hc. apply I5 in Hc. apply Hrest in Hc. lia.
    + left. auto.
  - rewrite wsub_small by (specialize (Hk64 k); lia).
    assert (Hkb: k * bs < 2 ^ 64) by nia.
    destruct (IH k (k :: r)) as (cs & -> & I1 & I2 & I3 & I4 & I5).
    { auto. }
    { intros x Hx. split; [|apply Hk; auto]. destruct Hx as [<-|Hx]; [lia|].
      apply increasing_strong in Hi as [Hi _]. specialize (Hi _ Hx). lia. }
    { auto. }
    { rewrite N.eqb_refl. cbn [length] in *. lia. }
    cbn [bind]. eexists. split; [reflexivity|].
    rewrite wmul_small by (eapply N.le_lt_trans; [|exact Hkb]; apply N.mul_le_mono_r; lia).
    assert (Hlt: current < k) by lia.
    assert (Hnotin: forall x, x < k -> ~ In x (k :: r)).
    { intros x Hx [->|Hin]; [lia|]. apply increasing_strong in Hi as [Hi _]. specialize (Hi _ Hin). lia. }
    assert (Hlast: k <= last (k :: r) 0).
    { clear - Hi. revert k Hi. induction r as [|a r IH]; intros k Hi; [cbn; lia|].
      change (last (k :: a :: r) 0) with (last (a :: r) 0).
      apply increasing_cons in Hi as [H1 H2]. specialize (IH _ H2). lia. }
    conj.
    + cbn [contiguous ck_offset ck_len]. conj; auto. nia.
      replace (current * bs + (k - current) * bs) with (k * bs) by nia. auto.
    + intros byte. rewrite <- I2. unfold copies. split.
      * intros (c & [<-|Hin] & Hc & Hb); [discriminate|eauto].
      * intros (c & Hin & Hc). exists c. split; [right; auto|auto].
    + intros byte. split.
      * intros (c & [<-|Hin] & Hc & Hb).
        { cbn [ck_offset ck_len] in Hb. replace (current * bs + (k - current) * bs) with (k * bs) in Hb by nia. conj; try nia.
          apply Hnotin. apply N.div_lt_upper_bound; nia. }
        { assert (HSk: copies cs Skip byte) by (exists c; auto). apply I3 in HSk. destruct HSk as (S1 & S2 & S3). conj; auto. nia. }
      * intros (S1 & S2 & S3). destruct (N.lt_ge_cases byte (k * bs)).
        { eexists. split; [left; reflexivity|]. split; auto. cbn [ck_offset ck_len]. nia. }
        { assert (HSk: copies cs Skip byte) by (apply I3; auto). destruct HSk as (c & Hin & Hc). exists c. split; [right; auto|auto]. }
    + cbn [consecutive]. split; auto. destruct cs as [|c cs']; auto. cbn [ck_contents]. intros Hc.
      destruct (ck_contents c) eqn:Ec; [discriminate|].
      (* a Skip right after a Skip would start at k, which is mapped *)
      cbn [contiguous] in I1. destruct I1 as (J1 & J2 & _).
      assert (HSk: copies (c :: cs') Skip (k * bs)) by (exists c; split; [left; auto|]; split; auto; lia).
      apply I3 in HSk. destruct HSk as (_ & _ & HH). rewrite N.div_mul in HH by lia. apply HH. left. auto.
    + discriminate.
Qed.
