(** The order on candidate roots, the bounds, and the tables of times. *)
From Coq Require Import Permutation Sorted.
From Verif Require Import Base Csum_Model Codec_Model Repair_Model Repair_Spec.

(** ** The comparison *)
Lemma compare_rev_opp l : forall r, compare_rev r l = CompOpp (compare_rev l r).
Proof.
  induction l as [|[lt lc] l IH]; intros [|[rt rc] r]; auto. cbn [compare_rev].
  destruct (N.ltb_spec lt rt), (N.ltb_spec rt lt), (N.ltb_spec rc lc), (N.ltb_spec lc rc); cbn; auto; lia.
Qed.
Lemma compare_rev_eq l : forall r, compare_rev l r = Eq <-> l = r.
Proof.
  induction l as [|[lt lc] l IH]; intros [|[rt rc] r]; cbn [compare_rev]; split; try discriminate; auto.
  - destruct (N.ltb_spec rt lt), (N.ltb_spec lt rt), (N.ltb_spec rc lc), (N.ltb_spec lc rc); try discriminate.
    intros HE. apply IH in HE. f_equal; [f_equal; lia|auto].
  - intros [= -> -> ->]. rewrite !N.ltb_irrefl. apply IH. auto.
Qed.
Lemma compare_rev_trans l : forall r q, compare_rev l r = Lt -> compare_rev r q = Lt -> compare_rev l q = Lt.
Proof.
  induction l as [|[lt lc] l IH]; intros [|[rt rc] r] [|[qt qc] q]; cbn [compare_rev]; try discriminate; auto.
  destruct (N.ltb_spec rt lt), (N.ltb_spec lt rt), (N.ltb_spec rc lc), (N.ltb_spec lc rc); try discriminate;
    destruct (N.ltb_spec qt rt), (N.ltb_spec rt qt), (N.ltb_spec qc rc), (N.ltb_spec rc qc); try discriminate;
    destruct (N.ltb_spec qt lt), (N.ltb_spec lt qt), (N.ltb_spec qc lc), (N.ltb_spec lc qc); try lia; auto.
  apply IH.
Qed.

(** Tables with their times in descending order. *)
Fixpoint falling (m : list (N * N)) : Prop :=
  match m with [] => True | (t, c) :: r => (forall t' , In t' (map fst r) -> t' < t) /\ falling r end.
Definition positive (m : list (N * N)) : Prop := forall tc, In tc m -> 0 < snd tc.
Lemma count_at_none t m : ~ In t (map fst m) -> count_at t m = 0.
Proof.
  unfold count_at. induction m as [|[t' c] m IH]; cbn [find map In fst]; auto. intros H.
  destruct (N.eqb_spec t' t); [tauto|]. apply IH. tauto.
Qed.
Lemma count_at_cons t t' c m : count_at t ((t', c) :: m) = if t' =? t then c else count_at t m.
Proof. unfold count_at. cbn [find fst]. destruct (t' =? t); auto. Qed.
Lemma count_at_pos t m : positive m -> In t (map fst m) -> 0 < count_at t m.
Proof.
  intros P. induction m as [|[t' c] m IH]; cbn [map In fst]; [tauto|]. intros H. rewrite count_at_cons.
  destruct (N.eqb_spec t' t); [apply (P (t', c)); left; auto|]. apply IH; [|tauto]. intros x Hx. apply P. right; auto.
Qed.
Lemma falling_beyond t m : falling m -> (forall t', In t' (map fst m) -> t' < t) -> forall t', t <= t' -> count_at t' m = 0.
Proof. intros _ H t' Ht. apply count_at_none. intros Hi. apply H in Hi. lia. Qed.

Lemma compare_ahead l : forall r, falling l -> falling r -> positive l -> positive r -> compare_rev l r = Lt -> ahead l r.
Proof.
  induction l as [|[lt lc] l IH]; intros [|[rt rc] r] Fl Fr Pl Pr; cbn [compare_rev]; try discriminate.
  - intros _. exists lt. rewrite count_at_cons, N.eqb_refl. split; [apply (Pl (lt, lc)); left; auto|].
    intros t' Ht. rewrite count_at_cons. destruct (N.eqb_spec lt t'); [lia|].
    destruct Fl as [F1 F2]. apply (falling_beyond lt l F2 F1). lia.
  - destruct Fl as [F1 F2], Fr as [G1 G2].
    assert (Bl : forall t', lt <= t' -> count_at t' l = 0) by (apply falling_beyond; auto).
    assert (Br : forall t', rt <= t' -> count_at t' r = 0) by (apply falling_beyond; auto).
    pose proof (Pl (lt, lc) (or_introl eq_refl)) as Hlc. cbn [snd] in Hlc.
    destruct (N.ltb_spec rt lt) as [Hlt|Hge].
    { intros _. exists lt. rewrite !count_at_cons, N.eqb_refl. destruct (N.eqb_spec rt lt); [lia|]. rewrite Br by lia.
      split; [auto|]. intros t' Ht. rewrite !count_at_cons. destruct (N.eqb_spec lt t'), (N.eqb_spec rt t'); try lia.
      rewrite Bl, Br by lia. auto. }
    destruct (N.ltb_spec lt rt); [discriminate|]. assert (E : lt = rt) by lia. subst rt.
    destruct (N.ltb_spec rc lc) as [Hlt|Hge'].
    { intros _. exists lt. rewrite !count_at_cons, N.eqb_refl. split; [auto|]. intros t' Ht.
      rewrite !count_at_cons. destruct (N.eqb_spec lt t'); [lia|]. rewrite Bl, Br by lia. auto. }
    destruct (N.ltb_spec lc rc); [discriminate|]. assert (E : lc = rc) by lia. subst rc.
    intros H1. destruct (IH r F2 G2) as (t & Ht & Hb); auto.
    { intros x Hx. apply Pl. right; auto. } { intros x Hx. apply Pr. right; auto. }
    assert (Htl : t < lt).
    { destruct (N.lt_ge_cases t lt); auto. rewrite (Bl t) in Ht by auto. lia. }
    exists t. rewrite !count_at_cons. destruct (N.eqb_spec lt t); [lia|]. split; [auto|].
    intros t' Ht'. rewrite !count_at_cons. destruct (lt =? t'); auto.
Qed.

Lemma count_at_rev t m : NoDup (map fst m) -> count_at t (rev m) = count_at t m.
Proof.
  intros H. induction m as [|[t' c] m IH]; auto. cbn [rev]. cbn [map fst] in H. inversion H; subst.
  assert (E : forall a b, count_at t (a ++ b) = if existsb (fun x => fst x =? t) a then count_at t a else count_at t b).
  { clear. intros a b. unfold count_at. induction a as [|[x y] a IH]; cbn [app find existsb fst]; auto.
    destruct (x =? t); cbn [orb]; auto. }
  rewrite E, !count_at_cons, IH by auto.
  destruct (existsb _ (rev m)) eqn:Ex.
  - destruct (N.eqb_spec t' t); auto. subst t'. apply existsb_exists in Ex. destruct Ex as ([x y] & Hx & Hy).
    apply in_rev in Hx. cbn [fst] in Hy. apply N.eqb_eq in Hy. subst x. exfalso. apply H2. apply in_map_iff. exists (t, y). auto.
  - destruct (N.eqb_spec t' t); auto. rewrite count_at_none; auto. rewrite count_at_none; auto.
    intros Hi. apply in_map_iff in Hi. destruct Hi as ([x y] & Hx & Hy). cbn [fst] in Hx. subst x.
    assert (existsb (fun x => fst x =? t) (rev m) = true).
    { apply existsb_exists. exists (t, y). split; [apply in_rev in Hy || apply -> in_rev; auto|cbn [fst]; apply N.eqb_refl]. }
    congruence.
Qed.
Lemma rising_falling m : increasing (map fst m) -> falling (rev m).
Proof.
  assert (A : forall a b, falling a -> falling b -> (forall x y, In x (map fst a) -> In y (map fst b) -> y < x) -> falling (a ++ b)).
  { induction a as [|[t c] a IH]; intros b Fa Fb H; auto. cbn [app falling]. destruct Fa as [F1 F2]. split.
    - intros t' Ht. rewrite map_app, in_app_iff in Ht. destruct Ht as [Ht|Ht]; [auto|]. apply H; [left; auto|auto].
    - apply IH; auto. intros x y Hx Hy. apply H; [right; auto|auto]. }
  induction m as [|[t c] m IH]; intros H; cbn [rev map fst falling]; auto. cbn [map fst] in H.
  apply A; [apply IH; exact (proj2 H)|split; [intros ? []|exact I]|].
  intros x y Hx [<-|[]]. cbn [fst]. apply (increasing_head_lt _ _ _ H). rewrite map_rev in Hx. apply in_rev in Hx. auto.
Qed.
Lemma ahead_rev a b : increasing (map fst a) -> increasing (map fst b) -> ahead (rev a) (rev b) <-> ahead a b.
Proof.
  intros Ha Hb. unfold ahead.
  split; intros (t & H1 & H2); exists t; rewrite ?count_at_rev in *; auto using increasing_NoDup;
    (split; [auto|]); intros t' Ht; specialize (H2 t' Ht); rewrite ?count_at_rev in *; auto using increasing_NoDup.
Qed.
Lemma ahead_asym a b : ahead a b -> ahead b a -> False.
Proof.
  intros (t & H1 & H2) (u & G1 & G2). destruct (N.lt_trichotomy t u) as [H|[H|H]].
  - specialize (H2 u H). lia.
  - subst u. lia.
  - specialize (G2 t H). lia.
Qed.
Lemma compare_lt_ahead a b : increasing (map fst a) -> increasing (map fst b) -> positive a -> positive b ->
  compare_time_counts a b = Lt <-> ahead a b.
Proof.
  intros Ha Hb Pa Pb. unfold compare_time_counts.
  assert (Pr : forall m, positive m -> positive (rev m)) by (intros m P x Hx; apply P, in_rev; auto).
  assert (L : forall a b, increasing (map fst a) -> increasing (map fst b) -> positive a -> positive b ->
     compare_rev (rev a) (rev b) = Lt -> ahead a b).
  { intros x y Hx Hy Px Py H. apply ahead_rev; auto. apply compare_ahead; auto using rising_falling. }
  split; [auto|]. intros H. destruct (compare_rev (rev a) (rev b)) eqn:E; auto.
  - apply compare_rev_eq in E. rewrite <- (rev_involutive a), E, rev_involutive in H. exfalso. eapply ahead_asym; eauto.
  - exfalso. eapply ahead_asym; [exact H|]. apply L; auto. rewrite compare_rev_opp, E. auto.
Qed.

(** ** Tables of times *)
Lemma tc_add_in t c m x : In x (map fst (tc_add t c m)) <-> x = t \/ In x (map fst m).
Proof.
  induction m as [|[t' c'] m IH]; cbn [tc_add map In fst]; [intuition|].
  destruct (N.ltb_spec t t'); cbn [map In fst]; [intuition|].
  destruct (N.eqb_spec t t'); cbn [map In fst]; [subst t'; intuition|]. rewrite IH. intuition.
Qed.
Lemma tc_add_rising t c m : increasing (map fst m) -> increasing (map fst (tc_add t c m)).
Proof.
  induction m as [|[t' c'] m IH]; cbn [tc_add map fst]; intros H; [cbn; auto|].
  destruct (N.ltb_spec t t'); [cbn [map fst]; apply increasing_cons; split; auto|].
  destruct (N.eqb_spec t t'); [subst t'; cbn [map fst]; auto|]. cbn [map fst].
  apply increasing_strong. apply increasing_strong in H. destruct H as [H1 H2]. split; [|auto].
  intros x Hx. apply tc_add_in in Hx. destruct Hx as [->|Hx]; [lia|auto].
Qed.
Lemma tc_add_count t c m x : increasing (map fst m) ->
  count_at x (tc_add t c m) = if x =? t then add_u32 (count_at t m) c else count_at x m.
Proof.
  induction m as [|[t' c'] m IH]; cbn [tc_add map fst]; intros H.
  - rewrite count_at_cons. change (count_at t []) with 0. rewrite (N.eqb_sym t x). auto.
  - destruct (N.ltb_spec t t') as [Hl|Hl].
    { rewrite count_at_cons, (N.eqb_sym t x). destruct (N.eqb_spec x t); auto. subst x.
      rewrite (count_at_none t); auto. intros Hi. cbn [map fst In] in Hi.
      destruct Hi as [->|Hi]; [lia|]. apply (increasing_head_lt _ _ _ H) in Hi. lia. }
    destruct (N.eqb_spec t t') as [E|E].
    { subst t'. rewrite !count_at_cons, N.eqb_refl, (N.eqb_sym t x). destruct (x =? t); auto. }
    rewrite !count_at_cons, IH by (exact (proj2 H)).
    destruct (N.eqb_spec t' x), (N.eqb_spec x t), (N.eqb_spec t' t); try lia; auto.
Qed.
Lemma count_32 t m ts : counts_times m ts -> count_at t m < 2 ^ 32.
Proof. intros (_ & _ & H). rewrite H. apply N.mod_lt. discriminate. Qed.
Lemma times_at_app t a b : times_at t (a ++ b) = times_at t a + times_at t b.
Proof. unfold times_at, nlen. rewrite filter_app, app_length. lia. Qed.
Lemma counts_nil : counts_times [] [].
Proof. unfold counts_times; conj; [exact I|intros t; reflexivity|intros t; reflexivity]. Qed.
Lemma counts_add m ts t : counts_times m ts -> counts_times (tc_add t 1 m) (ts ++ [t]).
Proof.
  intros (H1 & H2 & H3). unfold counts_times; conj; [apply tc_add_rising; auto| |].
  - intros x. rewrite tc_add_in, in_app_iff, H2. cbn [In]. intuition.
  - intros x. rewrite tc_add_count by auto. rewrite times_at_app. unfold times_at at 2. cbn [filter].
    destruct (N.eqb_spec x t); [subst x; unfold add_u32; rewrite H3; change (nlen [t]) with 1; change W32 with (2 ^ 32); rewrite N.add_mod_idemp_l by discriminate; auto|].
    change (nlen (@nil N)) with 0. rewrite N.add_0_r. auto.
Qed.
Lemma merge_counts_gen rest : forall m x, increasing (map fst rest) -> increasing (map fst m) ->
  let m' := fold_left (fun m tc => tc_add (fst tc) (snd tc) m) rest m in
  increasing (map fst m') /\ (In x (map fst m') <-> In x (map fst m) \/ In x (map fst rest)) /\
  count_at x m' = if existsb (fun tc => fst tc =? x) rest then add_u32 (count_at x m) (count_at x rest) else count_at x m.
Proof.
  induction rest as [|[t c] rest IH]; intros m x Hr Hm; cbn [fold_left map In existsb fst snd].
  - conj; [auto|tauto|auto].
  - cbn [map fst] in Hr. pose proof (IH (tc_add t c m) x (proj2 Hr) (tc_add_rising t c m Hm)) as HI. cbv zeta in HI. destruct HI as (I1 & I2 & I3).
    conj; [auto|rewrite I2, tc_add_in; intuition|].
    rewrite I3, tc_add_count, count_at_cons by auto. rewrite (N.eqb_sym t x).
    destruct (N.eqb_spec x t) as [E|E]; cbn [orb]; [|destruct (existsb _ rest); auto]. subst x.
    destruct (existsb _ rest) eqn:Ex; auto.
    apply existsb_exists in Ex. destruct Ex as ([a b] & Ha & Hb). cbn [fst] in Hb. apply N.eqb_eq in Hb. subst a.
    assert (Hi : In t (map fst rest)) by (apply in_map_iff; exists (t, b); auto).
    apply (increasing_head_lt _ _ _ Hr) in Hi. lia.
Qed.
Lemma merge_counts a ta b tb : counts_times a ta -> counts_times b tb -> counts_times (merge_time_counts a b) (ta ++ tb).
Proof.
  intros (A1 & A2 & A3) (B1 & B2 & B3). unfold merge_time_counts.
  assert (M := fun x => merge_counts_gen b a x B1 A1). cbv zeta in M.
  unfold counts_times. conj; [apply (M 0)| |]; intros x; destruct (M x) as (M1 & M2 & M3).
  - rewrite M2, in_app_iff, A2, B2. tauto.
  - rewrite M3, times_at_app. unfold add_u32. change W32 with (2 ^ 32).
    destruct (existsb _ b) eqn:Ex.
    + rewrite A3, B3. rewrite <- N.add_mod by discriminate. auto.
    + rewrite A3. assert (E : times_at x tb = 0).
      { unfold times_at. destruct (filter (N.eqb x) tb) as [|y l] eqn:F; auto. exfalso.
        assert (Hy : In y (filter (N.eqb x) tb)) by (rewrite F; left; auto). apply filter_In in Hy. destruct Hy as [Hy Hxy].
        apply N.eqb_eq in Hxy. subst y. apply B2 in Hy. apply in_map_iff in Hy. destruct Hy as ([u v] & Hu & Hv). cbn [fst] in Hu. subst u.
        assert (existsb (fun tc => fst tc =? x) b = true) by (apply existsb_exists; exists (x, v); split; [auto|cbn [fst]; apply N.eqb_refl]).
        congruence. }
      rewrite E, N.add_0_r. auto.
Qed.

(** ** The bounds *)
Section Bounds.
Context (less : det_info -> bool) (infos : list det_info).
(** once the test fails it fails ever after *)
Hypothesis mono : forall i j a b, (i <= j)%nat -> nth_error infos i = Some a -> nth_error infos j = Some b -> less b = true -> less a = true.

Lemma bound_loop_spec fuel : forall b e, (b <= e)%nat -> (e <= length infos)%nat -> (e - b <= fuel)%nat ->
  (forall i a, (i < b)%nat -> nth_error infos i = Some a -> less a = true) ->
  (forall i a, (e <= i)%nat -> nth_error infos i = Some a -> less a = false) ->
  let r := bound_loop fuel less infos b e in
  (b <= r <= e)%nat /\ forall i a, nth_error infos i = Some a -> less a = true <-> (i < r)%nat.
Proof using mono.
  induction fuel as [|fuel IH]; intros b e Hbe He Hf Hlo Hhi; cbn [bound_loop].
  - assert (E : b = e) by lia. subst e. split; [lia|]. intros i a Ha. split; [|intros; eapply Hlo; eauto].
    intros H. destruct (Nat.lt_ge_cases i b); auto. rewrite (Hhi i a) in H by auto. discriminate.
  - destruct (Nat.ltb_spec b e) as [Hlt|Hge].
    + assert (Hm : (b <= b + (e - b) / 2 < e)%nat) by (pose proof (Nat.div_lt (e - b) 2 ltac:(lia) ltac:(lia)); lia).
      set (mid := (b + (e - b) / 2)%nat) in *. destruct (nth_error infos mid) as [x|] eqn:Ex.
      2:{ apply nth_error_None in Ex. lia. }
      destruct (less x) eqn:Lx.
      * destruct (IH (S mid) e) as [I1 I2]; [lia|lia|lia| |auto|split; [lia|auto]].
        intros i a Hi Ha. eapply (mono i mid); eauto. lia.
      * destruct (IH b mid) as [I1 I2]; [lia|lia|lia|auto| |split; [lia|auto]].
        intros i a Hi Ha. destruct (less a) eqn:La; auto. rewrite (mono mid i x a) in Lx; auto.
    + assert (E : b = e) by lia. subst e. split; [lia|]. intros i a Ha. split; [|intros; eapply Hlo; eauto].
      intros H. destruct (Nat.lt_ge_cases i b); auto. rewrite (Hhi i a) in H by auto. discriminate.
Qed.
End Bounds.

(** Ordered by number of mappings, as the sort leaves them. *)
Definition by_mappings (infos : list det_info) : Prop :=
  forall i j a b, (i <= j)%nat -> nth_error infos i = Some a -> nth_error infos j = Some b -> ti_nr_mappings a <= ti_nr_mappings b.
Lemma lower_upper infos key : by_mappings infos ->
  let l := lower_bound infos key in let u := upper_bound infos key in
  (l <= u <= length infos)%nat /\
  (forall i a, nth_error infos i = Some a -> ti_nr_mappings a < key <-> (i < l)%nat) /\
  (forall i a, nth_error infos i = Some a -> ti_nr_mappings a = key <-> (l <= i < u)%nat).
Proof.
  intros H. unfold lower_bound, upper_bound.
  destruct (bound_loop_spec (fun i => ti_nr_mappings i <? key) infos
    ltac:(intros i j a b Hij Ha Hb Hl; apply N.ltb_lt in Hl; apply N.ltb_lt; pose proof (H i j a b Hij Ha Hb); lia)
    (length infos) 0 (length infos)) as [L1 L2]; [lia|lia|lia|lia| |].
  { intros i a Hi Ha. assert (nth_error infos i <> None) as Hn by congruence. apply nth_error_Some in Hn. lia. }
  destruct (bound_loop_spec (fun i => ti_nr_mappings i <=? key) infos
    ltac:(intros i j a b Hij Ha Hb Hl; apply N.leb_le in Hl; apply N.leb_le; pose proof (H i j a b Hij Ha Hb); lia)
    (length infos) 0 (length infos)) as [U1 U2]; [lia|lia|lia|lia| |].
  { intros i a Hi Ha. assert (nth_error infos i <> None) as Hn by congruence. apply nth_error_Some in Hn. lia. }
  set (l := bound_loop _ (fun i => ti_nr_mappings i <? key) infos 0 _) in *.
  set (u := bound_loop _ (fun i => ti_nr_mappings i <=? key) infos 0 _) in *. cbv zeta.
  assert (Hlu : (l <= u)%nat).
  { destruct (Nat.le_gt_cases l u) as [|Hgt]; auto. destruct (nth_error infos u) as [x|] eqn:Ex.
    - destruct (L2 u x Ex) as [_ L3]. destruct (U2 u x Ex) as [U3 _]. specialize (L3 Hgt). apply N.ltb_lt in L3.
      assert ((u < u)%nat); [|lia]. apply U3. apply N.leb_le. lia.
    - apply nth_error_None in Ex. lia. }
  conj; [lia|lia| |].
  - intros i a Ha. rewrite <- (L2 i a Ha). symmetry. apply N.ltb_lt.
  - intros i a Ha. specialize (L2 i a Ha). specialize (U2 i a Ha). rewrite N.ltb_lt in L2. rewrite N.leb_le in U2. lia.
Qed.
Lemma bounds_in infos key x : by_mappings infos ->
  In x (firstn (upper_bound infos key - lower_bound infos key) (skipn (lower_bound infos key) infos)) <->
  In x infos /\ ti_nr_mappings x = key.
Proof.
  intros H. destruct (lower_upper infos key H) as (B1 & _ & B3).
  set (l := lower_bound infos key) in *. set (u := upper_bound infos key) in *.
  assert (S1 : forall (i : nat) (m : list det_info) k, nth_error (skipn k m) i = nth_error m (k + i)).
  { intros i m k. revert m. induction k as [|k IH]; intros m; auto. destruct m; [cbn; destruct i; auto|cbn [skipn Nat.add nth_error]; apply IH]. }
  assert (F1 : forall (n : nat) (m : list det_info) i, nth_error (firstn n m) i = if (i <? n)%nat then nth_error m i else None).
  { induction n as [|n IH]; intros m i; cbn [firstn]; [destruct i; auto|]. destruct m, i; cbn [nth_error]; auto.
    - destruct (S i <? S n)%nat; auto.
    - rewrite IH. destruct (Nat.ltb_spec i n), (Nat.ltb_spec (S i) (S n)); auto; lia. }
  split.
  - intros Hi. apply In_nth_error in Hi. destruct Hi as [i Hi]. rewrite F1, S1 in Hi.
    destruct (Nat.ltb_spec i (u - l)); [|discriminate]. split; [eapply nth_error_In; eauto|]. apply (B3 _ _ Hi). lia.
  - intros [Hi Hk]. apply In_nth_error in Hi. destruct Hi as [i Hi]. apply (B3 i x Hi) in Hk.
    apply (nth_error_In _ (i - l)). rewrite F1, S1. destruct (Nat.ltb_spec (i - l) (u - l)); [|lia].
    replace (l + (i - l))%nat with i by lia. auto.
Qed.
