From Verif Require Import Base Codec_Model Builder_Spec BtreeRead_Proofs ThinOut_Model ThinOut_Proofs ThinOut_Spec Shrink_Model Shrink_Spec.

Lemma combine_app {A B} (a b : list A) (a' b' : list B) : length a = length a' -> combine (a ++ b) (a' ++ b') = combine a a' ++ combine b b'.
Proof. revert a'. induction a as [|x a IH]; intros [|y a'] H; cbn in H; try lia; auto. cbn. f_equal. apply IH. lia. Qed.

Definition cell (r : brange) : list N := range (fst r) (snd r).
Definition cells (l : list brange) : list N := flat_map cell l.
Definition solid (l : list brange) : Prop := Forall (fun r => fst r < snd r) l.
Definition rs_ok (l : list brange) : Prop := solid l /\ increasing (cells l).

Lemma in_cells x l : In x (cells l) <-> exists r, In r l /\ fst r <= x < snd r.
Proof. unfold cells, cell. rewrite in_flat_map. split; intros (r & A & B); exists r; split; auto; apply in_range; auto. Qed.
Lemma cells_cons r l : cells (r :: l) = cell r ++ cells l.
Proof. reflexivity. Qed.
Lemma in_cell x r : In x (cell r) <-> fst r <= x < snd r.
Proof. apply in_range. Qed.
Lemma rs_ok_cons r l : rs_ok (r :: l) <-> fst r < snd r /\ rs_ok l /\ forall x, In x (cells l) -> snd r <= x.
Proof.
  unfold rs_ok, solid. rewrite cells_cons, increasing_app. split.
  - intros [HF (_ & H1 & H2)]. inversion HF; subst. conj; auto. intros x Hx.
    assert (In (snd r - 1) (cell r)) as Hi by (apply in_cell; lia). specialize (H2 _ _ Hi Hx). lia.
  - intros (H1 & [H2 H3] & H4). conj; auto.
    + apply range_increasing.
    + intros x y Hx Hy. apply in_cell in Hx. specialize (H4 y Hy). lia.
Qed.

(** ** RangeSet *)
Lemma rs_add_ok l : forall a b, rs_ok l -> a < b ->
  rs_ok (rs_add a b l) /\ forall x, In x (cells (rs_add a b l)) <-> a <= x < b \/ In x (cells l).
Proof.
  induction l as [|[c d] l IH]; intros a b Hok Hab.
  - cbn [rs_add]. split.
    + apply rs_ok_cons. cbn. conj; [exact Hab|split; constructor|intros ? []].
    + intros x. rewrite cells_cons, in_app_iff, in_cell. cbn. tauto.
  - apply rs_ok_cons in Hok as (H1 & H2 & H3). cbn [fst snd] in *. cbn [rs_add].
    assert (Hc : forall x, In x (cells ((c, d) :: l)) <-> c <= x < d \/ In x (cells l)) by (intros x; rewrite cells_cons, in_app_iff, in_cell; tauto).
    destruct (N.ltb_spec b c) as [Hbc|Hbc]; [|destruct (N.ltb_spec d a) as [Hda|Hda]].
    + split.
      * apply rs_ok_cons. cbn [fst snd]. conj; auto; [apply rs_ok_cons; auto|].
        intros x Hx. apply Hc in Hx as [Hx|Hx]; [lia|]. specialize (H3 x Hx). lia.
      * intros x. rewrite (cells_cons (a, b)), in_app_iff, in_cell. cbn [fst snd]. tauto.
    + destruct (IH a b H2 Hab) as [I1 I2]. split.
      * apply rs_ok_cons. cbn [fst snd]. conj; auto. intros x Hx. apply I2 in Hx as [Hx|Hx]; [lia|auto].
      * intros x. rewrite cells_cons, in_app_iff, in_cell, I2, Hc. cbn [fst snd]. tauto.
    + destruct (IH (N.min a c) (N.max b d) H2) as [I1 I2]; [lia|]. split; auto.
      intros x. rewrite I2, Hc. split; [intros [H|H]; [|tauto]|intros [H|[H|H]]; [left; lia|left; lia|tauto]].
      destruct (N.lt_ge_cases x c), (N.lt_ge_cases x d), (N.lt_ge_cases x a), (N.lt_ge_cases x b); try lia; auto.
Qed.
Lemma gaps_ok l : forall lo hi, rs_ok l ->
  rs_ok (rs_gaps l lo hi) /\ forall x, In x (cells (rs_gaps l lo hi)) <-> lo <= x < hi /\ ~ In x (cells l).
Proof.
  assert (Hone : forall lo hi, rs_ok (if lo <? hi then [(lo, hi)] else []) /\ forall x, In x (cells (if lo <? hi then [(lo, hi)] else [])) <-> lo <= x < hi).
  { intros lo hi. destruct (N.ltb_spec lo hi).
    - split; [apply rs_ok_cons; cbn; conj; [assumption|split; constructor|intros ? []]|].
      intros x. rewrite cells_cons, in_app_iff, in_cell. cbn. tauto.
    - split; [split; constructor|]. intros x. cbn. lia. }
  induction l as [|[c d] l IH]; intros lo hi Hok.
  - cbn [rs_gaps]. destruct (Hone lo hi) as [A B]. split; auto. intros x. rewrite B. cbn. tauto.
  - apply rs_ok_cons in Hok as (H1 & H2 & H3). cbn [fst snd] in *. cbn [rs_gaps].
    destruct (IH (N.max lo d) hi H2) as [I1 I2]. destruct (Hone lo (N.min c hi)) as [O1 O2].
    set (g := if lo <? N.min c hi then _ else _) in *.
    assert (Ho : forall x y, In x (cells g) -> In y (cells (rs_gaps l (N.max lo d) hi)) -> x < y).
    { intros x y Hx Hy. apply O2 in Hx. apply I2 in Hy. lia. }
    split.
    + split; [apply Forall_app; split; [apply O1|apply I1]|]. unfold cells. rewrite flat_map_app. apply increasing_app. conj; [apply O1|apply I1|exact Ho].
    + intros x. unfold cells at 1. rewrite flat_map_app, in_app_iff. fold (cells g) (cells (rs_gaps l (N.max lo d) hi)).
      rewrite O2, I2, cells_cons, in_app_iff, in_cell. cbn [fst snd]. specialize (H3 x). split.
      * intros [H|[H K]]; [split; [lia|]|split; [lia|]]; intros [Hx|Hx]; try lia; auto; apply H3 in Hx; lia.
      * intros [H K]. destruct (N.lt_ge_cases x c); [left; lia|right]. split; [|tauto]. assert (~ c <= x < d) by tauto. lia.
Qed.

(** ** The plan *)
Definition pairs (p : brange * N) : list (N * N) := combine (cell (fst p)) (range (snd p) (snd p + rg_len (fst p))).
Lemma cell_length r : length (cell r) = N.to_nat (rg_len r).
Proof. apply range_length. Qed.
Lemma range_split a b : a < b -> forall k, k <= b - a -> range a b = range a (a + k) ++ range (a + k) b.
Proof. intros H k Hk. apply range_app; lia. Qed.
Lemma next_cells l : cell (next_range l) ++ cells (tl l) = cells l.
Proof. destruct l; [reflexivity|reflexivity]. Qed.

(** The current range or chunk: not empty, or the iterator has ended. *)
Definition current (r : brange) (l : list brange) : Prop := fst r < snd r \/ (rg_empty r = true /\ l = []).
Lemma next_current l : solid l -> current (next_range l) (tl l) /\ solid (tl l).
Proof. intros H. destruct H; [split; [right; split; reflexivity|constructor]|]. split; [left; auto|auto]. Qed.
Lemma tl_length {A} (l : list A) : (length (tl l) <= length l)%nat /\ (l <> [] -> (length (tl l) < length l)%nat).
Proof. destruct l; cbn; split; auto; congruence. Qed.
Definition weight (r : brange) (l : list brange) : nat := if rg_empty r then 0 else S (length l).
Lemma next_weight l : (weight (next_range l) (tl l) <= length l)%nat.
Proof. destruct l as [|r l]; [cbn; lia|]. unfold weight, next_range. cbn [tl length]. destruct (rg_empty r); lia. Qed.

Lemma build_loop_spec : forall fuel r rs f fs, solid rs -> solid fs -> current r rs -> current f fs ->
  (weight r rs + weight f fs < fuel)%nat ->
  match build_loop fuel r rs f fs with
  | Ok out => flat_map pairs out = combine (cell r ++ cells rs) (cell f ++ cells fs) /\
              flat_map (fun p => cell (fst p)) out = cell r ++ cells rs /\
              (length (cell r ++ cells rs) <= length (cell f ++ cells fs))%nat /\ solid (map fst out)
  | Err => (length (cell f ++ cells fs) < length (cell r ++ cells rs))%nat
  | Panic => False
  end.
Proof.
  induction fuel as [|fuel IH]; intros r rs f fs Hrs Hfs Hr Hf Hw; [lia|]. cbn [build_loop].
  assert (Er : rg_empty r = negb (fst r <? snd r)) by (unfold rg_empty; rewrite N.leb_antisym; auto).
  assert (Ef : rg_empty f = negb (fst f <? snd f)) by (unfold rg_empty; rewrite N.leb_antisym; auto).
  assert (Ce : forall q, rg_empty q = true -> cell q = []).
  { intros q H. unfold cell. apply range_nil. unfold rg_empty in H. lia. }
  destruct (rg_empty r) eqn:Hre; cbn [negb andb].
  - destruct Hr as [Hr|[_ ->]]; [lia|]. rewrite (Ce r Hre). cbn [app cells flat_map combine map length]. conj; [reflexivity|reflexivity|lia|constructor].
  - destruct (rg_empty f) eqn:Hfe; cbn [negb andb].
    + destruct Hf as [Hf|[_ ->]]; [lia|]. rewrite (Ce f Hfe). change ([] ++ cells []) with (@nil N). rewrite app_length, cell_length. cbn [length]. unfold rg_len.
      assert (fst r < snd r) by lia. lia.
    + assert (Hr' : fst r < snd r) by lia. assert (Hf' : fst f < snd f) by lia.
      assert (Wr : weight r rs = S (length rs)) by (unfold weight; rewrite Hre; auto).
      assert (Wf : weight f fs = S (length fs)) by (unfold weight; rewrite Hfe; auto).
      pose proof (next_current rs Hrs) as [Nr Tr]. pose proof (next_current fs Hfs) as [Nf Tf].
      pose proof (next_weight rs) as Wnr. pose proof (next_weight fs) as Wnf. unfold rg_len.
      destruct (N.ltb_spec (snd r - fst r) (snd f - fst f)) as [Hlt|Hge]; [|destruct (N.eqb_spec (snd r - fst r) (snd f - fst f)) as [Heq|Hne]].
      * set (f' := (fst f + (snd r - fst r), snd f)).
        assert (Hf1 : fst f' < snd f') by (unfold f'; cbn; lia).
        specialize (IH (next_range rs) (tl rs) f' fs Tr Hfs Nr (or_introl Hf1)).
        assert (Wf' : weight f' fs = S (length fs)) by (unfold weight, rg_empty; destruct (N.leb_spec (snd f') (fst f')); [lia|auto]).
        specialize (IH ltac:(lia)).
        assert (Cf : cell f = range (fst f) (fst f + rg_len r) ++ cell f').
        { unfold cell, f', rg_len. cbn [fst snd]. apply range_app; lia. }
        assert (Lf : length (cell r) = length (range (fst f) (fst f + rg_len r))) by (rewrite cell_length, range_length; f_equal; lia).
        rewrite next_cells in IH. rewrite Cf, <- app_assoc.
        destruct (build_loop fuel _ _ _ _) as [out| |]; cbn [bind]; [| |exact IH].
        -- destruct IH as (I1 & I2 & I3 & I4). cbn [flat_map map fst]. conj.
           ++ rewrite combine_app by exact Lf. rewrite <- I1. reflexivity.
           ++ rewrite <- I2. reflexivity.
           ++ rewrite (app_length (cell r)), (app_length (range (fst f) (fst f + rg_len r))). lia.
           ++ constructor; auto.
        -- rewrite (app_length (cell r)), (app_length (range (fst f) (fst f + rg_len r))). lia.
      * specialize (IH (next_range rs) (tl rs) (next_range fs) (tl fs) Tr Tf Nr Nf ltac:(lia)). rewrite !next_cells in IH.
        assert (Cf : cell f = range (fst f) (fst f + rg_len r)) by (unfold cell, rg_len; f_equal; lia).
        assert (Lf : length (cell r) = length (cell f)) by (rewrite !cell_length; unfold rg_len; lia).
        destruct (build_loop fuel _ _ _ _) as [out| |]; cbn [bind]; [| |exact IH].
        -- destruct IH as (I1 & I2 & I3 & I4). cbn [flat_map map fst]. conj.
           ++ rewrite combine_app by exact Lf. rewrite <- I1. unfold pairs at 1. cbn [fst snd]. rewrite <- Cf. reflexivity.
           ++ rewrite <- I2. reflexivity.
           ++ rewrite !app_length. lia.
           ++ constructor; auto.
        -- rewrite !app_length. lia.
      * set (r' := (fst r + (snd f - fst f), snd r)).
        assert (Hr1 : fst r' < snd r') by (unfold r'; cbn; lia).
        specialize (IH r' rs (next_range fs) (tl fs) Hrs Tf (or_introl Hr1) Nf).
        assert (Wr' : weight r' rs = S (length rs)) by (unfold weight, rg_empty; destruct (N.leb_spec (snd r') (fst r')); [lia|auto]).
        specialize (IH ltac:(lia)). rewrite next_cells in IH.
        set (r1 := (fst r, fst r + (snd f - fst f))).
        assert (Cr : cell r = cell r1 ++ cell r').
        { unfold cell, r1, r'. cbn [fst snd]. apply range_app; lia. }
        assert (Lr : length (cell r1) = length (cell f)) by (rewrite !cell_length; unfold rg_len, r1; cbn [fst snd]; lia).
        assert (Cf : cell f = range (fst f) (fst f + rg_len r1)) by (unfold cell, rg_len, r1; cbn [fst snd]; f_equal; lia).
        rewrite Cr, <- app_assoc.
        destruct (build_loop fuel _ _ _ _) as [out| |]; cbn [bind]; [| |exact IH].
        -- destruct IH as (I1 & I2 & I3 & I4). cbn [flat_map map fst]. conj.
           ++ rewrite combine_app by exact Lr. rewrite <- I1. unfold pairs at 1. cbn [fst snd]. rewrite <- Cf. reflexivity.
           ++ rewrite <- I2. reflexivity.
           ++ rewrite (app_length (cell r1)), (app_length (cell f)). lia.
           ++ constructor; auto. unfold r1; cbn; lia.
        -- rewrite (app_length (cell r1)), (app_length (cell f)). lia.
Qed.

Lemma build_remaps_spec rs fs : solid rs -> solid fs ->
  match build_remaps rs fs with
  | Ok out => flat_map pairs out = combine (cells rs) (cells fs) /\ flat_map (fun p => cell (fst p)) out = cells rs /\
              (length (cells rs) <= length (cells fs))%nat /\ solid (map fst out)
  | Err => (length (cells fs) < length (cells rs))%nat
  | Panic => False
  end.
Proof.
  intros Hr Hf. pose proof (next_current rs Hr) as [Nr Tr]. pose proof (next_current fs Hf) as [Nf Tf].
  pose proof (build_loop_spec (S (S (length rs + length fs))) _ _ _ _ Tr Tf Nr Nf) as H. rewrite !next_cells in H. apply H.
  pose proof (next_weight rs). pose proof (next_weight fs). lia.
Qed.

Definition within_events (es : list event) : list ir_map := flat_map (fun e => match e with EvMap m => [m] | _ => [] end) es.
Lemma collect_spec nr es : runs_fit es -> forall b0 a0, rs_ok b0 -> rs_ok a0 ->
  exists b1 a1, collect nr es (b0, a0) = Ok (b1, a1) /\ rs_ok b1 /\ rs_ok a1 /\
    (forall x, In x (cells b1) <-> In x (cells b0) \/ (used_by es x /\ x < nr)) /\
    (forall x, In x (cells a1) <-> In x (cells a0) \/ (used_by es x /\ nr <= x)).
Proof.
  induction es as [|e es IH]; intros Hfit b0 a0 Hb Ha.
  - exists b0, a0. cbn. conj; auto; intros x; split; auto; intros [H|[(m & [] & _) _]]; auto.
  - assert (Hfit' : runs_fit es) by (intros m Hm; apply Hfit; right; auto).
    assert (Hskip : (forall m, e <> EvMap m) -> collect nr (e :: es) (b0, a0) = collect nr es (b0, a0) /\ forall x, used_by (e :: es) x <-> used_by es x).
    { intros He. split; [destruct e; try reflexivity; exfalso; eapply He; eauto|]. intros x. split; intros (m & Hm & Hx); exists m; split; auto; [|right; auto].
      destruct Hm as [Hm|Hm]; auto. exfalso. eapply He; eauto. }
    destruct e as [| | | | | |m| |];
      try (destruct (Hskip ltac:(intros; discriminate)) as [-> Hu]; destruct (IH Hfit' b0 a0 Hb Ha) as (b1 & a1 & E & R1 & R2 & R3 & R4); exists b1, a1; conj; auto;
           intros x; rewrite Hu; auto; fail).
    clear Hskip. destruct (Hfit m (or_introl eq_refl)) as (Hl & Hd & _).
    assert (Hu : forall x, used_by (EvMap m :: es) x <-> m_data m <= x < m_data m + m_len m \/ used_by es x).
    { intros x. split.
      - intros (m' & [E|Hm] & Hx); [injection E as <-; auto|right; exists m'; auto].
      - intros [H|(m' & Hm & Hx)]; [exists m; split; [left|]; auto|exists m'; split; [right|]; auto]. }
    cbn [collect]. unfold collect_map. rewrite wadd_small by lia.
    destruct (N.leb_spec nr (m_data m)) as [H1|H1]; [|destruct (N.leb_spec (m_data m + m_len m) nr) as [H2|H2]].
    + unfold rs_insert. destruct (N.ltb_spec (m_data m) (m_data m + m_len m)) as [_|]; [|lia]. cbn [bind].
      destruct (rs_add_ok a0 (m_data m) (m_data m + m_len m) Ha ltac:(lia)) as [A1 A2].
      destruct (IH Hfit' b0 _ Hb A1) as (b1 & a1 & E & R1 & R2 & R3 & R4). exists b1, a1. conj; auto; intros x.
      * rewrite R3, Hu. split; [tauto|]. intros [H|[[H|H] K]]; auto. lia.
      * rewrite R4, A2, Hu. split; [intros [[H|H]|H]; auto; try tauto; right; split; [tauto|lia]|tauto].
    + unfold rs_insert. destruct (N.ltb_spec (m_data m) (m_data m + m_len m)) as [_|]; [|lia]. cbn [bind].
      destruct (rs_add_ok b0 (m_data m) (m_data m + m_len m) Hb ltac:(lia)) as [A1 A2].
      destruct (IH Hfit' _ a0 A1 Ha) as (b1 & a1 & E & R1 & R2 & R3 & R4). exists b1, a1. conj; auto; intros x.
      * rewrite R3, A2, Hu. split; [intros [[H|H]|H]; auto; try tauto; right; split; [tauto|lia]|tauto].
      * rewrite R4, Hu. split; [tauto|]. intros [H|[[H|H] K]]; auto. lia.
    + unfold rs_insert. destruct (N.ltb_spec (m_data m) nr) as [_|]; [|lia]. cbn [bind]. destruct (N.ltb_spec nr (m_data m + m_len m)) as [_|]; [|lia]. cbn [bind].
      destruct (rs_add_ok b0 (m_data m) nr Hb ltac:(lia)) as [A1 A2]. destruct (rs_add_ok a0 nr (m_data m + m_len m) Ha ltac:(lia)) as [B1 B2].
      destruct (IH Hfit' _ _ A1 B1) as (b1 & a1 & E & R1 & R2 & R3 & R4). exists b1, a1. conj; auto; intros x.
      * rewrite R3, A2, Hu. split; [intros [[H|H]|H]; auto; try tauto; right; split; [left|]; lia|]. intros [H|[[H|H] K]]; auto. left; left; lia.
      * rewrite R4, B2, Hu. split; [intros [[H|H]|H]; auto; try tauto; right; split; [left|]; lia|]. intros [H|[[H|H] K]]; auto. left; left; lia.
Qed.

(** The whole plan: the i-th used block above goes to the i-th free block below. *)
Lemma plan_spec nr es : runs_fit es -> exists above free, increasing above /\ increasing free /\
  (forall x, In x above <-> used_by es x /\ nr <= x) /\ (forall x, In x free <-> x < nr /\ ~ used_by es x) /\
  match shrink_plan nr es with
  | Ok plan => flat_map pairs plan = combine above free /\ flat_map (fun p => cell (fst p)) plan = above /\
               (length above <= length free)%nat /\ solid (map fst plan)
  | Err => (length free < length above)%nat
  | Panic => False
  end.
Proof.
  intros Hfit. assert (H0 : rs_ok []) by (split; constructor).
  destruct (collect_spec nr es Hfit [] [] H0 H0) as (b1 & a1 & E & R1 & R2 & R3 & R4).
  destruct (gaps_ok b1 0 nr R1) as [G1 G2].
  exists (cells a1), (cells (rs_gaps b1 0 nr)). conj; [apply R2|apply G1| | |].
  - intros x. rewrite R4. cbn. tauto.
  - intros x. rewrite G2, R3. cbn. split; [intros [A B]; split; [lia|]; intros Hu; apply B; right; split; [auto|lia]|].
    intros [A B]. split; [lia|]. intros [[]|[Hu _]]. auto.
  - unfold shrink_plan. rewrite E. cbn [bind]. apply build_remaps_spec; [apply R2|apply G1].
Qed.

(** ** Applying it *)
Definition plan_ok (plan : list (brange * N)) : Prop := rs_ok (map fst plan).
Definition reloc (plan : list (brange * N)) (b : N) : N := match assoc (flat_map pairs plan) b with Some x => x | None => b end.
Lemma cells_map plan : flat_map (fun p : brange * N => cell (fst p)) plan = cells (map fst plan).
Proof. unfold cells. induction plan as [|p plan IH]; cbn; auto. rewrite IH. reflexivity. Qed.
Lemma combine_fst {A B} (a : list A) (b : list B) : length a = length b -> map fst (combine a b) = a.
Proof. revert b. induction a as [|x a IH]; intros [|y b] H; cbn in *; try lia; auto. f_equal. apply IH. lia. Qed.
Lemma pairs_fst p : map fst (pairs p) = cell (fst p).
Proof. apply combine_fst. rewrite cell_length, range_length. lia. Qed.
Lemma plan_fst plan : map fst (flat_map pairs plan) = cells (map fst plan).
Proof. induction plan as [|p plan IH]; cbn [flat_map map]; auto. rewrite map_app, pairs_fst, IH. reflexivity. Qed.
Lemma assoc_combine_range : forall n a t b, a <= b < a + N.of_nat n -> assoc (combine (range a (a + N.of_nat n)) (range t (t + N.of_nat n))) b = Some (t + (b - a)).
Proof.
  induction n as [|n IH]; intros a t b Hb; [lia|].
  rewrite (range_cons a) by lia. rewrite (range_cons t) by lia. cbn [combine assoc].
  destruct (N.eqb_spec b a) as [->|Hne]; [f_equal; lia|].
  replace (a + N.of_nat (S n)) with (a + 1 + N.of_nat n) by lia. replace (t + N.of_nat (S n)) with (t + 1 + N.of_nat n) by lia.
  rewrite IH by lia. f_equal. lia.
Qed.
Lemma assoc_pairs s e t b : s <= b < e -> assoc (pairs ((s, e), t)) b = Some (t + (b - s)).
Proof.
  intros H. unfold pairs, cell, rg_len. cbn [fst snd]. pose proof (assoc_combine_range (N.to_nat (e - s)) s t b ltac:(lia)) as A.
  rewrite N2Nat.id in A. replace (s + (e - s)) with e in A by lia. exact A.
Qed.
Lemma reloc_in p plan b : In b (cell (fst p)) -> reloc (p :: plan) b = snd p + (b - fst (fst p)).
Proof. intros H. destruct p as [[s e] t]. apply in_cell in H. unfold reloc. cbn [flat_map fst snd] in *. rewrite assoc_app, assoc_pairs by auto. reflexivity. Qed.
Lemma reloc_skip p plan b : ~ In b (cell (fst p)) -> reloc (p :: plan) b = reloc plan b.
Proof. intros H. unfold reloc. cbn [flat_map]. rewrite assoc_app, (assoc_none (pairs p)); [auto|]. rewrite pairs_fst. auto. Qed.
Lemma reloc_out plan b : ~ In b (cells (map fst plan)) -> reloc plan b = b.
Proof. intros H. unfold reloc. rewrite assoc_none; auto. rewrite plan_fst. auto. Qed.
Lemma plan_ok_cons p plan : plan_ok (p :: plan) <-> fst (fst p) < snd (fst p) /\ plan_ok plan /\ forall x, In x (cells (map fst plan)) -> snd (fst p) <= x.
Proof. unfold plan_ok. cbn [map]. apply rs_ok_cons. Qed.

Lemma moves_reloc plan b b' : plan_ok plan -> (goes plan b b' <-> b' = reloc plan b).
Proof.
  intros H. assert (Hin : (exists x, moves plan b x) <-> In b (cells (map fst plan))).
  { split.
    - intros (x & s & e & t & A & B & _). apply in_cells. exists (s, e). split; [apply (in_map fst) in A; exact A|exact B].
    - intros Hb. apply in_cells in Hb as (r & A & B). apply in_map_iff in A as ([[s e] t] & <- & A). exists (t + (b - s)), s, e, t. auto. }
  assert (Hm : forall x, moves plan b x -> x = reloc plan b).
  { clear Hin. revert H. induction plan as [|p plan IH]; intros H x (s & e & t & A & B & ->); [destruct A|].
    apply plan_ok_cons in H as (H1 & H2 & H3). destruct A as [->|A].
    - rewrite reloc_in; [reflexivity|]. apply in_cell. exact B.
    - rewrite reloc_skip; [apply IH; auto; exists s, e, t; auto|]. intros Hc. apply in_cell in Hc.
      specialize (H3 b). assert (In b (cells (map fst plan))) as Hb by (apply in_cells; exists (s, e); split; [apply (in_map fst) in A; exact A|exact B]).
      apply H3 in Hb. lia. }
  unfold goes. split.
  - intros [G|[N ->]]; [apply Hm; auto|]. symmetry. apply reloc_out. rewrite <- Hin. intros (x & Hx). apply (N x Hx).
  - intros ->. destruct (in_dec N.eq_dec b (cells (map fst plan))) as [Hi|Hi].
    + left. apply Hin in Hi as (x & Hx). rewrite <- (Hm x Hx). exact Hx.
    + right. split; [|apply reloc_out; auto]. intros x Hx. apply Hi. apply Hin. eauto.
Qed.

Lemma map_shift t s : forall n a, s <= a -> map (fun x => t + (x - s)) (range a (a + N.of_nat n)) = range (t + (a - s)) (t + (a - s) + N.of_nat n).
Proof.
  induction n as [|n IH]; intros a Ha; [rewrite !range_nil by lia; reflexivity|].
  rewrite (range_cons a) by lia. rewrite (range_cons (t + (a - s))) by lia. cbn [map]. f_equal.
  replace (a + N.of_nat (S n)) with (a + 1 + N.of_nat n) by lia. rewrite IH by lia. f_equal; lia.
Qed.
Lemma map_id_in {A} (f : A -> A) l : (forall x, In x l -> f x = x) -> map f l = l.
Proof. intros H. rewrite <- (map_id l) at 2. apply map_ext_in. auto. Qed.

Lemma remap_from_spec : forall l a b, plan_ok l -> a < b -> (forall p r, l = p :: r -> a < snd (fst p)) ->
  cells (remap_from l (a, b)) = map (reloc l) (range a b) /\ solid (remap_from l (a, b)).
Proof.
  induction l as [|[[s e] t] l IH]; intros a b Hok Hab Hs.
  - cbn [remap_from]. split; [|constructor; auto]. cbn [cells flat_map]. unfold cell. cbn [fst snd]. rewrite app_nil_r. symmetry. apply map_id_in. intros; apply reloc_out. intros [].
  - apply plan_ok_cons in Hok as (H1 & H2 & H3). cbn [fst snd] in *. specialize (Hs _ _ eq_refl). cbn [fst snd] in Hs.
    assert (Hskip : forall x, x < s \/ e <= x -> reloc (((s, e), t) :: l) x = reloc l x).
    { intros x Hx. apply reloc_skip. intros Hc. apply in_cell in Hc. cbn [fst snd] in Hc. lia. }
    assert (Hlow : forall x, x < s -> reloc (((s, e), t) :: l) x = x).
    { intros x Hx. rewrite Hskip by lia. apply reloc_out. intros Hc. apply H3 in Hc. lia. }
    (* the part of the loop body that starts within the entry *)
    assert (Hbody : forall a, s <= a -> a < e -> a < b ->
      let start := t + (a - s) in let flen := e - a in let len := N.min (b - a) flen in
      let out := (start, start + len) :: (if a + len =? b then [] else if len =? flen then remap_from l (a + len, b) else []) in
      cells out = map (reloc (((s, e), t) :: l)) (range a b) /\ solid out).
    { clear a Hab Hs. intros a Ha1 Ha2 Ha3 start flen len. cbn zeta.
      assert (Hlen : 0 < len) by (unfold len, flen; lia).
      assert (Hpart : cell (start, start + len) = map (reloc (((s, e), t) :: l)) (range a (a + len))).
      { unfold cell. cbn [fst snd]. erewrite map_ext_in; [|intros x Hx; apply in_range in Hx; apply reloc_in; apply in_cell; cbn [fst snd]; unfold len, flen in Hx; lia].
        cbn [fst snd]. pose proof (map_shift t s (N.to_nat len) a Ha1) as M. rewrite N2Nat.id in M. unfold start. rewrite <- M. reflexivity. }
      rewrite cells_cons, Hpart. destruct (N.eqb_spec (a + len) b) as [He|He].
      - rewrite He. cbn [cells flat_map]. rewrite app_nil_r. split; auto. constructor; [cbn; lia|constructor].
      - assert (Hf : len = flen) by (unfold len, flen in *; lia). replace (len =? flen) with true by (symmetry; apply N.eqb_eq; exact Hf).
        assert (Hae : a + len = e) by (unfold flen in Hf; lia). rewrite Hae.
        assert (Heb : e < b) by (unfold len in *; lia).
        destruct (IH e b H2 Heb) as [I1 I2].
        { intros p r ->. apply plan_ok_cons in H2 as (P1 & _). assert (In (fst (fst p)) (cells (map fst (p :: r)))) as Hi.
          { apply in_cells. exists (fst p). split; [left; auto|]. lia. }
          apply H3 in Hi. lia. }
        split; [|constructor; [cbn; lia|exact I2]].
        rewrite (range_app a e b) by lia. rewrite map_app. f_equal. rewrite I1. apply map_ext_in. intros x Hx. apply in_range in Hx. symmetry. apply Hskip. lia. }
    cbn [remap_from fst snd]. unfold rg_len. cbn [fst snd]. destruct (N.ltb_spec a s) as [Has|Has].
    + assert (Hpre : forall k, 0 < k -> a + k <= s -> cell (a, a + k) = map (reloc (((s, e), t) :: l)) (range a (a + k))).
      { intros k Hk Hks. unfold cell. cbn [fst snd]. symmetry. apply map_id_in. intros x Hx. apply in_range in Hx. apply Hlow. lia. }
      rewrite cells_cons. set (k := N.min (b - a) (s - a)). rewrite Hpre by lia.
      destruct (N.eqb_spec (a + k) b) as [He|He].
      * rewrite He. cbn [cells flat_map]. rewrite app_nil_r. split; auto. constructor; [cbn; lia|constructor].
      * assert (Hks : a + k = s) by lia. rewrite Hks. destruct (Hbody s ltac:(lia) ltac:(lia) ltac:(lia)) as [B1 B2]. cbn zeta in B1, B2.
        rewrite (range_app a s b) by lia. rewrite map_app. split; [f_equal; exact B1|constructor; [cbn; lia|exact B2]].
    + exact (Hbody a ltac:(lia) ltac:(lia) Hab).
Qed.

(** find_first: nothing before the place it returns matters. *)
Lemma search_spec k l : plan_ok l -> forall i p, nth_error l i = Some p -> ((i < search_start k l)%nat -> fst (fst p) < k) /\ ((search_start k l <= i)%nat -> k <= fst (fst p)).
Proof.
  induction l as [|q l IH]; intros Hok i p Hi; [destruct i; discriminate|].
  apply plan_ok_cons in Hok as (H1 & H2 & H3). destruct q as [[s e] t]. cbn [search_start fst snd] in *.
  destruct (N.ltb_spec s k) as [Hsk|Hsk].
  - destruct i as [|i]; [injection Hi as <-; cbn [fst]; split; lia|]. cbn [nth_error] in Hi. destruct (IH H2 i p Hi) as [A B]. split; intros; [apply A|apply B]; lia.
  - split; [lia|]. intros _. destruct i as [|i]; [injection Hi as <-; auto|]. cbn [nth_error] in Hi.
    apply nth_error_In in Hi. assert (fst (fst p) < snd (fst p)).
    { destruct H2 as [S2 _]. unfold solid in S2. rewrite Forall_forall in S2. apply S2. apply in_map. exact Hi. }
    assert (In (fst (fst p)) (cells (map fst l))) as Hc by (apply in_cells; exists (fst p); split; [apply in_map; auto|lia]). apply H3 in Hc. lia.
Qed.
Lemma reloc_skipn : forall n l x, plan_ok l -> (forall i p, (i < n)%nat -> nth_error l i = Some p -> snd (fst p) <= x) -> reloc (skipn n l) x = reloc l x.
Proof.
  induction n as [|n IH]; intros l x Hok H; [reflexivity|]. destruct l as [|p l]; [reflexivity|]. cbn [skipn].
  rewrite IH; [|apply plan_ok_cons in Hok; tauto|intros i q Hi Hq; apply (H (S i) q); [lia|exact Hq]].
  symmetry. apply reloc_skip. intros Hc. apply in_cell in Hc. specialize (H 0%nat p ltac:(lia) eq_refl). lia.
Qed.
Lemma plan_ok_skipn n : forall l, plan_ok l -> plan_ok (skipn n l).
Proof. induction n as [|n IH]; intros [|p l] H; cbn [skipn]; auto. apply IH. apply plan_ok_cons in H. tauto. Qed.
Lemma plan_order l i j p q : plan_ok l -> (i < j)%nat -> nth_error l i = Some p -> nth_error l j = Some q -> snd (fst p) <= fst (fst q).
Proof.
  revert i j. induction l as [|x l IH]; intros i j Hok Hij Hi Hj; [destruct i; discriminate|].
  apply plan_ok_cons in Hok as (H1 & H2 & H3). destruct j as [|j]; [lia|]. cbn [nth_error] in Hj. destruct i as [|i].
  - injection Hi as <-. apply H3. apply nth_error_In in Hj. apply in_cells. exists (fst q). split; [apply in_map; auto|].
    destruct H2 as [S2 _]. unfold solid in S2. rewrite Forall_forall in S2. specialize (S2 (fst q) (in_map fst _ _ Hj)). lia.
  - cbn [nth_error] in Hi. apply (IH i j); auto. lia.
Qed.
Lemma plan_solid l i p : plan_ok l -> nth_error l i = Some p -> fst (fst p) < snd (fst p).
Proof. intros [S _] Hi. unfold solid in S. rewrite Forall_forall in S. apply S. apply in_map. eapply nth_error_In; eauto. Qed.

Lemma skipn_hd {A} n : forall (l : list A) p r, skipn n l = p :: r -> nth_error l n = Some p.
Proof. induction n as [|n IH]; intros [|x l] p r H; cbn in *; try discriminate; [injection H as ->; auto|eapply IH; eauto]. Qed.

Lemma remap_spec plan a b : plan_ok plan -> a < b ->
  cells (remap (a, b) plan) = map (reloc plan) (range a b) /\ solid (remap (a, b) plan).
Proof.
  intros Hok Hab. unfold remap.
  (* starting at entry n is right if everything before it ends before [a] and it does not *)
  assert (Hat : forall n p, nth_error plan n = Some p -> a < snd (fst p) -> (forall i q, (i < n)%nat -> nth_error plan i = Some q -> snd (fst q) <= a) ->
    cells (remap_from (skipn n plan) (a, b)) = map (reloc plan) (range a b) /\ solid (remap_from (skipn n plan) (a, b))).
  { intros n p Hn Hp Hb. destruct (remap_from_spec (skipn n plan) a b (plan_ok_skipn n _ Hok) Hab) as [A B].
    - intros q r E. apply skipn_hd in E. rewrite Hn in E. injection E as <-. exact Hp.
    - split; auto. rewrite A. apply map_ext_in. intros x Hx. apply in_range in Hx. apply reloc_skipn; auto. intros i q Hi Hq. specialize (Hb i q Hi Hq). lia. }
  (* nothing overlaps *)
  assert (Hnone : (forall i q, nth_error plan i = Some q -> snd (fst q) <= a \/ b <= fst (fst q)) ->
    cells [(a, b)] = map (reloc plan) (range a b) /\ solid [(a, b)]).
  { intros Hq. split; [|constructor; [exact Hab|constructor]]. cbn [cells flat_map]. rewrite app_nil_r. unfold cell. cbn [fst snd]. symmetry. apply map_id_in.
    intros x Hx. apply in_range in Hx. apply reloc_out. intros Hc. apply in_cells in Hc as (r & Hr & Hx'). apply in_map_iff in Hr as (q & <- & Hin).
    apply In_nth_error in Hin as (i & Hi). specialize (Hq i q Hi). lia. }
  assert (Hov : forall q : brange * N, overlaps (a, b) (fst q) = false -> snd (fst q) <= a \/ b <= fst (fst q)).
  { intros q H. unfold overlaps in H. cbn [fst snd] in H. destruct (N.leb_spec (snd (fst q)) a); auto. destruct (N.leb_spec b (fst (fst q))); auto. discriminate. }
  assert (Hov' : forall q : brange * N, overlaps (a, b) (fst q) = true -> a < snd (fst q) /\ fst (fst q) < b).
  { intros q H. unfold overlaps in H. cbn [fst snd] in H. destruct (N.leb_spec (snd (fst q)) a); [discriminate|]. destruct (N.leb_spec b (fst (fst q))); [discriminate|]. auto. }
  unfold find_first. destruct plan as [|p0 plan'] eqn:Ep; [apply Hnone; intros [|] ? ?; discriminate|]. rewrite <- Ep in *. clear p0 plan' Ep.
  cbn [fst]. set (n := search_start a plan). pose proof (search_spec a plan Hok) as Hs. fold n in Hs.
  assert (Hbefore : forall p q, n = S p -> nth_error plan p = Some q -> snd (fst q) <= a -> forall i r, (i < n)%nat -> nth_error plan i = Some r -> snd (fst r) <= a).
  { intros p q En Hp Hq i r Hi Hr. destruct (Nat.eq_dec i p) as [->|Hne]; [rewrite Hp in Hr; injection Hr as <-; auto|].
    pose proof (plan_order plan i p r q Hok ltac:(lia) Hr Hp). pose proof (plan_solid plan p q Hok Hp). lia. }
  assert (Hprev : forall p q, n = S p -> nth_error plan p = Some q -> forall i r, (i < p)%nat -> nth_error plan i = Some r -> snd (fst r) <= a).
  { intros p q En Hp i r Hi Hr. pose proof (plan_order plan i p r q Hok Hi Hr Hp). destruct (Hs p q Hp) as [A _]. specialize (A ltac:(lia)). lia. }
  assert (Hafter : forall p q, nth_error plan n = Some q -> b <= fst (fst q) -> nth_error plan p <> None -> (n <= p)%nat -> forall r, nth_error plan p = Some r -> b <= fst (fst r)).
  { intros p q Hq Hb _ Hnp r Hr. destruct (Nat.eq_dec n p) as [<-|Hne]; [rewrite Hq in Hr; injection Hr as <-; auto|].
    pose proof (plan_order plan n p q r Hok ltac:(lia) Hq Hr). pose proof (plan_solid plan n q Hok Hq). lia. }
  destruct (nth_error plan n) as [q|] eqn:En.
  - destruct (Hs n q En) as [_ Hqa]. specialize (Hqa ltac:(lia)). pose proof (plan_solid plan n q Hok En) as Hqs.
    destruct q as [qr qt] eqn:Eq. cbn [fst] in *. destruct (N.eqb_spec (fst qr) a) as [Heq|Hne].
    + destruct n as [|p] eqn:En'.
      * apply (Hat 0%nat (qr, qt)); auto; [cbn [fst]; lia|intros; lia].
      * apply (Hat (S p) (qr, qt)); auto; [cbn [fst]; lia|]. intros i r Hi Hr.
        pose proof (plan_order plan i (S p) r (qr, qt) Hok Hi Hr En) as O. cbn [fst] in O. lia.
    + assert (Hn_case : (forall i r, (i < n)%nat -> nth_error plan i = Some r -> snd (fst r) <= a) ->
        cells (match (if overlaps (a, b) qr then Some (skipn n plan) else None) with Some l => remap_from l (a, b) | None => [(a, b)] end) = map (reloc plan) (range a b) /\
        solid (match (if overlaps (a, b) qr then Some (skipn n plan) else None) with Some l => remap_from l (a, b) | None => [(a, b)] end)).
      { intros Hb. destruct (overlaps (a, b) qr) eqn:Eo.
        - apply (Hat n (qr, qt)); auto. cbn [fst]. lia.
        - apply Hnone. intros i r Hr. destruct (Nat.lt_ge_cases i n) as [Hi|Hi]; [left; eauto|right].
          apply (Hov (qr, qt)) in Eo as [Eo|Eo]; cbn [fst] in Eo; [lia|]. eapply (Hafter i (qr, qt)); eauto. rewrite Hr. discriminate. }
      destruct n as [|p] eqn:En'; [apply Hn_case; intros; lia|].
      destruct (nth_error plan p) as [[pr pt]|] eqn:Ep.
      2:{ exfalso. apply nth_error_None in Ep. assert (S p < length plan)%nat by (apply nth_error_Some; rewrite En; discriminate). lia. }
      destruct (overlaps (a, b) pr) eqn:Eo.
      * apply (Hov' (pr, pt)) in Eo. cbn [fst] in Eo. apply (Hat p (pr, pt)); auto; [apply Eo|]. intros i r Hi Hr. eapply (Hprev p); eauto.
      * apply Hn_case. apply (Hov (pr, pt)) in Eo. cbn [fst] in Eo. pose proof (Hs p (pr, pt) Ep) as [A _]. specialize (A ltac:(lia)). cbn [fst] in A.
        eapply (Hbefore p (pr, pt)); eauto. cbn [fst]. destruct Eo; auto. lia.
  - assert (Hlast : (length plan <= n)%nat) by (apply nth_error_None; auto).
    destruct n as [|p] eqn:En'; [apply Hnone; intros i r Hr; exfalso; assert (i < length plan)%nat by (apply nth_error_Some; rewrite Hr; discriminate); lia|].
    destruct (nth_error plan p) as [[pr pt]|] eqn:Ep.
    2:{ apply nth_error_None in Ep. apply Hnone. intros i r Hr. exfalso. assert (i < length plan)%nat as Hi by (apply nth_error_Some; rewrite Hr; discriminate).
        (* the search cannot pass the end *)
        assert (Hle : forall l, (search_start a l <= length l)%nat) by (induction l as [|[[? ?] ?] l IHl]; cbn; [lia|destruct (_ <? _); lia]).
        specialize (Hle plan). fold n in En'. lia. }
    destruct (overlaps (a, b) pr) eqn:Eo.
    + apply (Hov' (pr, pt)) in Eo. cbn [fst] in Eo. apply (Hat p (pr, pt)); auto; [apply Eo|]. intros i r Hi Hr. eapply (Hprev p); eauto.
    + apply (Hov (pr, pt)) in Eo. cbn [fst] in Eo. pose proof (Hs p (pr, pt) Ep) as [A _]. specialize (A ltac:(lia)). cbn [fst] in A.
      apply Hnone. intros i r Hr. left. assert (i < length plan)%nat by (apply nth_error_Some; rewrite Hr; discriminate).
      apply (Hbefore p (pr, pt) eq_refl Ep) with (i := i); [cbn [fst]; destruct Eo; auto; lia|lia|exact Hr].
Qed.

(** Runs rebuilt from the pieces. *)
Definition moved (plan : list (brange * N)) (kv : N * block_time) : N * block_time := (fst kv, mkbt (reloc plan (bt_block (snd kv))) (bt_time (snd kv))).
Definition zip_run (t0 tm : N) (bs : list N) : list (N * block_time) :=
  map (fun p => (t0 + N.of_nat (fst p), mkbt (snd p) tm)) (combine (seq 0 (length bs)) bs).
Lemma expand_zip m : expand m = zip_run (m_thin m) (m_time m) (range (m_data m) (m_data m + m_len m)).
Proof.
  unfold expand, zip_run. destruct m as [th da ti le]. cbn. rewrite range_length. replace (da + le - da) with le by lia.
  assert (H : forall n k, map (fun i => (th + i, mkbt (da + i) ti)) (range (N.of_nat k) (N.of_nat k + N.of_nat n)) =
    map (fun p => (th + N.of_nat (fst p), mkbt (snd p) ti)) (combine (seq k n) (range (da + N.of_nat k) (da + N.of_nat k + N.of_nat n)))).
  { induction n as [|n IH]; intros k; [rewrite (range_nil (N.of_nat k)) by lia; reflexivity|].
    rewrite (range_cons (N.of_nat k)) by lia. rewrite (range_cons (da + N.of_nat k)) by lia. cbn [seq combine map fst snd]. f_equal.
    specialize (IH (S k)). replace (N.of_nat (S k)) with (N.of_nat k + 1) in IH by lia.
    replace (N.of_nat k + N.of_nat (S n)) with (N.of_nat k + 1 + N.of_nat n) by lia.
    replace (da + N.of_nat k + N.of_nat (S n)) with (da + (N.of_nat k + 1) + N.of_nat n) by lia.
    replace (da + N.of_nat k + 1) with (da + (N.of_nat k + 1)) by lia. exact IH. }
  specialize (H (N.to_nat le) 0%nat). rewrite N2Nat.id in H. cbn [N.of_nat] in H. rewrite !N.add_0_l, !N.add_0_r in H. exact H.
Qed.
Lemma zip_run_app t0 tm a b : zip_run t0 tm (a ++ b) = zip_run t0 tm a ++ zip_run (t0 + nlen a) tm b.
Proof.
  unfold zip_run. rewrite app_length, seq_app, combine_app by apply seq_length. rewrite map_app. f_equal. cbn [plus].
  set (n := length a). unfold nlen. fold n. clearbody n. assert (H : forall k, map (fun p : nat * N => (t0 + N.of_nat (fst p), mkbt (snd p) tm)) (combine (seq (n + k) (length b)) b) =
    map (fun p : nat * N => (t0 + N.of_nat n + N.of_nat (fst p), mkbt (snd p) tm)) (combine (seq k (length b)) b)).
  { clear. induction b as [|x b IH]; intros k; cbn [length seq combine map]; auto. f_equal; [cbn; f_equal; lia|]. specialize (IH (S k)). rewrite Nat.add_succ_r in IH. exact IH. }
  specialize (H 0%nat). rewrite Nat.add_0_r in H. exact H.
Qed.
Lemma remapped_spec m : forall rs w, solid rs -> m_thin m + w + nlen (cells rs) < 2 ^ 64 ->
  flat_map expand (remapped_runs m w rs) = zip_run (m_thin m + w) (m_time m) (cells rs).
Proof.
  induction rs as [|[a b] rs IH]; intros w Hs Hw; [reflexivity|]. inversion Hs as [|? ? H1 H2]; subst. cbn [fst snd] in H1.
  cbn [remapped_runs flat_map]. rewrite cells_cons, zip_run_app. rewrite cells_cons in Hw. unfold nlen in Hw. rewrite app_length, cell_length in Hw. unfold rg_len in *. cbn [fst snd] in *.
  rewrite !wadd_small by lia. rewrite expand_zip. cbn [m_thin m_data m_time m_len]. unfold cell at 1. cbn [fst snd].
  replace (a + (b - a)) with b by lia. f_equal. rewrite IH; [|auto|unfold nlen; lia]. f_equal. unfold nlen. rewrite cell_length. unfold rg_len. cbn [fst snd]. lia.
Qed.
Lemma zip_run_map plan t0 tm bs : zip_run t0 tm (map (reloc plan) bs) = map (moved plan) (zip_run t0 tm bs).
Proof.
  unfold zip_run. rewrite map_length, map_map. generalize 0%nat. induction bs as [|x bs IH]; intros k; cbn [map length seq combine]; auto.
  f_equal. apply IH.
Qed.
Lemma remap_map_spec nr plan m : plan_ok plan -> (forall x, In x (cells (map fst plan)) -> nr <= x) ->
  0 < m_len m -> m_data m + m_len m < 2 ^ 64 -> m_thin m + m_len m < 2 ^ 64 ->
  flat_map expand (remap_map nr plan m) = map (moved plan) (expand m).
Proof.
  intros Hok Hge Hl Hd Ht. unfold remap_map. rewrite wadd_small by lia. destruct (N.ltb_spec (m_data m + m_len m) nr) as [H|H].
  - cbn [flat_map]. rewrite app_nil_r. symmetry. apply map_id_in. intros [k [b tm]] Hin. unfold expand in Hin. apply in_map_iff in Hin as (i & E & Hi). injection E as <- <- <-.
    unfold moved. cbn [fst snd bt_block bt_time]. rewrite reloc_out; auto. intros Hc. apply Hge in Hc. apply in_range in Hi. lia.
  - destruct (remap_spec plan (m_data m) (m_data m + m_len m) Hok ltac:(lia)) as [A B].
    rewrite remapped_spec; [|exact B|rewrite A; unfold nlen; rewrite map_length, range_length; lia].
    rewrite A, N.add_0_r, zip_run_map, expand_zip. reflexivity.
Qed.
