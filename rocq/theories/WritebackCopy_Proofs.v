(** cache/writeback.rs: the copying and the retries. *)
From Coq Require Import Permutation.
From Verif Require Import IoMany_Proofs Base Codec_Model SpaceMap_Model SmWrite_Model SmMeta_Proofs Utils_Proofs Array_Model Array_Spec Copier_Model Copier_Spec Copier_Proofs Props_Copier Writeback_Model Writeback_Spec WritebackSel_Proofs.

(** ** Sets *)
Lemma rb_remove_in x l y : In y (rb_remove x l) <-> In y l /\ y <> x.
Proof. unfold rb_remove. rewrite filter_In. destruct (N.eqb_spec y x); cbn; intuition; discriminate. Qed.
Lemma filter_inc (p : N -> bool) l : increasing l -> increasing (filter p l).
Proof.
  induction l as [|x l IH]; intros H; cbn [filter]; auto. apply increasing_strong in H as [H1 H2]. destruct (p x); auto.
  apply increasing_strong. split; auto. intros y Hy. apply filter_In in Hy as [Hy _]. auto.
Qed.
Lemma rb_union_in : forall b a x, In x (rb_union a b) <-> In x a \/ In x b.
Proof.
  induction b as [|y b IH]; intros a x; unfold rb_union; cbn [fold_left]; [cbn; tauto|]. fold (rb_union (rb_insert y a) b). rewrite IH. unfold rb_insert. rewrite insert_block_in. cbn. intuition.
Qed.
Lemma rb_union_inc : forall b a, increasing a -> increasing (rb_union a b).
Proof. induction b as [|y b IH]; intros a H; auto. unfold rb_union. cbn [fold_left]. apply IH. apply insert_block_inc. auto. Qed.
Lemma rb_mem_in x l : rb_mem x l = true <-> In x l.
Proof. unfold rb_mem. rewrite existsb_exists. split; [intros (y & H & E); apply N.eqb_eq in E; subst; auto|intros H; exists x; split; auto; apply N.eqb_refl]. Qed.

Definition small (ops : list cop) : Prop := forall op, In op ops -> c_src op < W32.
Lemma u32_small ops op : small ops -> In op ops -> u32_of (c_src op) = c_src op.
Proof. intros H Hop. apply N.mod_small. apply H. auto. Qed.
Lemma note_copied_spec : forall ops cl, small ops -> (forall x, In x (note_copied ops cl) <-> In x cl \/ In x (map c_src ops)) /\ (increasing cl -> increasing (note_copied ops cl)).
Proof.
  induction ops as [|o ops IH]; intros cl Hs; unfold note_copied; cbn [fold_left map]; [cbn; tauto|]. fold (note_copied ops (rb_insert (u32_of (c_src o)) cl)).
  destruct (IH (rb_insert (u32_of (c_src o)) cl)) as [I1 I2]. { intros p Hp. apply Hs. right. auto. }
  rewrite (u32_small (o :: ops)) in * by (auto; left; auto). split; [|intros H; apply I2, insert_block_inc; auto]. intros x. rewrite I1. unfold rb_insert. rewrite insert_block_in. cbn. intuition.
Qed.
Lemma note_failed_spec : forall ops cl rf cl' rf', small ops -> note_failed ops (cl, rf) = (cl', rf') ->
  (forall x, In x cl' <-> In x cl /\ ~ In x (map c_src ops)) /\ (forall x, In x rf' <-> In x rf \/ In x (map c_src ops)) /\
  (increasing cl -> increasing cl') /\ (increasing rf -> increasing rf').
Proof.
  induction ops as [|o ops IH]; intros cl rf cl' rf' Hs E; unfold note_failed in E; cbn [fold_left map fst snd] in *.
  - injection E as <- <-. cbn. tauto.
  - fold (note_failed ops (rb_remove (u32_of (c_src o)) cl, rb_insert (u32_of (c_src o)) rf)) in E.
    rewrite (u32_small (o :: ops)) in E by (auto; left; auto).
    apply IH in E as (I1 & I2 & I3 & I4). 2:{ intros p Hp. apply Hs. right. auto. } conj.
    + intros x. rewrite I1, rb_remove_in. cbn. intuition.
    + intros x. rewrite I2. unfold rb_insert. rewrite insert_block_in. cbn. intuition.
    + intros H. apply I3. apply filter_inc. auto.
    + intros H. apply I4. apply insert_block_inc. auto.
Qed.

Section Copy.
Context {P : Type}.

(** ** One call *)
Lemma in_outcome (o : outcome) log op : In op (with_outcome o log) <-> In (op, o) log.
Proof.
  unfold with_outcome. rewrite in_map_iff. split.
  - intros ([q o'] & <- & H). apply filter_In in H as [H1 H2]. cbn [fst snd] in *. destruct o, o'; cbn in H2; try discriminate; auto.
  - intros H. exists (op, o). split; auto. apply filter_In. split; auto. destruct o; reflexivity.
Qed.
Lemma copy_call_spec (c : copier P) n m ops m' r : copier_ok m c -> independent false true ops -> copy_call c n m ops = (m', r) ->
  (forall d b, ~ (d = true /\ In b (map c_dst ops)) -> m' d b = m d b) /\
  match r with
  | None => True
  | Some (Ok t) => incl (t_rerr t) ops /\ incl (t_werr t) ops /\
      forall op, In op ops -> ~ In op (t_rerr t) -> ~ In op (t_werr t) -> m' true (c_dst op) = m false (c_src op)
  | Some _ => False
  end.
Proof.
  intros Hc Hind E. destruct c as [ks scheds|fs pages blank]; cbn [copy_call copier_ok] in *.
  - injection E as <- <-. destruct (Hc n) as (K1 & K2 & K3). assert (Hi : independent (k_src (ks n)) (k_dst (ks n)) ops) by (rewrite K1, K2; auto). split.
    + intros d b Hn. apply C30_running; auto. rewrite K2. exact Hn.
    + destruct (copy_result _) as [r|] eqn:Er; auto. destruct (C30_reports _ _ _ _ _ _ K3 Hi Er) as (t & -> & log & H1 & H2 & H3 & _ & H5 & _). rewrite K1, K2 in *.
      assert (Hlog : forall op o, In (op, o) log -> In op ops). { intros op o H. rewrite <- H1. apply in_map_iff. exists (op, o). auto. }
      conj.
      * intros op Hop. rewrite H2 in Hop. apply in_outcome in Hop. eauto.
      * intros op Hop. rewrite H3 in Hop. apply in_outcome in Hop. eauto.
      * intros op Hop Hr Hw. rewrite <- H1 in Hop. apply in_map_iff in Hop as ([q o] & Eq & Hop). cbn in Eq. subst q. rewrite H2, in_outcome in Hr. rewrite H3, in_outcome in Hw.
        destruct o; try contradiction. apply H5. auto.
  - destruct (C30_rescue P (fs n) false true pages ops (mkrc (to_pages blank m) (fun _ => blank) 0 0) Hind) as [(log & H1 & H2 & H3 & _ & H5 & _ & _) _].
    destruct (rescue_copy _ _ _ _ _ _ _) as [q t]. cbn [fst snd q_mem] in *. injection E as <- <-. split.
    + intros d b Hn. destruct d; cbn [andb]; auto. destruct (rb_mem b (map c_dst ops)) eqn:Eb; auto. apply rb_mem_in in Eb. tauto.
    + assert (Hlog : forall op o, In (op, o) log -> In op ops). { intros op o H. rewrite <- H1. apply in_map_iff. exists (op, o). auto. }
      conj.
      * intros op Hop. rewrite H2 in Hop. apply in_map_iff in Hop as ([p o] & <- & Hop). apply filter_In in Hop as [Hop _]. eauto.
      * intros op Hop. rewrite H3 in Hop. apply in_map_iff in Hop as ([p o] & <- & Hop). apply filter_In in Hop as [Hop _]. eauto.
      * intros op Hop Hr Hw. cbn [andb]. rewrite (proj2 (rb_mem_in _ _)) by (apply in_map; auto).
        rewrite <- H1 in Hop. apply in_map_iff in Hop as ([p [x y]] & Eq & Hop). cbn in Eq. subst p. rewrite H2 in Hr. rewrite H3 in Hw.
        destruct x. { exfalso. apply Hr. apply in_map_iff. exists (op, (true, y)). split; auto. apply filter_In. auto. }
        destruct y. { exfalso. apply Hw. apply in_map_iff. exists (op, (false, true)). split; auto. apply filter_In. auto. }
        specialize (H5 op Hop). unfold of_pages, to_pages in *.
        transitivity (map (fun i => nth i (m false (c_src op)) blank) (seq 0 pages)).
        -- apply map_ext_in. intros i Hi. apply in_seq in Hi. apply H5. lia.
        -- rewrite <- (Hc (c_src op)). generalize (m false (c_src op)). intros l. clear. induction l as [|a l IH]; [reflexivity|]. cbn [length seq map nth]. f_equal.
           rewrite <- seq_shift, map_map. exact IH.
Qed.

(** ** The copy thread *)
Lemma copier_ok_same (c : copier P) m m' : (forall b, m' false b = m false b) -> copier_ok m c -> copier_ok m' c.
Proof. intros H. destruct c; cbn [copier_ok]; auto. intros Hc b. rewrite H. auto. Qed.
Lemma copy_thread_spec (c : copier P) : forall bs n m cl rf wf m' r, copier_ok m c -> independent false true (concat bs) ->
  NoDup (map c_src (concat bs)) -> small (concat bs) ->
  (forall x, In x (map c_src (concat bs)) -> ~ In x cl /\ ~ In x rf /\ ~ In x wf) ->
  increasing cl -> increasing rf -> increasing wf ->
  copy_thread c n m bs (cl, rf, wf) = (m', r) ->
  (forall d b, ~ (d = true /\ In b (map c_dst (concat bs))) -> m' d b = m d b) /\
  match r with
  | None => True
  | Some (Ok (cl', rf', wf')) =>
      increasing cl' /\ increasing rf' /\ increasing wf' /\
      (forall x, In x cl' <-> In x cl \/ (In x (map c_src (concat bs)) /\ ~ In x rf' /\ ~ In x wf')) /\
      (forall x, In x rf \/ In x wf -> In x rf' \/ In x wf') /\
      (forall x, In x rf' \/ In x wf' -> In x rf \/ In x wf \/ In x (map c_src (concat bs))) /\
      (forall op, In op (concat bs) -> In (c_src op) cl' -> m' true (c_dst op) = m false (c_src op))
  | Some _ => False
  end.
Proof.
  induction bs as [|ops bs IH]; intros n m cl rf wf m' r Hc Hind Hnd Hs Hdis I1 I2 I3 E; cbn [copy_thread concat] in *.
  - injection E as <- <-. split; auto. cbn [map In]. conj; auto; try tauto.
  - destruct (independent_sub _ _ _ _ Hind) as [Hi1 Hi2]. rewrite map_app in *. apply NoDup_app_iff_local in Hnd as (N1 & N2 & N3).
    assert (S1 : small ops) by (intros o Ho; apply Hs, in_or_app; auto). assert (S2 : small (concat bs)) by (intros o Ho; apply Hs, in_or_app; auto).
    destruct (note_copied_spec ops cl S1) as [A1 A2]. specialize (A2 I1). set (cl1 := note_copied ops cl) in *. clearbody cl1.
    destruct (copy_call c n m ops) as [m1 r1] eqn:Ec. destruct (copy_call_spec c n m ops m1 r1 Hc Hi1 Ec) as [B1 B2].
    destruct r1 as [[t| |]|]; try contradiction.
    2:{ injection E as <- <-. split; auto. intros d b Hn. rewrite ?map_app in Hn. apply B1. intros [H1 H2]. apply Hn. split; auto. apply in_or_app. auto. }
    destruct B2 as (B2 & B3 & B4). destruct (note_failed (t_rerr t) (cl1, rf)) as [cl2 rf2] eqn:E2.
    apply note_failed_spec in E2 as (C1 & C2 & C3 & C4); [|intros o Ho; apply S1, B2; auto].
    destruct (note_failed (t_werr t) (cl2, wf)) as [cl3 wf3] eqn:E3.
    apply note_failed_spec in E3 as (D1 & D2 & D3 & D4); [|intros o Ho; apply S1, B3; auto].
    assert (Hre : forall x, In x (map c_src (t_rerr t)) -> In x (map c_src ops)). { intros x Hx. apply in_map_iff in Hx as (o & <- & Ho). apply in_map. auto. }
    assert (Hwe : forall x, In x (map c_src (t_werr t)) -> In x (map c_src ops)). { intros x Hx. apply in_map_iff in Hx as (o & <- & Ho). apply in_map. auto. }
    apply IH in E as [F1 F2]; auto.
    2:{ eapply copier_ok_same; [|exact Hc]. intros b. apply B1. intros [H _]. discriminate. }
    2:{ intros x Hx. assert (Hx' : ~ In x (map c_src ops)) by (intros Hy; eapply N3; eauto). destruct (Hdis x) as (X1 & X2 & X3). { apply in_or_app; auto. }
        rewrite D1, C1, A1, C2, D2. conj; [tauto| |]; intros [Hz|Hz]; auto. }
    split.
    + intros d b Hn. rewrite ?map_app in Hn. rewrite F1, B1; auto; intros [H1 H2]; apply Hn; split; auto; apply in_or_app; auto.
    + destruct r as [[[[cl' rf'] wf']| |]|]; auto. destruct F2 as (G1 & G2 & G3 & G4 & G5 & G6 & G7). conj; auto.
      * intros x. rewrite map_app, G4, D1, C1, A1. split.
        -- intros [(([H|H] & Hr) & Hw)|(H & Hr & Hw)]; auto.
           ++ right. split; [apply in_or_app; auto|]. assert (Hx : ~ In x (map c_src (concat bs))) by (intros Hy; eapply N3; eauto).
              destruct (Hdis x) as (X1 & X2 & X3). { apply in_or_app; auto. }
              assert (Hnot : ~ (In x rf' \/ In x wf')). { intros Hy. apply G6 in Hy as [Hy|[Hy|Hy]]; auto; [apply C2 in Hy as [Hy|Hy]; auto|apply D2 in Hy as [Hy|Hy]; auto]. } tauto.
           ++ right. split; [apply in_or_app; auto|]. auto.
        -- intros [H|(H & Hr & Hw)].
           ++ left. assert (Hx : ~ In x (map c_src ops)). { intros Hy. destruct (Hdis x); [apply in_or_app; auto|tauto]. } split; [split; auto|auto].
           ++ apply in_app_or in H as [H|H]; [|right; auto]. left.
              assert (Hno : ~ (In x rf2 \/ In x wf3)). { intros Hy. apply G5 in Hy. tauto. }
              rewrite C2, D2 in Hno. tauto.
      * intros x Hx. apply G5. rewrite C2, D2. tauto.
      * intros x Hx. rewrite map_app. apply G6 in Hx as [Hx|[Hx|Hx]].
        -- apply C2 in Hx as [Hx|Hx]; auto. right. right. apply in_or_app. auto.
        -- apply D2 in Hx as [Hx|Hx]; auto. right. right. apply in_or_app. auto.
        -- right. right. apply in_or_app. auto.
      * intros op Hop Hcl. apply in_app_or in Hop as [Hop|Hop].
        -- rewrite F1.
           ++ apply B4; auto.
              ** intros Hy. apply G4 in Hcl as [Hcl|(Hz & _ & _)].
                 { apply D1 in Hcl as [Hcl _]. apply C1 in Hcl as [_ Hcl]. apply Hcl. apply in_map. auto. }
                 { eapply N3; [apply in_map; exact Hop|exact Hz]. }
              ** intros Hy. apply G4 in Hcl as [Hcl|(Hz & _ & _)].
                 { apply D1 in Hcl as [_ Hcl]. apply Hcl. apply in_map. auto. }
                 { eapply N3; [apply in_map; exact Hop|exact Hz]. }
           ++ intros [_ Hy]. destruct Hind as [Hd _]. rewrite map_app in Hd. apply NoDup_app_iff_local in Hd as (_ & _ & Hd). eapply Hd; [apply in_map; exact Hop|exact Hy].
        -- rewrite G7 by auto. apply B1. intros [Hy _]. discriminate.
Qed.
End Copy.

(** ** The passes *)
Section Passes.
Context {P : Type}.
Variables (e : menv) (d : disk) (sb : cache_sb) (maps : list cmapping) (blocks foot : list N) (sel : selector) (m0 : mem (list P)).
Hypothesis Hmaps : mappings_on e d sb maps blocks foot.
Hypothesis Hdist : distinct_origins maps.
Let ops := sel_ops sel 0 maps.

Definition untouched (m : mem (list P)) : Prop := forall dv b, ~ (dv = true /\ In b (map c_dst ops)) -> m dv b = m0 dv b.
Definition pass_inv (m : mem (list P)) (cl rf wf : list N) : Prop :=
  untouched m /\ increasing cl /\ increasing rf /\ increasing wf /\
  (forall x, In x (map c_src ops) <-> In x cl \/ In x rf \/ In x wf) /\
  (forall x, In x cl -> ~ In x rf /\ ~ In x wf) /\
  (forall op, In op ops -> In (c_src op) cl -> m true (c_dst op) = m0 false (c_src op)).

Lemma ops_op_for x : In x (map c_src ops) -> In (op_for maps x) ops /\ x < nlen maps.
Proof using.
  intros H. apply in_map_iff in H as (op & <- & Hop). pose proof Hop as H. apply sel_ops_in in H as (m & H1 & H2 & H3 & H4).
  unfold op_for. rewrite (nth_error_nth _ _ _ H1), <- H2. split; [destruct op; exact Hop|]. assert (Hn : nth_error maps (N.to_nat (c_src op)) <> None) by congruence. apply nth_error_Some in Hn. unfold nlen. lia.
Qed.
Lemma ops_eq o p : In o ops -> In p ops -> c_src o = c_src p -> o = p.
Proof using.
  intros Ho Hp E. apply sel_ops_in in Ho as (m & H1 & H2 & _). apply sel_ops_in in Hp as (n & K1 & K2 & _). rewrite E in H1. rewrite K1 in H1. injection H1 as <-.
  destruct o, p; cbn in *; congruence.
Qed.
Lemma ops_dst o p : In o ops -> In p ops -> c_dst o = c_dst p -> o = p.
Proof using Hdist.
  intros Ho Hp E. apply ops_eq; auto. apply sel_ops_in in Ho as (m & H1 & H2 & H3 & _). apply sel_ops_in in Hp as (n & K1 & K2 & K3 & _).
  assert (Hx : N.to_nat (c_src o) = N.to_nat (c_src p)) by (apply (Hdist _ _ m n); auto; congruence). lia.
Qed.
Lemma nodup_dst l : NoDup l -> incl l ops -> NoDup (map c_dst l).
Proof using Hdist.
  induction l as [|o l IH]; intros Hn Hi; cbn [map]; constructor; inversion Hn; subst.
  - intros H. apply in_map_iff in H as (p & E & Hp). assert (p = o) by (apply ops_dst; auto; apply Hi; cbn; auto). subst. contradiction.
  - apply IH; auto. intros x Hx. apply Hi. right. auto.
Qed.
Lemma good_ops size l : incl l ops -> NoDup (map c_src l) ->
  let bs := batches size l in
  independent false true (concat bs) /\ NoDup (map c_src (concat bs)) /\ small (concat bs) /\ (forall op, In op (concat bs) <-> In op l).
Proof using Hmaps Hdist.
  intros Hi Hn bs. pose proof (batches_perm size l []) as Q. cbn [app] in Q. fold (batches size l) in Q. fold bs in Q.
  assert (Hin : forall op, In op (concat bs) <-> In op l). { intros op. split; apply Permutation_in; [exact Q|apply Permutation_sym; exact Q]. }
  assert (HN : NoDup (map c_src (concat bs))). { eapply Permutation_NoDup; [|exact Hn]. apply Permutation_map. apply Permutation_sym. exact Q. }
  conj; auto.
  - split; [|discriminate]. apply nodup_dst; [eapply NoDup_map_inv; exact HN|]. intros x Hx. apply Hi, Hin. auto.
  - intros op Hop. apply Hin, Hi in Hop. unfold ops in Hop. apply (proj2 (sel_ops_src sel maps 0)) in Hop. destruct Hmaps as (_ & _ & _ & _ & Hm). change W32 with (2 ^ 32). lia.
Qed.

Lemma retry_inv size (cs : nat -> copier P) : (forall p, copier_ok m0 (cs p)) -> forall more p m cl rf wf m' r, pass_inv m cl rf wf ->
  retry e d sb size cs p more m (cl, rf, wf) = (m', r) ->
  untouched m' /\ match r with None => True | Some (Ok (cl', rf', wf')) => pass_inv m' cl' rf' wf' | Some _ => False end.
Proof using Hmaps Hdist.
  intros Hcs. induction more as [|more IH]; intros p m cl rf wf m' r I E; cbn [retry] in E.
  { injection E as <- <-. split; auto. apply I. }
  destruct (failed_any (cl, rf, wf)) eqn:Ef. 2:{ injection E as <- <-. split; auto. apply I. }
  pose proof I as (I1 & I2 & I3 & I4 & I5 & I6 & I7).
  assert (Hne : rb_union rf wf <> []).
  { intros H. assert (G : forall x, ~ (In x rf \/ In x wf)). { intros x Hx. apply rb_union_in in Hx. rewrite H in Hx. destruct Hx. }
    destruct rf as [|x rf]; [|apply (G x); cbn; auto]. destruct wf as [|x wf]; [discriminate|]. apply (G x). cbn. auto. }
  assert (Hfail : forall x, In x (rb_union rf wf) -> In (op_for maps x) ops /\ x < nlen maps /\ ~ In x cl).
  { intros x Hx. apply rb_union_in in Hx. destruct (ops_op_for x) as [J1 J2]; [apply I5; tauto|]. conj; auto. intros Hc. destruct (I6 x Hc). tauto. }
  rewrite (copy_selected_ops e d sb maps blocks foot size (cs p) (rb_union rf wf) m Hmaps Hne) in E by (intros x Hx; apply Hfail; auto).
  set (l := map (op_for maps) (rb_union rf wf)) in *.
  assert (El : map c_src l = rb_union rf wf). { unfold l. rewrite map_map. cbn [op_for c_src]. apply map_id. }
  assert (Hl : incl l ops). { intros op Hop. apply in_map_iff in Hop as (x & <- & Hx). apply Hfail. auto. }
  destruct (good_ops size l Hl) as (G1 & G2 & G3 & G4). { rewrite El. apply increasing_NoDup, rb_union_inc. auto. }
  destruct (copy_thread (cs p) 0 m (batches size l) ([], [], [])) as [m1 r1] eqn:Et.
  apply copy_thread_spec in Et; auto; cbn [increasing]; auto; [|eapply copier_ok_same; [|apply Hcs]; intros b; apply I1; intros [H _]; discriminate].
  destruct Et as [T1 T2].
  assert (Hdl : forall b, In b (map c_dst (concat (batches size l))) -> exists op, In op l /\ c_dst op = b). { intros b Hb. apply in_map_iff in Hb as (op & <- & Hop). apply G4 in Hop. eauto. }
  assert (U1 : untouched m1).
  { intros dv b Hn. rewrite T1; auto. intros [H1 H2]. apply Hn. split; auto. destruct (Hdl b H2) as (op & Hop & <-). apply in_map. apply Hl. auto. }
  destruct r1 as [[[[c rf1] wf1]| |]|]; try contradiction. 2:{ injection E as <- <-. auto. }
  destruct T2 as (T2 & T3 & T4 & T5 & T6 & T7 & T8).
  assert (Hsrc : forall x, In x (map c_src (concat (batches size l))) <-> In x rf \/ In x wf).
  { intros x. rewrite <- (rb_union_in wf rf x), <- El. split; intros H; apply in_map_iff in H as (op & <- & Hop); apply in_map; apply G4; auto. }
  apply IH in E; [exact E|]. unfold pass_inv. conj; auto.
  - apply rb_union_inc. auto.
  - intros x. rewrite rb_union_in, T5, Hsrc, I5. split.
    + intros [H|H]; [auto|]. destruct (in_dec N.eq_dec x rf1) as [Hr|Hr]; [auto|]. destruct (in_dec N.eq_dec x wf1) as [Hw|Hw]; [auto|]. left. right. auto.
    + intros [[H|[[]|(H & _)]]|H]; auto. apply T7 in H as [[]|[[]|H]]. rewrite Hsrc in H. auto.
  - intros x Hx. apply rb_union_in in Hx as [Hx|Hx].
    + destruct (I6 x Hx) as [J1 J2]. assert (Hn : ~ (In x rf1 \/ In x wf1)). { intros H. apply T7 in H as [[]|[[]|H]]. rewrite Hsrc in H. tauto. } tauto.
    + apply T5 in Hx as [[]|(_ & Hx)]. exact Hx.
  - intros op Hop Hc. apply rb_union_in in Hc as [Hc|Hc].
    + rewrite T1. { apply I7; auto. } intros [_ H]. destruct (Hdl _ H) as (op' & H1 & H2).
      assert (op' = op) by (apply ops_dst; auto). subst op'. assert (Hx : In (c_src op) (rb_union rf wf)) by (rewrite <- El; apply in_map; auto). apply Hfail in Hx. tauto.
    + assert (Hin : In op l). { pose proof Hc as Hc'. apply T5 in Hc' as [[]|(Hc' & _)]. apply in_map_iff in Hc' as (op' & E1 & E2). apply G4 in E2. replace op with op'; auto. apply ops_eq; auto. }
      rewrite T8 by (auto; apply G4; auto). apply I1. intros [H _]. discriminate.
Qed.
Lemma first_pass size (c : copier P) m' r : copier_ok m0 c -> copy_thread c 0 m0 (batches size ops) ([], [], []) = (m', r) ->
  untouched m' /\ match r with None => True | Some (Ok (cl, rf, wf)) => pass_inv m' cl rf wf | Some _ => False end.
Proof using Hmaps Hdist.
  intros Hc E. destruct (good_ops size ops (incl_refl _)) as (G1 & G2 & G3 & G4). { apply increasing_NoDup, sel_ops_src. }
  apply copy_thread_spec in E; auto; cbn [increasing]; auto. destruct E as [T1 T2].
  assert (U : untouched m'). { intros dv b Hn. apply T1. intros [H1 H2]. apply Hn. split; auto. apply in_map_iff in H2 as (op & <- & Hop). apply in_map, G4. auto. }
  split; auto. destruct r as [[[[cl rf] wf]| |]|]; auto. destruct T2 as (T2 & T3 & T4 & T5 & T6 & T7 & T8).
  assert (Hsrc : forall x, In x (map c_src (concat (batches size ops))) <-> In x (map c_src ops)). { intros x. split; intros H; apply in_map_iff in H as (op & <- & Hop); apply in_map; apply G4; auto. }
  unfold pass_inv. conj; auto.
  - intros x. rewrite T5, Hsrc. split.
    + intros H. destruct (in_dec N.eq_dec x rf) as [Hr|Hr]; [auto|]. destruct (in_dec N.eq_dec x wf) as [Hw|Hw]; [auto|]. left. right. auto.
    + intros [[[]|(H & _)]|H]; auto. apply T7 in H as [[]|[[]|H]]. apply Hsrc. auto.
  - intros x Hx. apply T5 in Hx as [[]|(_ & Hx)]. exact Hx.
  - intros op Hop Hx. apply T8; auto. apply G4. auto.
Qed.
End Passes.

Lemma copy_dirty_inv {P} e d sb maps blocks foot ws size retries (cs : nat -> copier P) m m' r :
  mappings_on e d sb maps blocks foot -> distinct_origins maps -> bits_needed e d sb ws -> cs_version sb = 1 \/ cs_version sb = 2 ->
  (forall p, copier_ok m (cs p)) -> copy_dirty e d sb size retries cs m = (m', r) ->
  exists nr sel, mk_selector e d sb = Ok (nr, sel) /\ untouched maps sel m m' /\
    match r with None => True | Some (Ok (n, (cl, rf, wf))) => n = nr /\ pass_inv maps sel m m' cl rf wf | Some _ => False end.
Proof.
  intros Hm Hd Hb Hv Hcs E. destruct (selector_spec e d sb maps blocks foot ws Hm Hb Hv) as (nr & sel & Es & _). exists nr, sel. split; auto.
  unfold copy_dirty, copy_all in E. rewrite Es, (walk_ops e d sb maps blocks foot sel Hm) in E.
  destruct (copy_thread (cs 0%nat) 0 m (batches size (sel_ops sel 0 maps)) ([], [], [])) as [m1 r1] eqn:E1.
  apply (first_pass e d sb maps blocks foot sel m Hm Hd size (cs 0%nat) m1 r1 (Hcs 0%nat)) in E1 as [U1 I1].
  destruct r1 as [[[[cl rf] wf]| |]|]; try contradiction. 2:{ injection E as <- <-. auto. }
  destruct (retry e d sb size cs 1 (S retries) m1 (cl, rf, wf)) as [m2 r2] eqn:E2.
  apply (retry_inv e d sb maps blocks foot sel m Hm Hd size cs Hcs _ _ _ _ _ _ _ _ I1) in E2 as [U2 I2].
  destruct r2 as [[[[cl2 rf2] wf2]| |]|]; try contradiction; injection E as <- <-; auto.
Qed.
