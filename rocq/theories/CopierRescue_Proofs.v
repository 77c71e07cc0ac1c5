(** The rescue copier. *)
From Verif Require Import Base Codec_Model Utils_Proofs Copier_Model Copier_Spec Copier_Proofs.

Section Rescue.
Context {A : Type}.
Variable f : faults A.
Lemma pput_same (m : pmem A) d b i v : pput m d b i v d b i = v.
Proof using. unfold pput. rewrite eqb_reflx, N.eqb_refl, Nat.eqb_refl. reflexivity. Qed.
Lemma pput_other (m : pmem A) d b i v d' b' i' : ~ (d' = d /\ b' = b /\ i' = i) -> pput m d b i v d' b' i' = m d' b' i'.
Proof using.
  unfold pput. intros H. destruct (Bool.eqb d d') eqn:E; auto. apply eqb_prop in E. destruct (N.eqb_spec b b'); auto. destruct (Nat.eqb_spec i i'); auto.
  subst. exfalso. auto.
Qed.

Lemma rescue_read_spec src b : forall n i s s' ok bad, rescue_read f src b i n s = (s', ok, bad) ->
  q_mem s' = q_mem s /\ (forall j, In j ok -> (i <= j < i + n)%nat /\ q_buf s' j = q_mem s src b j) /\
  (forall j, (j < i)%nat -> q_buf s' j = q_buf s j) /\ NoDup ok /\
  (bad = 0%nat -> forall j, (i <= j < i + n)%nat -> In j ok) /\ ((forall c, f_read f c = true) -> bad = 0%nat).
Proof using.
  induction n as [|n IH]; intros i s s' ok bad H; cbn [rescue_read] in H.
  - injection H as <- <- <-. conj; auto; [intros j []|constructor|intros; lia].
  - destruct (f_read f (q_nr s)) eqn:EF.
    + destruct (rescue_read f src b (Datatypes.S i) n _) as [[s2 ok2] bad2] eqn:E. injection H as <- <- <-.
      destruct (IH _ _ _ _ _ E) as (I1 & I2 & I3 & I4 & I5 & I6). cbn [q_mem q_buf] in *. conj; auto.
      * intros j [<-|Hj].
        -- split; [lia|]. rewrite I3 by lia. unfold put_buf. rewrite Nat.eqb_refl. reflexivity.
        -- destruct (I2 j Hj). split; [lia|auto].
      * intros j Hj. rewrite I3 by lia. unfold put_buf. destruct (Nat.eqb_spec i j); [lia|auto].
      * constructor; auto. intros Hc. apply I2 in Hc. lia.
      * intros Hb j Hj. destruct (Nat.eq_dec i j); [left; auto|right; apply I5; auto; lia].
    + destruct (rescue_read f src b (Datatypes.S i) n _) as [[s2 ok2] bad2] eqn:E. injection H as <- <- <-.
      destruct (IH _ _ _ _ _ E) as (I1 & I2 & I3 & I4 & I5 & I6). cbn [q_mem q_buf] in *. conj; auto.
      * intros j Hj. destruct (I2 j Hj). split; [lia|auto].
      * intros j Hj. rewrite I3 by lia. unfold put_buf. destruct (Nat.eqb_spec i j); [lia|auto].
      * discriminate.
      * intros Hc. rewrite Hc in EF. discriminate.
Qed.
Lemma rescue_write_spec dst b : forall sel s s' bad, NoDup sel -> rescue_write f dst b sel s = (s', bad) ->
  q_buf s' = q_buf s /\
  (forall d b' j, ~ (d = dst /\ b' = b /\ In j sel) -> q_mem s' d b' j = q_mem s d b' j) /\
  (bad = 0%nat -> forall j, In j sel -> q_mem s' dst b j = q_buf s j) /\ ((forall c, f_write f c = true) -> bad = 0%nat).
Proof using.
  induction sel as [|i r IH]; intros s s' bad Hn H; cbn [rescue_write] in H.
  - injection H as <- <-. conj; auto. intros _ j [].
  - inversion Hn as [|? ? N1 N2]; subst. destruct (f_write f (q_nw s)) eqn:EF.
    + destruct (IH _ _ _ N2 H) as (I1 & I2 & I3 & I4). cbn [q_mem q_buf] in *. conj; auto.
      * intros d b' j Hj. rewrite I2 by (intros (-> & -> & Hc); apply Hj; conj; auto; right; auto).
        apply pput_other. intros (-> & -> & ->). apply Hj. conj; auto. left; auto.
      * intros Hb j [<-|Hj]; [|apply I3; auto]. rewrite I2 by tauto. apply pput_same.
    + destruct (rescue_write f dst b r _) as [s2 bad2] eqn:E. injection H as <- <-.
      destruct (IH _ _ _ N2 E) as (I1 & I2 & I3 & I4). cbn [q_mem q_buf] in *. conj; auto.
      * intros d b' j Hj. rewrite I2 by (intros (-> & -> & Hc); apply Hj; conj; auto; right; auto).
        apply pput_other. intros (-> & -> & ->). apply Hj. conj; auto. left; auto.
      * discriminate.
      * intros Hc. rewrite Hc in EF. discriminate.
Qed.

Lemma rescue_copy_spec src dst pages m0 : forall ops pre s t log,
  independent src dst (pre ++ ops) -> map fst log = pre ->
  t_rerr t = map fst (filter (fun p => fst (snd p)) log) -> t_werr t = map fst (filter (fun p => snd (snd p)) log) ->
  t_copied t = nlen (filter (fun p => negb (fst (snd p)) && negb (snd (snd p))) log) ->
  (forall op, In (op, (false, false)) log -> forall i, (i < pages)%nat -> q_mem s dst (c_dst op) i = m0 src (c_src op) i) ->
  (forall op, In (op, (true, false)) log -> forall i, (i < pages)%nat ->
       q_mem s dst (c_dst op) i = m0 src (c_src op) i \/ q_mem s dst (c_dst op) i = m0 dst (c_dst op) i) ->
  (forall d b i, ~ (d = dst /\ In b (map c_dst pre) /\ (i < pages)%nat) -> q_mem s d b i = m0 d b i) ->
  rescued src dst pages (pre ++ ops) m0 (q_mem (fst (rescue_copy f src dst pages ops s t))) (snd (rescue_copy f src dst pages ops s t)) /\
  ((forall c, f_read f c = true) -> (forall c, f_write f c = true) -> t_copied (snd (rescue_copy f src dst pages ops s t)) = t_copied t + nlen ops).
Proof using.
  induction ops as [|op r IH]; intros pre s t log Hind El Er Ew Ec G1 G2 G3; cbn [rescue_copy].
  - rewrite app_nil_r. cbn [fst snd]. split; [exists log; conj; auto|]. intros _ _. unfold nlen. cbn. lia.
  - destruct (rescue_read f src (c_src op) 0 pages s) as [[s1 ok] rbad] eqn:E1.
    destruct (rescue_read_spec _ _ _ _ _ _ _ _ E1) as (R1 & R2 & _ & R4 & R5 & R6).
    destruct (rescue_write f dst (c_dst op) ok s1) as [s2 wbad] eqn:E2.
    destruct (rescue_write_spec _ _ _ _ _ _ R4 E2) as (W1 & W2 & W3 & W4).
    set (rf := (0 <? rbad)%nat). set (wf := (0 <? wbad)%nat).
    destruct Hind as [Hnd Hsd].
    assert (Hdst : forall o, In o pre -> c_dst o <> c_dst op).
    { intros o Ho Ec'. rewrite map_app, NoDup_app_iff_local in Hnd. destruct Hnd as (_ & _ & Hx). apply (Hx (c_dst o)); [apply in_map; auto|rewrite Ec'; left; auto]. }
    assert (Hsrc : forall i, q_mem s src (c_src op) i = m0 src (c_src op) i).
    { intros i. apply G3. intros (-> & Hc & _). apply in_map_iff in Hc as (o & Eo & Ho). apply (Hsd eq_refl op o); auto; apply in_app_iff; [right; left; auto|left; auto]. }
    assert (Hfix : pre ++ op :: r = (pre ++ [op]) ++ r) by (rewrite <- app_assoc; reflexivity). rewrite Hfix.
    match goal with |- context [mkst ?a ?b ?c] => set (t' := mkst a b c) end.
    destruct (IH (pre ++ [op]) s2 t' (log ++ [(op, (rf, wf))])) as [H1 H2].
    + rewrite <- Hfix. split; auto.
    + rewrite map_app, El. reflexivity.
    + unfold t'. cbn [t_rerr]. fold rf. rewrite filter_app, map_app, <- Er. cbn [filter snd fst]. destruct rf; cbn [map fst]; [reflexivity|rewrite app_nil_r; reflexivity].
    + unfold t'. cbn [t_werr]. fold wf. rewrite filter_app, map_app, <- Ew. cbn [filter snd fst]. destruct wf; cbn [map fst]; [reflexivity|rewrite app_nil_r; reflexivity].
    + unfold t'. cbn [t_copied]. fold wf. rewrite filter_app. cbn [filter snd fst]. unfold nlen in *. rewrite app_length. rewrite Ec. unfold rf, wf in *.
      destruct rbad, wbad; cbn; lia.
    + intros o Ho i Hi. apply in_app_iff in Ho as [Ho|Ho].
      * rewrite W2, R1; [apply G1; auto|]. intros (_ & Hc & _). apply (Hdst o); auto. rewrite <- El. apply (in_map fst) in Ho. exact Ho.
      * destruct Ho as [Ho|[]]. injection Ho as <- Hrf Hwf. unfold rf, wf in *. assert (rbad = 0%nat) by (destruct rbad; [auto|discriminate]). assert (wbad = 0%nat) by (destruct wbad; [auto|discriminate]).
        rewrite W3 by (auto; apply R5; auto; lia). destruct (R2 i) as [_ ->]; [apply R5; auto; lia|]. apply Hsrc.
    + intros o Ho i Hi. apply in_app_iff in Ho as [Ho|Ho].
      * rewrite W2, R1; [apply G2; auto|]. intros (_ & Hc & _). apply (Hdst o); auto. rewrite <- El. apply (in_map fst) in Ho. exact Ho.
      * destruct Ho as [Ho|[]]. injection Ho as <- Hrf Hwf. unfold rf, wf in *. assert (wbad = 0%nat) by (destruct wbad; [auto|discriminate]).
        destruct (in_dec Nat.eq_dec i ok) as [Hin|Hout].
        -- left. rewrite W3 by auto. destruct (R2 i Hin) as [_ ->]. apply Hsrc.
        -- right. rewrite W2, R1 by tauto. apply G3. intros (_ & Hc & _). apply in_map_iff in Hc as (p & Ep & Hp). apply (Hdst p Hp Ep).
    + intros d b i Hn. rewrite W2, R1.
      * apply G3. intros (H1 & H2 & H3). apply Hn. conj; auto. rewrite map_app, in_app_iff. auto.
      * intros (H1 & H2 & H3). apply Hn. conj; auto; [rewrite map_app, in_app_iff; right; left; auto|]. apply R2 in H3. lia.
    + split; [exact H1|]. intros F1 F2. rewrite (H2 F1 F2). unfold t'. cbn [t_copied]. rewrite (R6 F1), (W4 F2). change (0 <? 0)%nat with false. change ((0 =? 0)%nat && (0 =? 0)%nat) with true. cbv iota. unfold nlen. cbn [length]. replace wf with false by (unfold wf; rewrite (W4 F2); reflexivity). lia.
Qed.
End Rescue.
