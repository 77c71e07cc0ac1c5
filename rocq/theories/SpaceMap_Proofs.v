From Verif Require Import Base Codec_Model SpaceMap_Model SpaceMap_Spec.

(** ** nr_used under updates *)
Lemma filter_ext_in' {A} (f g : A -> bool) l :
  (forall x, In x l -> f x = g x) -> filter f l = filter g l.
Proof. apply filter_ext_in. Qed.

Lemma nr_used_ext n c c' : (forall x, x < n -> c x = c' x) -> nr_used n c = nr_used n c'.
Proof.
  intros H. unfold nr_used. f_equal. apply filter_ext_in'. intros x Hx.
  apply in_range in Hx. rewrite H by lia. reflexivity.
Qed.

Lemma nr_used_split n c b : b < n ->
  nr_used n c = nlen (filter (fun b => negb (c b =? 0)) (range 0 b))
                + (if c b =? 0 then 0 else 1)
                + nlen (filter (fun b => negb (c b =? 0)) (range (b + 1) n)).
Proof.
  intros. unfold nr_used. rewrite (range_app 0 b n) by lia.
  rewrite (range_cons b n) by lia. rewrite filter_app. cbn [filter].
  unfold nlen. destruct (c b =? 0); cbn [negb]; rewrite app_length; cbn [length]; lia.
Qed.

Lemma nr_used_upd n c b v : b < n ->
  nr_used n (upd c b v) + (if c b =? 0 then 0 else 1) = nr_used n c + (if v =? 0 then 0 else 1).
Proof.
  intros. rewrite (nr_used_split n c b), (nr_used_split n (upd c b v) b) by auto.
  rewrite upd_same.
  rewrite (filter_ext_in' (fun x => negb (upd c b v x =? 0)) (fun x => negb (c x =? 0)) (range 0 b)).
  2:{ intros x Hx. apply in_range in Hx. rewrite upd_other by lia. reflexivity. }
  rewrite (filter_ext_in' (fun x => negb (upd c b v x =? 0)) (fun x => negb (c x =? 0)) (range (b+1) n)).
  2:{ intros x Hx. apply in_range in Hx. rewrite upd_other by lia. reflexivity. }
  lia.
Qed.

Lemma nr_used_0 n : nr_used n (fun _ => 0) = 0.
Proof. unfold nr_used. replace (filter _ _) with (@nil N); auto. induction (range 0 n); auto. Qed.

Lemma nr_used_pos n c b : b < n -> c b <> 0 -> 0 < nr_used n c.
Proof. intros. rewrite (nr_used_split n c b) by auto. destruct (N.eqb_spec (c b) 0); lia. Qed.

(** ** The invariant *)
Record sm_inv (n max : N) (s : core_sm) : Prop := {
  inv_nr : sm_nr s = n; inv_max : sm_max s = max; inv_pos : 1 <= max;
  inv_nalloc : sm_nalloc s = nr_used n (sm_counts s);
  inv_begin : sm_begin s <= n;
  inv_le : forall b, b < n -> sm_counts s b <= max }.

Lemma sm_new_inv n max : 1 <= max -> sm_inv n max (sm_new n max).
Proof. constructor; simpl; try lia. rewrite nr_used_0; auto. Qed.

Lemma sm_get_spec n max s b : sm_inv n max s ->
  sm_get s b = if b <? n then Ok (sm_counts s b) else Err.
Proof.
  intros [E1 _ _ _ _ _]. unfold sm_get. rewrite E1.
  destruct (N.leb_spec n b), (N.ltb_spec b n); auto; lia.
Qed.

Lemma sm_set_spec n max s b v s' r : sm_inv n max s -> sm_set s b v = (s', r) ->
  sm_inv n max s' /\
  ((b < n /\ v <= max /\ r = Ok (sm_counts s b) /\ sm_counts s' = upd (sm_counts s) b v) \/
   (~ (b < n /\ v <= max) /\ r = Err /\ s' = s)).
Proof.
  intros I H. pose proof I as [E1 E2 E3 E4 E5 E6]. unfold sm_set in H. rewrite E1, E2 in H.
  destruct (N.leb_spec n b).
  { injection H as <- <-. split; auto. right. repeat split; auto. lia. }
  destruct (N.ltb_spec max v).
  { injection H as <- <-. split; auto. right. repeat split; auto. lia. }
  injection H as <- <-. split; [|left; auto].
  constructor; simpl; auto.
  - pose proof (nr_used_upd n (sm_counts s) b v H0) as U.
    pose proof (nr_used_pos n (sm_counts s) b H0).
    destruct (N.eqb_spec (sm_counts s b) 0), (N.eqb_spec v 0); cbn [andb negb]; lia.
  - intros x Hx. unfold upd. destruct (N.eqb_spec x b); auto.
Qed.

Lemma sm_inc_loop_spec n max b e : forall s s' r, sm_inv n max s -> e <= n ->
  sm_inc_loop s (range b e) = (s', r) -> sm_inv n max s' /\
  (((forall x, b <= x < e -> sm_counts s x < max) /\ r = Ok tt /\
    (forall x, sm_counts s' x = if (b <=? x) && (x <? e) then sm_counts s x + 1 else sm_counts s x)) \/
   (r = Err /\ exists sat, b <= sat < e /\ sm_counts s sat = max /\
       (forall x, b <= x < sat -> sm_counts s x < max) /\
       (forall x, sm_counts s' x = if (b <=? x) && (x <? sat) then sm_counts s x + 1 else sm_counts s x))).
Proof.
  remember (N.to_nat (e - b)) as k eqn:Ek. revert b Ek. induction k; intros b Ek s s' r I He H.
  - rewrite range_nil in H by lia. injection H as <- <-. split; auto. left.
    repeat split; auto; intros; try lia.
    destruct (N.leb_spec b x), (N.ltb_spec x e); cbn [andb]; auto; lia.
  - rewrite range_cons in H by lia. pose proof I as [E1 E2 E3 E4 E5 E6]. cbn [sm_inc_loop] in H.
    rewrite E2 in H. destruct (N.leb_spec max (sm_counts s b)).
    { injection H as <- <-. split; auto. right. split; auto. exists b.
      specialize (E6 b). repeat split; try lia. intros x.
      destruct (N.leb_spec b x), (N.ltb_spec x b); cbn [andb]; auto; lia. }
    apply IHk in H; auto; try lia.
    + destruct H as [I' H]. split; auto. cbn [sm_counts] in H.
      assert (Eu : forall x, x <> b -> upd (sm_counts s) b (sm_counts s b + 1) x = sm_counts s x)
        by (intros; apply upd_other; auto).
      destruct H as [(H1 & -> & H2)|(-> & sat & H1 & H2 & H3 & H4)]; [left|right].
      * split; [|split; auto].
        -- intros x Hx. destruct (N.eq_dec x b); [subst; auto|]. rewrite <- Eu by auto. apply H1. lia.
        -- intros x. rewrite H2. destruct (N.eq_dec x b).
           ++ subst. rewrite upd_same. destruct (N.leb_spec (b+1) b), (N.leb_spec b b), (N.ltb_spec b e); cbn [andb]; lia.
           ++ rewrite Eu by auto. destruct (N.leb_spec (b+1) x), (N.leb_spec b x); auto; lia.
      * split; auto. exists sat. rewrite Eu in H2 by lia. split; [lia|]. split; auto. split.
        -- intros x Hx. destruct (N.eq_dec x b); [subst; auto|]. rewrite <- Eu by auto. apply H3. lia.
        -- intros x. rewrite H4. destruct (N.eq_dec x b).
           ++ subst. rewrite upd_same. destruct (N.leb_spec (b+1) b), (N.leb_spec b b), (N.ltb_spec b sat); cbn [andb]; lia.
           ++ rewrite Eu by auto. destruct (N.leb_spec (b+1) x), (N.leb_spec b x); auto; lia.
    + assert (Hb : b < n) by lia.
      constructor; simpl; auto.
      * pose proof (nr_used_upd n (sm_counts s) b (sm_counts s b + 1) Hb) as U.
        destruct (N.eqb_spec (sm_counts s b) 0), (N.eqb_spec (sm_counts s b + 1) 0); lia.
      * intros x Hx. unfold upd. destruct (N.eqb_spec x b); auto. lia.
Qed.

Lemma find_free_loop_spec n c b e :
  (exists x, b <= x < e /\ x < n /\ c x = 0 /\ (forall y, b <= y < x -> c y <> 0) /\
             find_free_loop n c (range b e) = Ok (Some x)) \/
  ((forall x, b <= x < e -> x < n /\ c x <> 0) /\ find_free_loop n c (range b e) = Ok None) \/
  ((forall x, b <= x < n -> c x <> 0) /\ n < e /\ b < e /\ find_free_loop n c (range b e) = Panic).
Proof.
  remember (N.to_nat (e - b)) as k eqn:Ek. revert b Ek. induction k; intros b Ek.
  - rewrite range_nil by lia. right; left. split; auto. intros; lia.
  - rewrite range_cons by lia. cbn [find_free_loop].
    destruct (N.leb_spec n b).
    { right; right. repeat split; auto; intros; try lia. }
    destruct (N.eqb_spec (c b) 0).
    { left. exists b. repeat split; auto; lia. }
    destruct (IHk (b + 1)) as [(x & H1 & H2 & H3 & H4 & H5)|[(H1 & H2)|(H1 & H2 & H3 & H4)]]; [lia| | |].
    + left. exists x. repeat split; auto; try lia. intros y Hy.
      destruct (N.eq_dec y b); [subst; auto|apply H4; lia].
    + right; left. split; auto. intros y Hy. destruct (N.eq_dec y b); [subst; auto|apply H1; lia].
    + right; right. repeat split; auto; try lia. intros y Hy.
      destruct (N.eq_dec y b); [subst; auto|apply H1; lia].
Qed.

Lemma sm_take_inv n max s b : sm_inv n max s -> b < n -> sm_counts s b = 0 ->
  sm_inv n max (mksm (sm_nr s) (sm_max s) (sm_nalloc s + 1) (b + 1) (upd (sm_counts s) b 1)).
Proof.
  intros [E1 E2 E3 E4 E5 E6] Hb H0. constructor; simpl; auto.
  - pose proof (nr_used_upd n (sm_counts s) b 1 Hb) as U. rewrite H0 in U. simpl in U. lia.
  - lia.
  - intros x Hx. unfold upd. destruct (N.eqb_spec x b); auto.
Qed.

(** The rotor: the block is the first free one at or after the rotor, or the
    first free one if there is none after it. *)
Lemma sm_alloc_spec n max s s' r : sm_inv n max s -> sm_alloc s = (s', r) ->
  sm_inv n max s' /\
  ((exists b, b < n /\ sm_counts s b = 0 /\ r = Ok (Some b) /\
              sm_counts s' = upd (sm_counts s) b 1 /\ sm_begin s' = b + 1 /\
              (forall y, sm_begin s <= y < b -> sm_counts s y <> 0) /\
              (b < sm_begin s -> (forall y, sm_begin s <= y < n -> sm_counts s y <> 0) /\
                                 (forall y, y < b -> sm_counts s y <> 0))) \/
   ((forall b, b < n -> sm_counts s b <> 0) /\ r = Ok None /\ s' = s)).
Proof.
  intros I H. pose proof I as [E1 E2 E3 E4 E5 E6]. subst n. unfold sm_alloc, sm_find_free in H.
  destruct (find_free_loop_spec (sm_nr s) (sm_counts s) (sm_begin s) (sm_nr s))
    as [(x & H1 & H2 & H3 & H4 & H5)|[(H1 & H2)|(H1 & H2 & H3 & H4)]]; [| |lia].
  - rewrite H5 in H. injection H as <- <-. split; [apply sm_take_inv; auto|].
    left. exists x. cbn. repeat split; auto; intros; lia.
  - rewrite H2 in H.
    destruct (find_free_loop_spec (sm_nr s) (sm_counts s) 0 (sm_begin s))
      as [(x & H3 & H4 & H5 & H6 & H7)|[(H3 & H4)|(H3 & H4 & H5 & H6)]]; [| |lia].
    + rewrite H7 in H. injection H as <- <-. split; [apply sm_take_inv; auto|].
      left. exists x. cbn. repeat split; auto; intros; try lia; [apply H1; lia | apply H6; lia].
    + rewrite H4 in H. injection H as <- <-. split; auto. right. split; auto.
      intros b Hb. destruct (N.lt_ge_cases b (sm_begin s)); [apply H3; lia | apply H1; lia].
Qed.

Lemma upd_spec {A} (f : N -> A) b v : forall x, upd f b v x = if x =? b then v else f x.
Proof. reflexivity. Qed.

Lemma sm_step_spec n max s o s' x : n < W64 -> sm_inv n max s -> op_no_overflow o ->
  sm_step s o = (s', x) ->
  sm_inv n max s' /\ sm_spec n max (sm_counts s) o x (sm_counts s').
Proof.
  intros Hn I Ho H. pose proof I as [E1 E2 E3 E4 E5 E6].
  destruct o; cbn [sm_step sm_spec op_no_overflow] in *.
  - injection H as <- <-. split; [auto|]. cbn. split; [auto|]. eapply sm_get_spec; eauto.
  - destruct (sm_set s b v) as [s1 r] eqn:E. injection H as <- <-.
    eapply sm_set_spec in E as [I' [(?&?&?&?)|(?&?&?)]]; eauto; (split; [exact I'|]); cbn; [left|right]; subst; auto.
    repeat split; auto. rewrite H2. apply upd_spec.
  - destruct (sm_inc s b len) as [s1 r] eqn:E. injection H as <- <-.
    unfold sm_inc in E. rewrite N.mod_small in E by (unfold W64; auto). rewrite E1 in E.
    destruct (N.ltb_spec n (b + len)).
    + injection E as <- <-. split; [auto|]. cbn. right; left. auto.
    + eapply sm_inc_loop_spec in E as [I' [(?&?&?)|(?&?)]]; eauto; (split; [exact I'|]); cbn; [left|right;right]; auto.
  - destruct (sm_dec s b) as [s1 r] eqn:E. injection H as <- <-.
    unfold sm_dec in E. rewrite (sm_get_spec n max) in E by auto.
    destruct (N.ltb_spec b n).
    + destruct (N.eqb_spec (sm_counts s b) 0).
      * injection E as <- <-. split; [auto|]. cbn. right. repeat split; auto; lia.
      * destruct (sm_set s b (sm_counts s b - 1)) as [s2 r2] eqn:E'.
        specialize (E6 b H).
        eapply sm_set_spec in E' as [I' [(?&?&?&?)|(?&?&?)]]; eauto; [|exfalso; apply H0; lia].
        subst r2. injection E as <- <-. split; [auto|]. cbn. left. repeat split; auto; try lia.
        rewrite H3. apply upd_spec.
    + injection E as <- <-. split; [auto|]. cbn. right. repeat split; auto; lia.
  - destruct (sm_alloc s) as [s1 r] eqn:E. injection H as <- <-.
    eapply sm_alloc_spec in E as [I' [(b&?&?&?&?&?)|(?&?&?)]]; eauto; (split; [exact I'|]); cbn; [left|right]; subst; auto.
    exists b. repeat split; auto. rewrite H2. apply upd_spec.
  - injection H as <- <-. split; [auto|]. cbn. split; auto.
    unfold sm_find_free. rewrite E1. apply find_free_loop_spec.
  - injection H as <- <-. split; [auto|]. cbn. rewrite E1. auto.
  - injection H as <- <-. split; [auto|]. cbn. rewrite E4. auto.
Qed.

Lemma sm_run_spec n max os : n < W64 -> forall s s' outs, sm_inv n max s -> Forall op_no_overflow os ->
  sm_run s os = (s', outs) ->
  sm_inv n max s' /\ sm_history n max (sm_counts s) os outs (sm_counts s').
Proof.
  intros Hn. induction os; intros s s' outs I F H; cbn [sm_run] in H.
  - injection H as <- <-. split; auto. reflexivity.
  - destruct (sm_step s a) as [s1 x] eqn:E1, (sm_run s1 os) as [s2 xs] eqn:E2.
    injection H as <- <-. inversion F; subst.
    eapply sm_step_spec in E1 as [I1 S1]; eauto. eapply IHos in E2 as [I2 S2]; eauto.
    split; auto. cbn. eauto.
Qed.

(** ** The restricted maps under incs *)
Lemma nr_covering_app a b x : nr_covering (a ++ b) x = nr_covering a x + nr_covering b x.
Proof. induction a as [|[p q] a IH]; cbn [nr_covering app]; [lia|rewrite IH; lia]. Qed.

Definition rcnt (s : rsm) (b : N) : N := if r_bits s b then 1 else 0.

Lemma rsm_inc_spec s begin len :
  1 <= len -> begin + len <= r_nr s -> r_nr s < W64 ->
  r_nalloc s = nr_used (r_nr s) (rcnt s) ->
  exists s', rsm_inc s begin len = (s', Ok tt) /\ r_nr s' = r_nr s /\
    r_nalloc s' = nr_used (r_nr s) (rcnt s') /\
    forall b, r_bits s' b = (r_bits s b || ((begin <=? b) && (b <? begin + len))).
Proof.
  intros Hl Hb Hn Ha. unfold rsm_inc.
  rewrite (N.mod_small (begin + len)) by lia.
  replace ((begin + len + (W64 - 1)) mod W64) with (begin + len - 1).
  2:{ replace (begin + len + (W64 - 1)) with (begin + len - 1 + 1 * W64) by (unfold W64; lia).
      rewrite N.mod_add by (unfold W64; discriminate). rewrite N.mod_small by lia. auto. }
  destruct (N.leb_spec (r_nr s) (begin + len - 1)); [lia|]. eexists. split; [reflexivity|].
  clear H. set (e := begin + len) in *. clearbody e. clear Hl len.
  remember (N.to_nat (e - begin)) as k eqn:Ek. revert s begin Ek Hb Hn Ha.
  induction k; intros.
  - rewrite range_nil by lia. cbn [fold_left]. repeat split; auto.
    intros. destruct (N.leb_spec begin b), (N.ltb_spec b e); cbn [andb]; rewrite ?orb_false_r; auto; lia.
  - rewrite range_cons by lia. cbn [fold_left].
    destruct (r_bits s begin) eqn:Eb.
    + destruct (IHk s (begin + 1)) as (A & B & C); auto; try lia. repeat split; auto.
      intros b. rewrite C. destruct (N.eq_dec b begin); [subst; rewrite Eb; auto|].
      destruct (N.leb_spec (begin + 1) b), (N.leb_spec begin b); auto; lia.
    + edestruct (IHk (mkrsm (r_nr s) (r_nalloc s + 1) (r_begin s) (upd (r_bits s) begin true)) (begin + 1))
        as (A & B & C); cbn [r_nr r_nalloc r_bits]; auto; try lia.
      * assert (begin < r_nr s) by lia.
        pose proof (nr_used_upd (r_nr s) (rcnt s) begin 1 H) as U.
        unfold rcnt at 2 in U. rewrite Eb in U. cbn in U.
        rewrite (nr_used_ext _ (rcnt (mkrsm _ _ _ _)) (upd (rcnt s) begin 1)).
        -- lia.
        -- intros x _. unfold rcnt, upd; cbn [r_bits]. destruct (N.eqb_spec x begin); auto.
      * repeat split; auto. intros b. rewrite C. cbn [r_bits]. unfold upd.
        destruct (N.eqb_spec b begin).
        -- subst. rewrite Eb. destruct (N.leb_spec begin begin), (N.ltb_spec begin e); auto; lia.
        -- destruct (N.leb_spec (begin + 1) b), (N.leb_spec begin b); auto; lia.
Qed.

Fixpoint rsm_incs (s : rsm) (incs : list (N * N)) : rsm :=
  match incs with [] => s | (b, l) :: r => rsm_incs (fst (rsm_inc s b l)) r end.

Lemma rsm_incs_spec incs : forall s, r_nr s < W64 ->
  Forall (fun p => 1 <= snd p /\ fst p + snd p <= r_nr s) incs ->
  r_nalloc s = nr_used (r_nr s) (rcnt s) ->
  r_nr (rsm_incs s incs) = r_nr s /\
  r_nalloc (rsm_incs s incs) = nr_used (r_nr s) (rcnt (rsm_incs s incs)) /\
  forall b, r_bits (rsm_incs s incs) b = (r_bits s b || (0 <? nr_covering incs b)).
Proof.
  induction incs as [|[b l] incs IH]; intros s Hn F Ha; cbn [rsm_incs nr_covering].
  - repeat split; auto. intros. rewrite orb_false_r. auto.
  - inversion F as [|? ? [F1 F2] F']; subst. cbn [fst snd] in *.
    destruct (rsm_inc_spec s b l) as (s' & E & E1 & E2 & E3); auto. rewrite E. cbn [fst].
    destruct (IH s') as (A & B & C); rewrite ?E1; auto.
    rewrite E1 in *. repeat split; auto. intros x. rewrite C, E3.
    destruct ((b <=? x) && (x <? b + l)), (N.ltb_spec 0 (nr_covering incs x)); cbn [orb];
      rewrite ?orb_true_r, ?orb_false_r; auto; destruct (r_bits s x); auto; cbn [orb];
      symmetry; try apply N.ltb_lt; try apply N.ltb_ge; lia.
Qed.

Lemma tsm_inc_spec s begin len :
  begin + len <= t_nr s -> t_nalloc s = nr_used (t_nr s) (t_counts s) ->
  (forall b, t_counts s b <= 2) ->
  t_nr (tsm_inc s begin len) = t_nr s /\
  t_nalloc (tsm_inc s begin len) = nr_used (t_nr s) (t_counts (tsm_inc s begin len)) /\
  forall b, t_counts (tsm_inc s begin len) b =
            if (begin <=? b) && (b <? begin + len) then N.min 2 (t_counts s b + 1) else t_counts s b.
Proof.
  intros Hb Ha H2. unfold tsm_inc. set (e := begin + len) in *. clearbody e. clear len.
  remember (N.to_nat (e - begin)) as k eqn:Ek. revert s begin Ek Hb Ha H2.
  induction k; intros.
  - rewrite range_nil by lia. cbn [fold_left]. repeat split; auto.
    intros. destruct (N.leb_spec begin b), (N.ltb_spec b e); cbn [andb]; auto; lia.
  - rewrite range_cons by lia. cbn [fold_left].
    assert (Hlt : begin < t_nr s) by lia.
    assert (S1 : t_nr (tsm_inc1 s begin) = t_nr s /\
                 t_nalloc (tsm_inc1 s begin) = nr_used (t_nr s) (t_counts (tsm_inc1 s begin)) /\
                 forall b, t_counts (tsm_inc1 s begin) b = if b =? begin then N.min 2 (t_counts s b + 1) else t_counts s b).
    { unfold tsm_inc1. specialize (H2 begin).
      destruct (N.eqb_spec (t_counts s begin) 2); [|destruct (N.eqb_spec (t_counts s begin) 1)];
        cbn [t_nr t_nalloc t_counts]; repeat split; auto.
      - intros b. destruct (N.eqb_spec b begin); subst; auto. lia.
      - pose proof (nr_used_upd (t_nr s) (t_counts s) begin 2 Hlt) as U. rewrite e0 in U. cbn in U. lia.
      - intros b. unfold upd. destruct (N.eqb_spec b begin); subst; auto. lia.
      - pose proof (nr_used_upd (t_nr s) (t_counts s) begin 1 Hlt) as U.
        replace (t_counts s begin) with 0 in U by lia. cbn in U. lia.
      - intros b. unfold upd. destruct (N.eqb_spec b begin); subst; auto. lia. }
    destruct S1 as (S1 & S2 & S3).
    destruct (IHk (tsm_inc1 s begin) (begin + 1)) as (A & B & C); rewrite ?S1; auto; try lia.
    { intros b. rewrite S3. destruct (N.eqb_spec b begin); auto. lia. }
    rewrite S1 in *. repeat split; auto. intros b. rewrite C, S3.
    destruct (N.leb_spec (begin + 1) b), (N.leb_spec begin b), (N.eqb_spec b begin), (N.ltb_spec b e);
      cbn [andb]; auto; lia.
Qed.

Fixpoint tsm_incs (s : tsm) (incs : list (N * N)) : tsm :=
  match incs with [] => s | (b, l) :: r => tsm_incs (tsm_inc s b l) r end.

Lemma tsm_incs_spec incs : forall s,
  Forall (fun p => fst p + snd p <= t_nr s) incs ->
  t_nalloc s = nr_used (t_nr s) (t_counts s) -> (forall b, t_counts s b <= 2) ->
  t_nr (tsm_incs s incs) = t_nr s /\
  t_nalloc (tsm_incs s incs) = nr_used (t_nr s) (t_counts (tsm_incs s incs)) /\
  forall b, t_counts (tsm_incs s incs) b = N.min 2 (t_counts s b + nr_covering incs b).
Proof.
  induction incs as [|[b l] incs IH]; intros s F Ha H2; cbn [tsm_incs nr_covering].
  - repeat split; auto. intros b. specialize (H2 b). lia.
  - inversion F as [|? ? F1 F']; subst. cbn [fst snd] in *.
    destruct (tsm_inc_spec s b l) as (E1 & E2 & E3); auto.
    destruct (IH (tsm_inc s b l)) as (A & B & C); rewrite ?E1; auto.
    { intros x. rewrite E3. destruct ((b <=? x) && (x <? b + l)); auto. lia. }
    rewrite E1 in *. repeat split; auto. intros x. rewrite C, E3.
    destruct ((b <=? x) && (x <? b + l)); lia.
Qed.
