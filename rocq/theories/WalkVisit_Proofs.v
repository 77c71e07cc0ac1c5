(** Walks with a visitor that may reject leaves, compared with walks that accept all. *)
From Verif Require Import Base Csum_Model Codec_Model SpaceMap_Model Utils_Model Walker_Model Walker_Spec.

Section VV.
Context {V : Type} (c : codec V) (inf : bool) (eng : N -> option (list N)).
Variable acc : wcall V -> bool.
Notation acs := (fun (_ : list (wcall V)) x => acc x).
Notation yes := (fun (_ : list (wcall V)) (_ : wcall V) => true).
Notation state := (wst V).
Definition log_ok (s s' : state) : Prop := exists new, w_log s' = w_log s ++ new /\ Forall (fun x => acc x = true) new.
Lemma log_ok_refl s s' : w_log s' = w_log s -> log_ok s s'.
Proof. exists []. rewrite app_nil_r. auto. Qed.
Lemma log_ok_trans s1 s2 s3 : log_ok s1 s2 -> log_ok s2 s3 -> log_ok s1 s3.
Proof. intros (a & E1 & F1) (b & E2 & F2). exists (a ++ b). rewrite E2, E1, app_assoc. split; auto. apply Forall_app; auto. Qed.
Lemma inc_log b (s s1 : state) r : w_sm_inc b s = (s1, r) -> w_log s1 = w_log s /\ w_fail s1 = w_fail s.
Proof.
  unfold w_sm_inc. destruct (wsm_get (w_sm s) b); try (intros H; injection H as <- _; auto).
  destruct (wsm_inc (w_sm s) b 1) as [sm [u| |]]; intros H; injection H as <- _; auto.
Qed.
(** ** If the visitor found nothing wrong, it accepted everything *)
Lemma see_sound path : forall krs bs s s' todo, see_children acs path krs bs s = (s', [], todo) ->
  see_children yes path krs bs s = (s', [], todo) /\ log_ok s s'.
Proof.
  induction krs as [|kr krs IH]; intros [|b bs] s s' todo E; try (injection E as <- <-; split; [reflexivity|apply log_ok_refl; auto]).
  cbn [see_children] in *. destruct (w_sm_inc b s) as [s1 rr] eqn:Ei. destruct (inc_log _ _ _ _ Ei) as [L1 F1].
  assert (Hrest : forall errs todo1 (sa : state), (let '(s2, errs', todo') := see_children acs path krs bs sa in (s2, errs ++ errs', todo1 ++ todo')) = (s', [], todo) ->
    log_ok s sa -> errs = [] /\ (let '(s2, errs', todo') := see_children yes path krs bs sa in (s2, errs', todo1 ++ todo')) = (s', [], todo) /\ log_ok s s').
  { intros errs todo1 sa H Hl. destruct (see_children acs path krs bs sa) as [[s2 e2] t2] eqn:E2.
    injection H as H1 H2 H3. subst s2. apply app_eq_nil in H2 as [-> ->]. subst todo.
    destruct (IH bs sa s' t2 E2) as [-> Hl2]. split; [auto|]. split; [reflexivity|]. eapply log_ok_trans; eauto. }
  destruct rr as [rc| |].
  - destruct (rc =? 0).
    + destruct (Hrest _ _ _ E) as (_ & Hq & Hl); [apply log_ok_refl; auto|]. split; [exact Hq|exact Hl].
    + destruct (w_fail s1 b) as [e|].
      * destruct (Hrest _ _ _ E) as (Hx & _); [apply log_ok_refl; auto|discriminate].
      * unfold call in *. cbv beta iota zeta in *. destruct (acc (CAgain path b)) eqn:Ea.
        -- destruct (Hrest _ _ _ E) as (_ & Hq & Hl).
           { exists [CAgain path b]. cbn [w_log]. rewrite L1. split; auto. }
           split; [exact Hq|exact Hl].
        -- exfalso. destruct (see_children acs path krs bs _) as [[? ?] ?]. discriminate.
  - destruct (Hrest _ _ _ E) as (_ & Hq & Hl); [apply log_ok_refl; auto|]. split; [exact Hq|exact Hl].
  - destruct (Hrest _ _ _ E) as (_ & Hq & Hl); [apply log_ok_refl; auto|]. split; [exact Hq|exact Hl].
Qed.
Lemma agg_none b errs (s s' : state) : build_aggregate b errs s = (s', None) -> errs = [] /\ s' = s.
Proof. destruct errs as [|e [|e' r]]; cbn; intros H; [injection H as <-; auto|discriminate|discriminate]. Qed.
Lemma walk_node_sound fuel : forall path kr b data isr s s',
  walk_node c inf eng acs fuel path kr b data isr s = (s', None) ->
  walk_node c inf eng yes fuel path kr b data isr s = (s', None) /\ log_ok s s'.
Proof.
  induction fuel as [|fuel IH]; intros path kr b data isr s s' E; cbn [walk_node] in *; [discriminate|].
  destruct (check_and_unpack_node c (mkblock b data) inf isr) as [[h ks vs|h ks vs]| |]; try discriminate.
  - destruct (split_key_ranges kr ks) as [krs| |]; try discriminate.
    destruct (see_children acs (path ++ [b]) krs vs s) as [[s1 errs1] todo] eqn:E1.
    destruct (walk_list eng (fun kr b' data s => walk_node c inf eng acs fuel (path ++ [b]) kr b' data false s) (path ++ [b]) todo s1) as [s2 errs2] eqn:E2.
    apply agg_none in E as [He ->]. apply app_eq_nil in He as [-> ->].
    destruct (see_sound _ _ _ _ _ _ E1) as [-> L1].
    match type of E2 with walk_list eng ?f _ _ _ = _ => assert (HL : forall todo s1 s2, walk_list eng f (path ++ [b]) todo s1 = (s2, []) ->
      walk_list eng (fun kr b' data s => walk_node c inf eng yes fuel (path ++ [b]) kr b' data false s) (path ++ [b]) todo s1 = (s2, []) /\ log_ok s1 s2) end.
    { clear - IH. induction todo as [|[kr b'] todo IHt]; intros sx sy H; cbn [walk_list] in *.
      - injection H as <-. split; auto. apply log_ok_refl; auto.
      - destruct (eng b') as [data|]; [|destruct (walk_list _ _ _ _ _); discriminate].
        match type of H with context [walk_node c inf eng acs fuel ?p kr b' data false sx] =>
          destruct (walk_node c inf eng acs fuel p kr b' data false sx) as [s3 e] eqn:Ew end.
        match type of H with context [walk_list eng ?f ?p todo ?z] => destruct (walk_list eng f p todo z) as [s4 es] eqn:E4 end.
        destruct e as [e|]; [discriminate|].
        destruct (IH _ _ _ _ _ _ _ Ew) as [-> La].
        injection H as <- ->. destruct (IHt _ _ E4) as [-> Lb]. split; auto. eapply log_ok_trans; eauto. }
    destruct (HL _ _ _ E2) as [-> L2]. split; [reflexivity|]. eapply log_ok_trans; eauto.
  - unfold call in *. cbv beta iota zeta in *. destruct (acc (CVisit (path ++ [b]) kr h ks vs)) eqn:Ea; [|discriminate].
    injection E as <-. split; auto. exists [CVisit (path ++ [b]) kr h ks vs]. cbn [w_log]. split; auto.
Qed.
Lemma walk_sound path root s s' : walk c inf eng acs path root s = (s', None) ->
  walk c inf eng yes path root s = (s', None) /\
  exists new, w_log s' = w_log s ++ new ++ [CEnd] /\ Forall (fun x => acc x = true) new.
Proof.
  unfold walk. destruct (w_sm_inc root s) as [s1 rr] eqn:Ei. destruct (inc_log _ _ _ _ Ei) as [L1 F1].
  destruct rr as [rc| |]; try discriminate.
  destruct (0 <? rc).
  - destruct (w_fail s1 root) as [e|].
    + unfold call. cbv beta iota zeta. destruct (acc CEnd); discriminate.
    + unfold call. cbv beta iota zeta. destruct (acc (CAgain path root)) eqn:Ea; [|destruct (acc CEnd); discriminate].
      intros H. injection H as <-. split; auto. exists [CAgain path root]. cbn [w_log]. rewrite L1, <- app_assoc. split; auto.
  - destruct (eng root) as [data|]; [|discriminate].
    destruct (walk_node c inf eng acs (S (N.to_nat (wsm_nr (w_sm s)))) path full_range root data true s1) as [s2 e] eqn:Ew.
    unfold call. cbv beta iota zeta. destruct e as [e|]; [destruct (acc CEnd); discriminate|].
    intros H. injection H as <-. destruct (walk_node_sound _ _ _ _ _ _ _ _ Ew) as [-> (new & Hn & Hf)].
    split; auto. exists new. cbn [w_log]. rewrite Hn, L1, <- app_assoc. split; auto.
Qed.

(** ** If it accepts everything it is given, it makes no difference *)
Lemma log_grows_see path : forall krs bs (s s' : state) errs todo, see_children yes path krs bs s = (s', errs, todo) ->
  exists new, w_log s' = w_log s ++ new /\
    (Forall (fun x => acc x = true) new -> see_children acs path krs bs s = (s', errs, todo)).
Proof.
  induction krs as [|kr krs IH]; intros [|b bs] s s' errs todo E; try (injection E as <- <- <-; exists []; rewrite app_nil_r; auto; fail).
  cbn [see_children] in *. destruct (w_sm_inc b s) as [s1 rr] eqn:Ei. destruct (inc_log _ _ _ _ Ei) as [L1 F1].
  assert (Hrest : forall errs1 todo1 (sa : state), (let '(s2, errs', todo') := see_children yes path krs bs sa in (s2, errs1 ++ errs', todo1 ++ todo')) = (s', errs, todo) ->
    exists new, w_log s' = w_log sa ++ new /\
      (Forall (fun x => acc x = true) new -> (let '(s2, errs', todo') := see_children acs path krs bs sa in (s2, errs1 ++ errs', todo1 ++ todo')) = (s', errs, todo))).
  { intros errs1 todo1 sa H. destruct (see_children yes path krs bs sa) as [[s2 e2] t2] eqn:E2.
    destruct (IH _ _ _ _ _ E2) as (new & Hn & Hf). injection H as <- <- <-. exists new. split; auto. intros H. rewrite (Hf H). auto. }
  destruct rr as [rc| |].
  - destruct (rc =? 0).
    + destruct (Hrest _ _ _ E) as (new & Hn & Hf). exists new. rewrite <- L1. auto.
    + destruct (w_fail s1 b) as [e|].
      * destruct (Hrest _ _ _ E) as (new & Hn & Hf). exists new. rewrite <- L1. auto.
      * unfold call in *. cbv beta iota zeta in *. destruct (Hrest _ _ _ E) as (new & Hn & Hf). cbn [w_log] in Hn.
        exists (CAgain path b :: new). split; [rewrite Hn, L1, <- app_assoc; auto|]. intros H. inversion H as [|? ? Ha Hr]; subst.
        rewrite Ha. exact (Hf Hr).
  - destruct (Hrest _ _ _ E) as (new & Hn & Hf). exists new. rewrite <- L1. auto.
  - destruct (Hrest _ _ _ E) as (new & Hn & Hf). exists new. rewrite <- L1. auto.
Qed.
Lemma agg_log b errs (s s' : state) r : build_aggregate b errs s = (s', r) -> w_log s' = w_log s.
Proof. destruct errs as [|e [|e' x]]; cbn; intros H; injection H as <- <-; auto. Qed.
Lemma walk_node_same fuel : forall path kr b data isr s s' r,
  walk_node c inf eng yes fuel path kr b data isr s = (s', r) ->
  exists new, w_log s' = w_log s ++ new /\
    (Forall (fun x => acc x = true) new -> walk_node c inf eng acs fuel path kr b data isr s = (s', r)).
Proof.
  induction fuel as [|fuel IH]; intros path kr b data isr s s' r E; cbn [walk_node] in *.
  { injection E as <- <-. exists []. rewrite app_nil_r. auto. }
  assert (Hno : forall s' r, (set_fail b (ENode (path ++ [b]) kr) s, Some (ENode (path ++ [b]) kr)) = (s', r) -> w_log s' = w_log s ++ []).
  { intros x y H. injection H as <- <-. cbn [set_fail w_log]. rewrite app_nil_r. auto. }
  destruct (check_and_unpack_node c (mkblock b data) inf isr) as [[h ks vs|h ks vs]| |].
  - destruct (split_key_ranges kr ks) as [krs| |]; try (injection E as <- <-; exists []; rewrite app_nil_r; auto; fail).
    destruct (see_children yes (path ++ [b]) krs vs s) as [[s1 errs1] todo] eqn:E1.
    destruct (log_grows_see _ _ _ _ _ _ _ E1) as (n1 & Hn1 & Hf1).
    match type of E with (let '(s2, errs2) := walk_list eng ?f _ _ _ in _) = _ => set (fy := f) in * end.
    assert (HL : forall todo s1 s2 errs, walk_list eng fy (path ++ [b]) todo s1 = (s2, errs) ->
      exists new, w_log s2 = w_log s1 ++ new /\ (Forall (fun x => acc x = true) new ->
        walk_list eng (fun kr b' data s => walk_node c inf eng acs fuel (path ++ [b]) kr b' data false s) (path ++ [b]) todo s1 = (s2, errs))).
    { clear - IH. induction todo as [|[kr b'] todo IHt]; intros sx sy errs H; cbn [walk_list] in *.
      - injection H as <- <-. exists []. rewrite app_nil_r. auto.
      - destruct (eng b') as [data|].
        + destruct (fy kr b' data sx) as [s3 e] eqn:Ew.
          destruct (walk_list eng fy (path ++ [b]) todo s3) as [s4 es] eqn:E4. destruct (IHt _ _ _ E4) as (n2 & Hn2 & Hf2).
          destruct (IH _ _ _ _ _ _ _ _ Ew) as (n1 & Hn1 & Hf1). injection H as <- <-.
          exists (n1 ++ n2). rewrite Hn2, Hn1, app_assoc. split; auto. intros HF. apply Forall_app in HF as [HF1 HF2].
          rewrite (Hf1 HF1), (Hf2 HF2). auto.
        + destruct (walk_list eng fy (path ++ [b]) todo _) as [s4 es] eqn:E4. destruct (IHt _ _ _ E4) as (n2 & Hn2 & Hf2).
          injection H as <- <-. exists n2. split; auto. intros HF. rewrite (Hf2 HF). auto. }
    destruct (walk_list eng fy (path ++ [b]) todo s1) as [s2 errs2] eqn:E2. destruct (HL _ _ _ _ E2) as (n2 & Hn2 & Hf2).
    pose proof (agg_log _ _ _ _ _ E) as La. exists (n1 ++ n2). rewrite La, Hn2, Hn1, app_assoc. split; auto.
    intros HF. apply Forall_app in HF as [HF1 HF2]. rewrite (Hf1 HF1), (Hf2 HF2). auto.
  - unfold call in *. cbv beta iota zeta in *. injection E as <- <-. exists [CVisit (path ++ [b]) kr h ks vs]. cbn [w_log]. split; auto.
    intros HF. inversion HF as [|? ? Ha _]; subst. rewrite Ha. auto.
  - exists []. split; [eapply Hno; eauto|auto].
  - exists []. split; [eapply Hno; eauto|auto].
Qed.
Lemma walk_same path root s s' new : walk c inf eng yes path root s = (s', None) -> w_log s' = w_log s ++ new ->
  Forall (fun x => acc x = true) (removelast new) -> walk c inf eng acs path root s = (s', None).
Proof.
  unfold walk. destruct (w_sm_inc root s) as [s1 rr] eqn:Ei. destruct (inc_log _ _ _ _ Ei) as [L1 F1].
  destruct rr as [rc| |]; try discriminate.
  destruct (0 <? rc).
  - destruct (w_fail s1 root) as [e|]; [unfold call; cbv beta iota zeta; discriminate|].
    unfold call. cbv beta iota zeta. intros H Hn HF. injection H as <-. cbn [w_log] in Hn. rewrite L1, <- app_assoc in Hn.
    apply app_inv_head in Hn as <-. cbn [app removelast] in HF. inversion HF as [|? ? Ha _]; subst. rewrite Ha. auto.
  - destruct (eng root) as [data|]; [|discriminate].
    destruct (walk_node c inf eng yes (S (N.to_nat (wsm_nr (w_sm s)))) path full_range root data true s1) as [s2 e] eqn:Ew.
    destruct (walk_node_same _ _ _ _ _ _ _ _ _ Ew) as (n1 & Hn1 & Hf1).
    unfold call. cbv beta iota zeta. destruct e as [e|]; [discriminate|]. intros H Hn HF. injection H as <-. cbn [w_log] in Hn.
    rewrite Hn1, L1, <- app_assoc in Hn. apply app_inv_head in Hn as <-. rewrite removelast_last in HF. rewrite (Hf1 HF). auto.
Qed.
End VV.
