(** Walking with a visitor that may refuse, in step with the walk that accepts everything. *)
From Verif Require Import Base Csum_Model Codec_Model SpaceMap_Model Utils_Model Walker_Model Walker_Spec Walker_Proofs.

Section Step.
Context {V : Type} (c : codec V) (inf : bool) (eng : N -> option (list N)) (acc : list (wcall V) -> wcall V -> bool).
Definition all_of (_ : list (wcall V)) (_ : wcall V) : bool := true.
Fixpoint okl (l0 new : list (wcall V)) : Prop :=
  match new with [] => True | x :: r => acc l0 x = true /\ okl (l0 ++ [x]) r end.
Lemma okl_app new : forall l0 new', okl l0 (new ++ new') <-> okl l0 new /\ okl (l0 ++ new) new'.
Proof.
  induction new as [|x r IH]; intros l0 new'; cbn [app okl]; [rewrite app_nil_r; tauto|]. rewrite IH, <- app_assoc. cbn [app]. tauto.
Qed.
Definition real (x : wcall V) : Prop :=
  match x with
  | CVisit path _ h ks vs => exists b p data root, path = p ++ [b] /\ eng b = Some data /\ check_and_unpack_node c (mkblock b data) inf root = Ok (Leaf h ks vs)
  | _ => True
  end.
(** the two runs, from the same state; [no1], [no2]: no error *)
Definition lock (s s1 : wst V) (no1 : Prop) (s2 : wst V) (no2 : Prop) (same : Prop) : Prop :=
  exists new, w_log s2 = w_log s ++ new /\ Forall real new /\ (okl (w_log s) new -> s1 = s2 /\ same) /\ (no1 -> okl (w_log s) new).
Lemma lock_id s s' (P Q R : Prop) : w_log s' = w_log s -> R -> lock s s' P s' Q R.
Proof. intros E HR. exists []. rewrite E, app_nil_r. cbn [okl]. conj; auto. Qed.
Lemma inc_log b (s : wst V) : w_log (fst (w_sm_inc b s)) = w_log s.
Proof. unfold w_sm_inc. destruct (wsm_get _ _); [|reflexivity|reflexivity]. destruct (wsm_inc _ _ _) as [m [u| |]]; reflexivity. Qed.

Lemma see_lock path : forall krs bs s, let '(s1, e1, t1) := see_children acc path krs bs s in let '(s2, e2, t2) := see_children all_of path krs bs s in
  lock s s1 (e1 = []) s2 (e2 = []) (e1 = e2 /\ t1 = t2).
Proof.
  assert (Z : forall s, lock s s (@nil werr = []) s (@nil werr = []) (@nil werr = [] /\ @nil (key_range * N) = [])) by (intros s; apply lock_id; auto).
  induction krs as [|kr krs IH]; intros bs s; [apply Z|]. destruct bs as [|b bs]; [apply Z|].
  cbn [see_children]. pose proof (inc_log b s) as L. destruct (w_sm_inc b s) as [s' r]. cbn [fst] in L.
  assert (P : forall e0 t0, let '(s1, e1, t1) := (let '(s2, errs', todo') := see_children acc path krs bs s' in (s2, e0 ++ errs', t0 ++ todo')) in
    let '(s2, e2, t2) := (let '(s2, errs', todo') := see_children all_of path krs bs s' in (s2, e0 ++ errs', t0 ++ todo')) in lock s s1 (e1 = []) s2 (e2 = []) (e1 = e2 /\ t1 = t2)).
  { intros e0 t0. specialize (IH bs s'). destruct (see_children acc path krs bs s') as [[a1 b1] c1]. destruct (see_children all_of path krs bs s') as [[a2 b2] c2].
    destruct IH as (new & A & B & C & D). rewrite L in *. exists new. conj; auto.
    - intros E. destruct (C E) as (-> & -> & ->). auto.
    - intros E. apply app_eq_nil in E. apply D. tauto. }
  destruct r as [rc| |]; [|apply P|apply P]. destruct (rc =? 0); [apply P|]. destruct (w_fail s' b) as [e|]; [apply P|].
  unfold call. rewrite L. set (s'' := mkwst (w_sm s') (w_fail s') (w_log s ++ [CAgain path b])) in *.
  specialize (IH bs s''). cbn [all_of]. destruct (see_children acc path krs bs s'') as [[a1 b1] c1]. destruct (see_children all_of path krs bs s'') as [[a2 b2] c2].
  destruct IH as (new & A & B & C & D). cbn [w_log s''] in *. exists (CAgain path b :: new). rewrite A, <- app_assoc. cbn [app okl]. conj; auto.
  - constructor; [exact I|auto].
  - intros (E1 & E2). rewrite E1. destruct (C E2) as (-> & -> & ->). auto.
  - intros E. destruct (acc (w_log s) (CAgain path b)); [auto|]. cbn [app] in E. discriminate.
Qed.

Definition wlock (s : wst V) (x y : wst V * option werr) : Prop := lock s (fst x) (snd x = None) (fst y) (snd y = None) (snd x = snd y).
Lemma list_lock path todo (f g : key_range -> N -> list N -> wst V -> wst V * option werr) :
  (forall kr b data s, eng b = Some data -> wlock s (f kr b data s) (g kr b data s)) ->
  forall s, let '(s1, e1) := walk_list eng f path todo s in let '(s2, e2) := walk_list eng g path todo s in lock s s1 (e1 = []) s2 (e2 = []) (e1 = e2).
Proof.
  intros Hfg. induction todo as [|[kr b] r IH]; intros s; cbn [walk_list]; [apply lock_id; auto|].
  destruct (eng b) as [data|] eqn:Eb.
  - specialize (Hfg kr b data s Eb). destruct (f kr b data s) as [s1 e1]. destruct (g kr b data s) as [s2 e2]. destruct Hfg as (new & A & B & C & D). cbn [fst snd] in *.
    destruct (walk_list eng g path r s2) as [t2 es2] eqn:E2. pose proof (IH s2) as J. rewrite E2 in J. destruct (walk_list eng f path r s1) as [t1 es1] eqn:E1.
    destruct (walk_list eng f path r s2) as [t1' es1'] eqn:E1'. destruct J as (new' & A' & B' & C' & D').
    exists (new ++ new'). rewrite A', A, app_assoc. conj; auto; [apply Forall_app; auto|..].
    + intros E. apply okl_app in E. destruct E as [E E']. destruct (C E) as [-> ->]. rewrite <- A in E'. destruct (C' E') as [-> ->].
      rewrite E1 in E1'. assert (t1 = t2 /\ es1 = es2) as [-> ->] by (split; congruence). auto.
    + intros E. destruct e1; [discriminate|]. specialize (D eq_refl). apply okl_app. split; [exact D|]. rewrite <- A. apply D'.
      destruct (C D) as [-> _]. congruence.
  - destruct (walk_list eng f path r _) as [t1 es1] eqn:E1. destruct (walk_list eng g path r _) as [t2 es2] eqn:E2.
    specialize (IH (set_fail b (EIo path kr) s)). rewrite E1, E2 in IH. destruct IH as (new & A & B & C & D). cbn [set_fail w_log] in *.
    exists new. conj; auto; [|discriminate]. intros E. destruct (C E) as [-> ->]. auto.
Qed.
Lemma node_lock : forall fuel path kr b data root s, eng b = Some data ->
  wlock s (walk_node c inf eng acc fuel path kr b data root s) (walk_node c inf eng all_of fuel path kr b data root s).
Proof.
  assert (Z : forall s s' x, w_log s' = w_log s -> wlock s (s', x) (s', x)) by (intros s s' x E; apply lock_id; auto).
  induction fuel as [|fuel IH]; intros path kr b data root s Eb; cbn [walk_node]; [apply Z; reflexivity|].
  destruct (check_and_unpack_node c _ inf root) as [[h ks vs|h ks vs]| |] eqn:En; [| |apply Z; reflexivity|apply Z; reflexivity].
  - destruct (split_key_ranges kr ks) as [krs| |]; [|apply Z; reflexivity|apply Z; reflexivity].
    set (p := path ++ [b]).
    pose proof (see_lock p krs vs s) as H1. destruct (see_children acc p krs vs s) as [[s1 e1] t1]. destruct (see_children all_of p krs vs s) as [[s2 e2] t2].
    destruct H1 as (new & A & B & C & D).
    pose proof (fun t u => list_lock p t (fun kr b' data s => walk_node c inf eng acc fuel p kr b' data false s)
      (fun kr b' data s => walk_node c inf eng all_of fuel p kr b' data false s) ltac:(intros; apply IH; assumption) u) as H2.
    pose proof (H2 t2 s2) as H3. destruct (walk_list eng _ p t2 s2) as [u1' f1'] eqn:E1' in H3. destruct (walk_list eng _ p t2 s2) as [u2 f2] eqn:E2 in H3.
    rewrite E2. destruct (walk_list eng _ p t1 s1) as [u1 f1] eqn:E1. destruct H3 as (new' & A' & B' & C' & D').
    exists (new ++ new'). assert (X : forall es (u : wst V), w_log (fst (build_aggregate b es u)) = w_log u) by (intros [|? [|? ?]] u; reflexivity).
    rewrite X, A', A, app_assoc. conj; auto; [apply Forall_app; auto|..].
    + intros E. apply okl_app in E. destruct E as [E E']. destruct (C E) as (-> & -> & ->). rewrite <- A in E'. destruct (C' E') as [-> ->].
      rewrite E1 in E1'. assert (u1 = u2 /\ f1 = f2) as [-> ->] by (split; congruence). auto.
    + intros E. assert (N1 : e1 ++ f1 = []) by (destruct (e1 ++ f1) as [|? [|? ?]]; [reflexivity|discriminate|discriminate]). apply app_eq_nil in N1. destruct N1 as [N1 N2].
      specialize (D N1). apply okl_app. split; [exact D|]. rewrite <- A. apply D'. destruct (C D) as (-> & -> & ->). congruence.
  - unfold call. cbn [all_of]. exists [CVisit (path ++ [b]) kr h ks vs]. cbn [okl]. conj.
    + reflexivity.
    + constructor; [|constructor]. exists b, path, data, root. auto.
    + intros (-> & _). auto.
    + intros E. destruct (acc (w_log s) _); [auto|discriminate].
Qed.
Hypothesis acc_end : forall l, acc l CEnd = true.
Lemma walk_lock path root s : wlock s (walk c inf eng acc path root s) (walk c inf eng all_of path root s).
Proof using acc_end.
  unfold walk. pose proof (inc_log root s) as L. destruct (w_sm_inc root s) as [s1 r]. cbn [fst] in L.
  assert (Z : forall x, wlock s (s1, x) (s1, x)) by (intros x; apply lock_id; auto).
  destruct r as [rc| |]; [|apply Z|apply Z].
  assert (F : forall x y, wlock s x y ->
    wlock s (let '(s2, r) := x in let '(s3, ok) := call acc CEnd s2 in (s3, match r with Some e => if ok then Some e else Some (EAgg [e; EEnd]) | None => None end))
            (let '(s2, r) := y in let '(s3, ok) := call all_of CEnd s2 in (s3, match r with Some e => if ok then Some e else Some (EAgg [e; EEnd]) | None => None end))).
  { intros [x rx] [y ry] (new & A & B & C & D). unfold call. cbn [fst snd all_of] in *. exists (new ++ [CEnd]). cbn [w_log]. rewrite A, app_assoc. conj; auto.
    - apply Forall_app. split; [auto|]. constructor; [exact I|constructor].
    - intros E. apply okl_app in E. destruct (C (proj1 E)) as [-> ->]. cbn [fst snd]. split; [rewrite A; reflexivity|]. destruct ry; [rewrite acc_end|]; reflexivity.
    - intros E. apply okl_app. cbn [okl]. rewrite acc_end. conj; auto. apply D. destruct rx; [|reflexivity]. destruct (acc _ _); discriminate. }
  destruct (0 <? rc).
  - destruct (w_fail s1 root) as [e|]; [exact (F (s1, Some e) (s1, Some e) (Z _))|].
    set (s' := mkwst (w_sm s1) (w_fail s1) (w_log s1 ++ [CAgain path root])).
    refine (F (s', if acc (w_log s1) (CAgain path root) then None else Some (EAgain path root)) (s', None) _).
    exists [CAgain path root]. cbn [fst snd w_log okl s']. rewrite L. conj; auto.
    + constructor; [exact I|constructor].
    + intros (-> & _). auto.
    + intros E. destruct (acc (w_log s) (CAgain path root)); [auto|discriminate].
  - destruct (eng root) as [data|] eqn:Er; [|apply Z].
    refine (F (walk_node c inf eng acc (S (N.to_nat (wsm_nr (w_sm s)))) path full_range root data true s1)
              (walk_node c inf eng all_of (S (N.to_nat (wsm_nr (w_sm s)))) path full_range root data true s1) _).
    pose proof (node_lock (S (N.to_nat (wsm_nr (w_sm s)))) path full_range root data true s1 Er) as (new & A). rewrite L in A. exists new. exact A.
Qed.
End Step.
