(** Sessions of builds with shared leaves (C13). *)
From Coq Require Import Permutation.
From Verif Require Import Base Csum_Model Codec_Model Codec_Spec Codec_Proofs
  SpaceMap_Model SpaceMap_Spec SpaceMap_Proofs Io_Proofs IoMany_Proofs Batcher_Model Batcher_Spec Batcher_Proofs
  Builder_Model Builder_Spec Builder_Proofs NodeBuilder_Proofs BtreeBuild_Proofs BtreeRead_Proofs Session_Model Session_Spec.

Lemma holds_det {V} (c : codec V) d b n n' : holds c d b n -> holds c d b n' -> n = n'.
Proof. intros H H'. apply (holds_raw _ _ _ _ true) in H. apply (holds_raw _ _ _ _ true) in H'. congruence. Qed.

Lemma in_occs x foots : 0 < occs x foots <-> exists f, In f foots /\ In x f.
Proof.
  induction foots as [|f r IH]; cbn [occs In]; [split; [lia|intros (? & [] & _)]|].
  split.
  - intros H. assert (0 < occ x f \/ 0 < occs x r) as [K|K] by lia.
    + exists f. split; auto. apply occ_in; auto.
    + apply IH in K as (g & K1 & K2). exists g. auto.
  - intros (g & [<-|K1] & K2).
    + apply occ_in in K2. lia.
    + assert (0 < occs x r) by (apply IH; eauto). lia.
Qed.
Lemma occs_app x a b : occs x (a ++ b) = occs x a + occs x b.
Proof. induction a; cbn [occs app]; lia. Qed.

Lemma leaves_foot {V} (c : codec V) d depth : forall root b kvs foot p,
  tree c d root depth b kvs foot -> In p (leaves c d depth b) -> In (fst p) foot.
Proof.
  induction depth as [|dp IH]; intros root b kvs foot p H Hp; cbn [tree leaves] in *.
  - destruct H as (h & ks & vs & Hh & H). decompose [and] H. subst foot. rewrite (holds_raw _ _ _ _ _ Hh) in Hp.
    destruct Hp as [<-|[]]. left; auto.
  - destruct H as (h & ch & subs & Hh & _ & _ & _ & _ & HF & -> & ->). rewrite (holds_raw _ _ _ _ _ Hh) in Hp. right.
    clear Hh. induction HF as [|kb sub ch subs (A & B & C) HF IHF]; cbn [map flat_map concat] in *; [destruct Hp|].
    apply in_or_app. apply in_app_or in Hp as [Hp|Hp]; [left|right]; auto. eapply IH; eauto.
Qed.

Lemma foot_leaf {V} (c : codec V) d depth : forall root b kvs foot x h ks vs,
  tree c d root depth b kvs foot -> In x foot -> holds c d x (Leaf h ks vs) -> In (x, vs) (leaves c d depth b).
Proof.
  induction depth as [|dp IH]; intros root b kvs foot x h ks vs H Hx Hl; cbn [tree leaves] in *.
  - destruct H as (h' & ks' & vs' & Hh & H). decompose [and] H. subst foot. rewrite (holds_raw _ _ _ _ _ Hh).
    destruct Hx as [<-|[]]. pose proof (holds_det _ _ _ _ _ Hh Hl) as E. inversion E; subst. left; auto.
  - destruct H as (h' & ch & subs & Hh & _ & _ & _ & _ & HF & -> & ->). rewrite (holds_raw _ _ _ _ _ Hh).
    destruct Hx as [<-|Hx]; [pose proof (holds_det _ _ _ _ _ Hh Hl); discriminate|].
    clear Hh. induction HF as [|kb sub ch subs (A & B & C) HF IHF]; cbn [map flat_map concat] in *; [destruct Hx|].
    apply in_or_app. apply in_app_or in Hx as [Hx|Hx]; [left|right]; auto. eapply IH; eauto.
Qed.

Lemma occ_one_NoDup l : (forall x, In x l -> occ x l = 1) -> NoDup l.
Proof.
  induction l as [|x l IH]; intros H; constructor.
  - intros Hin. specialize (H x (or_introl eq_refl)). cbn [occ] in H. rewrite N.eqb_refl in H. apply occ_in in Hin. lia.
  - apply IH. intros y Hy. specialize (H y (or_intror Hy)). cbn [occ] in H. apply occ_in in Hy. destruct (y =? x); lia.
Qed.
Lemma NoDup_app_intro {A} (a b : list A) : NoDup a -> NoDup b -> (forall x, In x a -> ~ In x b) -> NoDup (a ++ b).
Proof.
  induction 1 as [|x a Hx Ha IH]; intros Hb Hd; cbn [app]; auto. constructor.
  - intros Hin. apply in_app_or in Hin as [Hin|Hin]; auto. apply (Hd x); auto. left; auto.
  - apply IH; auto. intros y Hy. apply Hd. right; auto.
Qed.

Lemma within_refl {A} (a : list A) : within a a.
Proof. exists []. rewrite app_nil_r. auto. Qed.
Lemma within_trans {A} (a b c : list A) : within a b -> within b c -> within a c.
Proof. intros (r & H) (r' & H'). exists (r ++ r'). rewrite <- H', <- H. perm. Qed.
Lemma within_app2 {A} (a b a' b' : list A) : within a a' -> within b b' -> within (a ++ b) (a' ++ b').
Proof. intros (r & H) (r' & H'). exists (r ++ r'). rewrite <- H', <- H. perm. Qed.
Lemma within_app {A} (a b a' : list A) : within a a' -> within (a ++ b) (a' ++ b).
Proof. intros H. apply within_app2; auto. apply within_refl. Qed.

Section Sess.
Variables n max : N.
Hypothesis Hn : n < 2 ^ 64.
Context {V R : Type}.
Variable c : codec V.
Variable range : V -> Prop.
Variables rcinc rcdec : V -> st R unit.
Variable rep : R -> list V -> Prop.
Variable bad : list V -> V -> Prop.
Hypothesis L : lossless c range.
Hypothesis Hcs : N.of_nat (csize c) + 8 < 2 ^ 32.
Hypothesis Hm : 4 <= calc_max_entries c.
Hypothesis Hrc : counter_ok range rcinc rep bad.
Hypothesis Hdec : counter_undo rcdec rep.
Variable w0 : wb.
Variable rcs0 : list V.
Local Notation node_for := (node_for n c (leaf_io V)).

Definition blk_vals (s : summary) (kvs : list (N * V)) : N * list V := (su_block s, map snd kvs).
Definition RL (ns : list summary) (kvss : list (list (N * V))) : list (N * list V) :=
  map (fun p => blk_vals (fst p) (snd p)) (combine ns kvss).
Definition tinfo := (nat * list (N * V) * list N)%type.
Definition tree_of (d : disk) (root : N) (t : tinfo) : Prop := tree c d true (fst (fst t)) root (snd (fst t)) (snd t).
Definition TL (d : disk) (roots : list N) (ts : list tinfo) : list (N * list V) :=
  flat_map (fun rt => leaves c d (fst (fst (snd rt))) (fst rt)) (combine roots ts).

Definition IL (d : disk) (roots : list N) (ts : list tinfo) : list N :=
  flat_map (fun rt => inner c d (fst (fst (snd rt))) (fst rt)) (combine roots ts).

Record SI ns kvss roots (ts : list tinfo) w rc LS : Prop := {
  si_env : env n max w;
  si_base : wb_base w = wb_base w0;
  si_frame : forall x, 0 < cnt w0 x -> wb_view w x = wb_view w0 x;
  si_nodes : Forall2 (node_for (wb_view w)) ns kvss;
  si_shared : Forall (fun s => su_shared s = true) ns;
  si_distinct : NoDup (map su_block ns);
  si_fresh : forall s, In s ns -> cnt w0 (su_block s) = 0;
  si_trees : Forall2 (tree_of (wb_view w)) roots ts;
  si_counts : forall x, cnt w x = cnt w0 x + occ x (map su_block ns) + occs x (map snd ts);
  si_nodup : NoDup (map fst LS);
  si_in : forall p, In p LS <-> In p (RL ns kvss) \/ In p (TL (wb_view w) roots ts);
  si_alone : forall p, In p LS -> cnt w0 (fst p) = 0;
  si_inner : forall x, In x (IL (wb_view w) roots ts) -> cnt w x = 1;
  si_rep : rep rc (concat (map snd LS) ++ rcs0) }.

Lemma RL_app a b ka kb : length a = length ka -> RL (a ++ b) (ka ++ kb) = RL a ka ++ RL b kb.
Proof.
  unfold RL. revert ka. induction a as [|s a IH]; intros [|k ka] H; cbn in H; try lia; auto.
  cbn [app combine map]. f_equal. apply IH. lia.
Qed.
Lemma RL_fst ns : forall kvss, length ns = length kvss -> map fst (RL ns kvss) = map su_block ns.
Proof.
  unfold RL. induction ns as [|s ns IH]; intros [|k kvss] H; cbn in H; try lia; auto. cbn. f_equal. apply IH. lia.
Qed.
Lemma combine_app {A B} (a b : list A) (a' b' : list B) : length a = length a' -> combine (a ++ b) (a' ++ b') = combine a a' ++ combine b b'.
Proof. revert a'. induction a as [|x a IH]; intros [|y a'] H; cbn in H; try lia; auto. cbn. f_equal. apply IH. lia. Qed.
Lemma TL_app d a b ta tb : length a = length ta -> TL d (a ++ b) (ta ++ tb) = TL d a ta ++ TL d b tb.
Proof. intros H. unfold TL. rewrite combine_app by auto. apply flat_map_app. Qed.

Lemma TL_foot d roots ts p : Forall2 (tree_of d) roots ts -> In p (TL d roots ts) -> exists f, In f (map snd ts) /\ In (fst p) f.
Proof.
  intros HF. induction HF as [|r t roots ts Ht HF IH]; unfold TL in *; cbn [combine flat_map]; [intros []|].
  intros Hp. apply in_app_or in Hp as [Hp|Hp].
  - cbn [fst snd] in Hp. exists (snd t). split; [left; auto|]. eapply leaves_foot; eauto.
  - apply IH in Hp as (f & A & B). exists f. split; auto. right; auto.
Qed.
Lemma TL_frame (d d' : disk) roots ts : Forall2 (tree_of d) roots ts ->
  (forall x f, In f (map snd ts) -> In x f -> d' x = d x) ->
  Forall2 (tree_of d') roots ts /\ TL d' roots ts = TL d roots ts.
Proof.
  intros HF. induction HF as [|r t roots ts Ht HF IH]; intros Hd; [split; constructor|].
  destruct IH as [I1 I2]; [intros; eapply Hd; eauto; right; auto|].
  split.
  - constructor; auto. eapply tree_frame; [|exact Ht]. intros; eapply Hd; eauto. left; auto.
  - unfold TL in *. cbn [combine flat_map fst snd]. rewrite I2. f_equal.
    eapply leaves_frame; [|exact Ht]. intros; eapply Hd; eauto. left; auto.
Qed.
Lemma IL_app d a b ta tb : length a = length ta -> IL d (a ++ b) (ta ++ tb) = IL d a ta ++ IL d b tb.
Proof. intros H. unfold IL. rewrite combine_app, flat_map_app by auto. auto. Qed.
Lemma IL_frame (d d' : disk) roots ts : Forall2 (tree_of d) roots ts ->
  (forall x f, In f (map snd ts) -> In x f -> d' x = d x) -> IL d' roots ts = IL d roots ts.
Proof.
  intros H Hd. induction H as [|r t roots ts Ht HF IH]; auto. unfold IL in *. cbn [combine flat_map fst snd]. f_equal.
  - eapply inner_frame; [|exact Ht]. intros x Hx. apply (Hd x (snd t)); auto. left; auto.
  - apply IH. intros x f A B. apply (Hd x f); auto. right; auto.
Qed.
Lemma IL_occs d roots ts x : Forall2 (tree_of d) roots ts -> In x (IL d roots ts) -> 0 < occs x (map snd ts).
Proof.
  intros H. induction H as [|r t roots ts Ht HF IH]; [intros []|]. unfold IL in *. cbn [combine flat_map fst snd map occs].
  intros Hx. apply in_app_or in Hx as [Hx|Hx]; [|apply IH in Hx; lia].
  destruct (occ_inner _ _ _ _ _ _ _ x Ht) as (_ & K & _). apply occ_in in Hx. lia.
Qed.

Lemma TL_leaf d roots ts x f h ks vs : Forall2 (tree_of d) roots ts -> In f (map snd ts) -> In x f ->
  holds c d x (Leaf h ks vs) -> In (x, vs) (TL d roots ts).
Proof.
  intros HF. induction HF as [|r t roots ts Ht HF IH]; intros Hf Hx Hh; [destruct Hf|].
  unfold TL. cbn [combine flat_map fst snd]. apply in_or_app. destruct Hf as [<-|Hf].
  - left. eapply foot_leaf; eauto.
  - right. apply IH; auto.
Qed.

Lemma RL_in_block ns kvss p : In p (RL ns kvss) -> In (fst p) (map su_block ns).
Proof.
  unfold RL. intros H. apply in_map_iff in H as ([s k] & <- & H). apply in_combine_l in H. cbn. apply in_map; auto.
Qed.

Lemma live ns kvss roots ts w rc LS p : SI ns kvss roots ts w rc LS -> In p LS -> 0 < cnt w (fst p).
Proof.
  intros S Hp. rewrite (si_counts _ _ _ _ _ _ _ S). apply (si_in _ _ _ _ _ _ _ S) in Hp as [Hp|Hp].
  - apply RL_in_block in Hp. apply occ_in in Hp. lia.
  - apply (TL_foot _ _ _ _ (si_trees _ _ _ _ _ _ _ S)) in Hp. apply in_occs in Hp. lia.
Qed.

(** ** Own leaves of a build *)
Fixpoint ownl (shared : bool) (ns : list summary) (kvss : list (list (N * V))) : list (N * list V) :=
  match ns, kvss with
  | s :: ns, kvs :: kvss => (if own shared s then [blk_vals s kvs] else []) ++ ownl shared ns kvss
  | _, _ => []
  end.
Lemma ownvals_ownl shared ns kvss : ownvals shared ns kvss = concat (map snd (ownl shared ns kvss)).
Proof.
  revert kvss. induction ns as [|s ns IH]; intros [|k kvss]; cbn [ownvals ownl]; auto. rewrite map_app, concat_app, <- IH.
  destruct (own shared s); cbn; [rewrite app_nil_r|]; auto.
Qed.
Lemma ownl_in shared ns : forall kvss p, length ns = length kvss -> In p (ownl shared ns kvss) <->
  exists s kvs, In (s, kvs) (combine ns kvss) /\ own shared s = true /\ p = blk_vals s kvs.
Proof.
  induction ns as [|s ns IH]; intros [|k kvss] p H; cbn in H; try lia; cbn [ownl combine In]; [split; [intros []|intros (? & ? & [] & _)]|].
  rewrite in_app_iff, IH by lia. split.
  - intros [K|(s' & kvs & A & B & C)]; [|exists s', kvs; auto].
    destruct (own shared s) eqn:E; [|destruct K]. destruct K as [<-|[]]. exists s, k. auto.
  - intros (s' & kvs & [A|A] & B & C); [inversion A; subst; left; rewrite B; left; auto|right; exists s', kvs; auto].
Qed.
Lemma ownl_blocks shared ns : forall kvss p, In p (ownl shared ns kvss) -> exists s, In s ns /\ own shared s = true /\ fst p = su_block s.
Proof.
  induction ns as [|s ns IH]; intros [|k kvss] p H; cbn [ownl] in H; try destruct H.
  apply in_app_or in H as [H|H].
  - destruct (own shared s) eqn:E; [|destruct H]. destruct H as [<-|[]]. exists s. cbn; auto.
  - apply IH in H as (s' & A & B & C). exists s'. cbn; auto.
Qed.
Lemma ownl_nodup shared w Pre ns kvss : origin shared w Pre ns -> NoDup (map fst (ownl shared ns kvss)).
Proof.
  intros H. unfold origin in H.
  assert (Hg : forall ns' kvss', (forall s, In s ns' -> own shared s = true -> occ (su_block s) (map su_block ns') <= 1) ->
     NoDup (map fst (ownl shared ns' kvss'))).
  { induction ns' as [|s ns' IH]; intros [|k kvss'] Ho; cbn [ownl]; try constructor.
    assert (NoDup (map fst (ownl shared ns' kvss'))) as Hd.
    { apply IH. intros s' Hs' E. specialize (Ho s' (or_intror Hs') E). cbn [map occ] in Ho. lia. }
    destruct (own shared s) eqn:E; cbn [app map]; auto. constructor; auto.
    intros Hin. apply in_map_iff in Hin as (p & Ep & Hin). apply ownl_blocks in Hin as (s' & A & B & C).
    specialize (Ho s (or_introl eq_refl) E). cbn [map occ] in Ho. rewrite N.eqb_refl in Ho. cbn in Ep. rewrite C in Ep.
    assert (0 < occ (su_block s) (map su_block ns')); [|lia]. apply occ_in. rewrite <- Ep. apply in_map; auto. }
  apply Hg. intros s Hs E. rewrite Forall_forall in H. specialize (H s Hs). rewrite E in H. lia.
Qed.

(** Nodes and trees survive a build. *)
Lemma keep ns kvss roots ts w rc LS w' : SI ns kvss roots ts w rc LS ->
  (forall x, 0 < cnt w x -> wb_view w' x = wb_view w x) ->
  Forall2 (node_for (wb_view w')) ns kvss /\ Forall2 (tree_of (wb_view w')) roots ts /\
  TL (wb_view w') roots ts = TL (wb_view w) roots ts /\ IL (wb_view w') roots ts = IL (wb_view w) roots ts /\ (forall x, 0 < cnt w0 x -> wb_view w' x = wb_view w0 x).
Proof.
  intros S Hv. pose proof (si_counts _ _ _ _ _ _ _ S) as Hc.
  assert (Hf : forall x f, In f (map snd ts) -> In x f -> wb_view w' x = wb_view w x).
  { intros x f A B. apply Hv. rewrite Hc. assert (0 < occs x (map snd ts)) by (apply in_occs; eauto). lia. }
  destruct (TL_frame (wb_view w) (wb_view w') roots ts (si_trees _ _ _ _ _ _ _ S) Hf) as [A B].
  pose proof (IL_frame (wb_view w) (wb_view w') roots ts (si_trees _ _ _ _ _ _ _ S) Hf) as C.
  conj; auto.
  - eapply Forall2_node_ext; [|exact (si_nodes _ _ _ _ _ _ _ S)]. intros s Hs. apply Hv. rewrite Hc.
    assert (0 < occ (su_block s) (map su_block ns)) by (apply occ_in, in_map; auto). lia.
  - intros x Hx. rewrite Hv by (rewrite Hc; lia). apply (si_frame _ _ _ _ _ _ _ S); auto.
Qed.

Lemma Forall2_combine {A B} (P : A -> B -> Prop) l l' a b : Forall2 P l l' -> In (a, b) (combine l l') -> P a b.
Proof. induction 1; cbn [combine In]; [intros []|]. intros [E|Hi]; auto. inversion E; subst; auto. Qed.
Lemma in_combine_ex {A B} (l : list A) (l' : list B) a : length l = length l' -> In a l -> exists b, In (a, b) (combine l l').
Proof.
  revert l'. induction l as [|x l IH]; intros [|y l'] H Hi; cbn in H; try lia; [destruct Hi|].
  destruct Hi as [->|Hi]; [exists y; left; auto|]. destruct (IH l' ltac:(lia) Hi) as (b & Hb). exists b. right; auto.
Qed.

Lemma nodes_leaves d ns kvss : Forall2 (node_for d) ns kvss -> flat_map (fun s => leaves c d 0 (su_block s)) ns = RL ns kvss.
Proof.
  unfold RL. induction 1 as [|s kvs ns kvss (A & B & C & D & h & E & F & G) HF IH]; cbn [flat_map combine map]; auto.
  rewrite IH. cbn [leaves]. cbn [io_make leaf_io] in E. rewrite (holds_raw _ _ _ _ _ E). reflexivity.
Qed.

(** ** Define *)
Lemma define_wp ns kvss roots ts w rc LS kvs : SI ns kvss roots ts w rc LS -> entries_ok range kvs ->
  wp (build_nodes c (leaf_io V) true rcinc (map (fun kv => PushValue (fst kv) (snd kv)) kvs) rc) w
     (fun w' r => exists kvss' LS', SI (ns ++ fst r) (kvss ++ kvss') roots ts w' (snd r) LS' /\
        concat kvss' = kvs /\ length (fst r) = length kvss' /\ fst r <> [] /\
        (Forall (fun s => calc_max_entries c / 2 <= su_nr s) (fst r) \/ exists s, fst r = [s]) /\
        within (concat (map snd LS')) (map snd kvs ++ concat (map snd LS)))
     (build_failed n max bad (map snd kvs ++ concat (map snd LS) ++ rcs0)).
Proof.
  intros S [Hinc Hrange]. eapply wp_mono.
  - eapply (build_values_wp n max c range (leaf_io V) true rcinc rep bad w (concat (map snd LS) ++ rcs0) rc kvs); auto.
    + apply leaf_io_ok.
    + apply (si_env _ _ _ _ _ _ _ S).
    + apply (si_rep _ _ _ _ _ _ _ S).
  - intros w' [ns' rc'] [(He & (kvss' & HF & Hc & Hr & Hne & Hh) & Hcnt & Hfr & Hb & Horg) _]. cbn [fst snd] in *.
    pose proof (Forall2_length _ _ _ HF) as Hlen.
    destruct (keep _ _ _ _ _ _ _ w' S Hfr) as (K1 & K2 & K3 & K5 & K4).
    assert (Hown : forall s, In s ns' -> own true s = true /\ cnt w (su_block s) = 0 /\ occ (su_block s) (map su_block ns') = 1).
    { intros s Hs. unfold origin in Horg. rewrite Forall_forall in Horg. specialize (Horg s Hs).
      destruct (own true s) eqn:E; [tauto|]. destruct Horg as [[] _]. }
    assert (Hl : ownl true ns' kvss' = RL ns' kvss').
    { assert (Ho : forall s, In s ns' -> own true s = true) by (intros s Hs; apply Hown in Hs; tauto).
      clear - Ho Hlen. unfold RL. revert kvss' Hlen. induction ns' as [|s ns' IH]; intros [|k kvss'] Hlen; cbn in Hlen; try lia; auto.
      cbn [ownl combine map fst snd]. rewrite Ho by (left; auto). cbn [app]. f_equal. apply IH; [intros; apply Ho; right; auto|lia]. }
    assert (Hcw : forall s, In s ns' -> cnt w0 (su_block s) = 0 /\ occ (su_block s) (map su_block ns) = 0 /\ occs (su_block s) (map snd ts) = 0).
    { intros s Hs. destruct (Hown s Hs) as (_ & K & _). rewrite (si_counts _ _ _ _ _ _ _ S) in K. lia. }
    exists kvss', (RL ns' kvss' ++ LS). conj; auto.
    2:{ rewrite map_app, concat_app, <- Hl, <- ownvals_ownl, <- Hc. apply within_app. apply within_own. }
    constructor; auto.
    + rewrite Hb. apply (si_base _ _ _ _ _ _ _ S).
    + apply Forall2_app; auto.
    + apply Forall_app. split; [apply (si_shared _ _ _ _ _ _ _ S)|]. apply Forall_forall. intros s Hs.
      destruct (Hown s Hs) as (K & _). unfold own in K. destruct (su_shared s); auto.
    + rewrite map_app. apply NoDup_app_intro; [apply (si_distinct _ _ _ _ _ _ _ S)| |].
      * apply occ_one_NoDup. intros x Hx. apply in_map_iff in Hx as (s & <- & Hs). apply Hown; auto.
      * intros x Hx Hx'. apply in_map_iff in Hx' as (s & <- & Hs). apply occ_in in Hx. specialize (Hcw s Hs). lia.
    + intros s Hs. apply in_app_or in Hs as [Hs|Hs]; [apply (si_fresh _ _ _ _ _ _ _ S); auto|apply Hcw; auto].
    + intros x. rewrite Hcnt, (si_counts _ _ _ _ _ _ _ S), map_app, occ_app. lia.
    + rewrite map_app, RL_fst by auto. apply NoDup_app_intro; [|apply (si_nodup _ _ _ _ _ _ _ S)|].
      * apply occ_one_NoDup. intros x Hx. apply in_map_iff in Hx as (s & <- & Hs). apply Hown; auto.
      * intros x Hx Hx'. apply in_map_iff in Hx as (s & <- & Hs). apply in_map_iff in Hx' as (p & Ep & Hp).
        pose proof (live _ _ _ _ _ _ _ _ S Hp) as Hl'. rewrite Ep in Hl'. destruct (Hown s Hs) as (_ & K & _). lia.
    + intros p. rewrite in_app_iff, (si_in _ _ _ _ _ _ _ S), RL_app, in_app_iff, K3 by (eapply Forall2_length; exact K1). tauto.
    + intros p Hp. apply in_app_or in Hp as [Hp|Hp]; [|apply (si_alone _ _ _ _ _ _ _ S); auto].
      apply RL_in_block in Hp. apply in_map_iff in Hp as (s & <- & Hs). apply Hcw; auto.
    + intros x Hx. rewrite K5 in Hx. apply (si_inner _ _ _ _ _ _ _ S) in Hx. rewrite Hcnt, Hx.
      rewrite occ_not_in; [lia|]. intros K. apply in_map_iff in K as (s & <- & Hs). destruct (Hown s Hs) as (_ & K & _). lia.
    + rewrite ownvals_ownl, Hl in Hr. rewrite map_app, concat_app, <- app_assoc. exact Hr.
  - intros w' [H|H]; auto. congruence.
Qed.

(** ** Tree *)
Definition runs_ok (runs : list (list summary)) (rks : list (list (list (N * V)))) : Prop :=
  Forall2 (fun run kvss => length run = length kvss /\ run <> [] /\
     (Forall (fun s => calc_max_entries c / 2 <= su_nr s) run \/ exists s, run = [s])) runs rks.

Lemma app_inj_length {A} (a b a' b' : list A) : length a = length a' -> a ++ b = a' ++ b' -> a = a' /\ b = b'.
Proof.
  revert a'. induction a as [|x a IH]; intros [|y a'] H E; cbn in *; try lia; auto. inversion E; subst.
  destruct (IH a'); auto; try lia. subst; auto.
Qed.
Lemma runs_nodes d runs rks : runs_ok runs rks -> Forall2 (node_for d) (concat runs) (concat rks) ->
  Forall2 (Forall2 (node_for d)) runs rks.
Proof.
  induction 1 as [|run kvss runs rks (A & _) HF IH]; intros H; [constructor|]. cbn [concat] in H.
  apply Forall2_app_inv_l in H as (l1 & l2 & H1 & H2 & E).
  assert (length l1 = length kvss) by (rewrite <- A; symmetry; eapply Forall2_length; eauto).
  apply app_inj_length in E as [E1 E2]; [|lia]. subst. constructor; auto.
Qed.

Lemma item_pushes w runs rks its : env n max w -> runs_ok runs rks ->
  Forall2 (node_for (wb_view w)) (concat runs) (concat rks) ->
  Forall (fun s => su_shared s = true) (concat runs) ->
  (forall s, In s (concat runs) -> 0 < cnt w (su_block s)) ->
  forall kvs, expand (map (@concat _) rks) its = Some kvs ->
  (forall i, In (IRef i) its -> nth_error (map (@concat _) rks) i <> Some []) ->
  exists os, item_ops runs its = Some os /\ pushes c n (wb_view w) (cnt w) os kvs /\
    Forall (op_pre (fun s => In s (concat runs))) os.
Proof.
  intros He Hro HF Hsh Hc.
  pose proof (runs_nodes _ _ _ Hro HF) as HFF. clear HF.
  induction its as [|[k v|i] its IH]; intros kvs Hx Href; cbn [expand item_ops] in *.
  - inversion Hx; subst. exists []. conj; auto; constructor.
  - destruct (expand _ its) as [kvs'|] eqn:E; [|discriminate]. inversion Hx; subst.
    destruct (IH kvs' eq_refl) as (os & -> & A & B); [intros; apply Href; right; auto|].
    exists (PushValue k v :: os). conj; auto; constructor; cbn; auto.
  - destruct (nth_error (map _ rks) i) as [r|] eqn:Er; [|discriminate].
    destruct (expand _ its) as [kvs'|] eqn:E; [|discriminate]. inversion Hx; subst.
    destruct (IH kvs' eq_refl) as (os & -> & A & B); [intros; apply Href; right; auto|].
    rewrite nth_error_map in Er. destruct (nth_error rks i) as [kvss|] eqn:Ek; [|discriminate]. cbn in Er. inversion Er; subst.
    assert (exists run, nth_error runs i = Some run /\ length run = length kvss /\ run <> [] /\
      (Forall (fun s => calc_max_entries c / 2 <= su_nr s) run \/ exists s, run = [s]) /\ Forall2 (node_for (wb_view w)) run kvss) as
      (run & Hrun & R1 & R2 & R3 & R4).
    { clear - Hro HFF Ek. unfold runs_ok in Hro. revert i Ek. induction Hro as [|run kvss' runs rks HH Hro IH]; intros [|i] Ek; cbn in Ek; try discriminate;
        inversion HFF; subst.
      - inversion Ek; subst. exists run. cbn. tauto.
      - apply IH; auto. }
    rewrite Hrun.
    assert (Hin : forall s, In s run -> In s (concat runs)).
    { intros s Hs. apply in_concat. exists run. split; auto. eapply nth_error_In; eauto. }
    exists (PushNodes run :: os). conj; auto.
    + constructor; auto.
      * assert (G : forall ns ks, Forall2 (node_for (wb_view w)) ns ks -> (forall s, In s ns -> In s run) -> Forall2 (prebuilt c n (wb_view w) (cnt w)) ns ks).
        { induction 1 as [|s k ns ks Hnf H2 IHn]; intros Hs; constructor; auto.
          - destruct Hnf as (N1 & N2 & N3 & N4 & N5). unfold prebuilt. cbn [io_make leaf_io] in N5.
            assert (In s run) as Hs' by (apply Hs; left; auto). conj; auto.
            rewrite Forall_forall in Hsh. auto.
          - apply IHn. intros; apply Hs; right; auto. }
        apply G; auto.
      * destruct R3 as [R3|(s & ->)].
        -- clear - R3 R4 Hm. induction R4 as [|s k ns ks (N1 & N2 & _) R4 IH]; constructor; inversion R3; subst; auto.
           intros ->. cbn in N2. rewrite N2 in *. clear -Hm H1. dlia.
        -- inversion R4 as [|? k ? ? _ R5]; subst. inversion R5; subst. constructor; auto. intros ->.
           apply (Href i); [left; auto|]. rewrite nth_error_map, Ek. auto.
      * intros Hl. destruct R3 as [R3|(s & ->)]; auto. cbn in Hl; lia.
    + constructor; auto. cbn. apply Forall_forall. auto.
Qed.

(** The first item may refer to an empty run, which is a single empty leaf. *)
Lemma item_pushed w runs rks its : env n max w -> runs_ok runs rks ->
  Forall2 (node_for (wb_view w)) (concat runs) (concat rks) ->
  Forall (fun s => su_shared s = true) (concat runs) ->
  (forall s, In s (concat runs) -> 0 < cnt w (su_block s)) ->
  forall kvs, expand (map (@concat _) rks) its = Some kvs ->
  (forall i, In (IRef i) (tl its) -> nth_error (map (@concat _) rks) i <> Some []) ->
  exists os, item_ops runs its = Some os /\ pushed c n (wb_view w) (cnt w) os kvs /\
    Forall (op_pre (fun s => In s (concat runs))) os.
Proof.
  intros He Hro HF Hsh Hc kvs Hx Href.
  assert (HD : (forall i, In (IRef i) its -> nth_error (map (@concat _) rks) i <> Some []) \/
               exists i its', its = IRef i :: its' /\ nth_error (map (@concat _) rks) i = Some []).
  { destruct its as [|[k v|i] its']; [left; intros ? []|left; intros i [[=]|Hi]; auto|].
    destruct (nth_error (map (@concat _) rks) i) as [[|kv r]|] eqn:E.
    - right. eauto.
    - left. intros j [[= <-]|Hj]; [congruence|auto].
    - left. intros j [[= <-]|Hj]; [congruence|auto]. }
  destruct HD as [HD|(i & its' & -> & Hi)].
  { destruct (item_pushes w runs rks its He Hro HF Hsh Hc kvs Hx HD) as (os & A & B & C). exists os. conj; auto. left. exact B. }
  cbn [expand] in Hx. rewrite Hi in Hx. destruct (expand (map (@concat _) rks) its') as [kvs'|] eqn:Ex; [|discriminate]. cbn [app] in Hx. injection Hx as ->.
  destruct (item_pushes w runs rks its' He Hro HF Hsh Hc kvs Ex Href) as (os & A & B & C).
  rewrite nth_error_map in Hi. destruct (nth_error rks i) as [kvss|] eqn:Ek; [|discriminate]. cbn in Hi. injection Hi as Hi.
  pose proof (runs_nodes _ _ _ Hro HF) as HFF.
  assert (exists run, nth_error runs i = Some run /\ length run = length kvss /\ run <> [] /\
      (Forall (fun s => calc_max_entries c / 2 <= su_nr s) run \/ exists s, run = [s]) /\ Forall2 (node_for (wb_view w)) run kvss) as
      (run & Hrun & R1 & R2 & R3 & R4).
  { clear - Hro HFF Ek. unfold runs_ok in Hro. revert i Ek. induction Hro as [|run kvss' runs rks HH Hro IH]; intros [|i] Ek; cbn in Ek; try discriminate;
      inversion HFF; subst.
    - inversion Ek; subst. exists run. cbn. tauto.
    - apply IH; auto. }
  assert (Hin : forall s, In s run -> In s (concat runs)).
  { intros s Hs. apply in_concat. exists run. split; auto. eapply nth_error_In; eauto. }
  destruct run as [|s run]; [congruence|]. inversion R4 as [|? k ? ks Hnf R5]; subst. cbn [concat] in Hi. apply app_eq_nil in Hi as [-> Hks].
  assert (run = []) as ->.
  { destruct R3 as [R3|(s' & E)]; [|congruence]. inversion R3 as [|? ? H1 _]; subst. destruct Hnf as (_ & N2 & _). cbn in N2. rewrite N2 in H1. exfalso. clear - Hm H1. dlia. }
  exists (PushNodes [s] :: os). cbn [item_ops]. rewrite Hrun, A. conj; auto.
  - right. exists s, os. conj; auto. destruct Hnf as (N1 & N2 & N3 & N4 & N5). unfold prebuilt. cbn [io_make leaf_io] in N5. conj; auto.
    + apply Hc. apply Hin. left; auto.
    + rewrite Forall_forall in Hsh. apply Hsh. apply Hin. left; auto.
  - constructor; auto. cbn. apply Forall_forall. auto.
Qed.

Lemma tree_wp ns kvss roots ts w rc LS os kvs : SI ns kvss roots ts w rc LS ->
  pushed c n (wb_view w) (cnt w) os kvs -> Forall (op_pre (fun s => In s ns)) os -> entries_ok range kvs ->
  wp (btree_build c rcinc os rc) w
     (fun w' r => exists t LS', SI ns kvss (roots ++ [fst r]) (ts ++ [t]) w' (snd r) LS' /\ snd (fst t) = kvs /\ fst r < n /\
        within (concat (map snd LS')) (map snd kvs ++ concat (map snd LS)))
     (build_failed n max bad (map snd kvs ++ concat (map snd LS) ++ rcs0)).
Proof.
  intros S Hp Hpre Hok. unfold btree_build. apply wp_bind. eapply wp_mono.
  - eapply (build_ops_wp n max c range rcinc rep bad w (concat (map snd LS) ++ rcs0) rc (fun s => In s ns) os kvs); auto.
    + apply (si_env _ _ _ _ _ _ _ S).
    + apply (si_rep _ _ _ _ _ _ _ S).
  - intros w1 [ns' rc'] Hb0. cbn [fst snd] in *. apply wp_bind. eapply wp_mono.
    + eapply (build_btree_wp n max c range rep w (concat (map snd LS) ++ rcs0) (fun s => In s ns) kvs w1 ns' rc' false); eauto.
    + intros w' root (He & Hb & Hfr & depth & foot & Ht & Hlt & Hlv & Hinn & Hcnt). apply wp_ret. cbn [fst snd].
      destruct Hb0 as (He1 & (kvss' & HF & Hc & Hr & Hne & Hh) & Hcnt1 & Hfr1 & Hb1 & Horg).
      pose proof (Forall2_length _ _ _ HF) as Hlen.
      destruct (keep _ _ _ _ _ _ _ w' S Hfr) as (K1 & K2 & K3 & K5 & K4).
      pose proof (nodes_leaves _ _ _ HF) as HRL. rewrite HRL in Hlv.
      assert (Hfoot : forall p, In p (RL ns' kvss') -> In (fst p) foot).
      { intros p Hp'. rewrite <- Hlv in Hp'. eapply leaves_foot; eauto. }
      assert (Hnew : forall p, In p (ownl false ns' kvss') -> cnt w (fst p) = 0).
      { intros p Hp'. apply ownl_blocks in Hp' as (s & A & B & ->). unfold origin in Horg. rewrite Forall_forall in Horg.
        specialize (Horg s A). rewrite B in Horg. tauto. }
      assert (Hroots : length roots = length ts) by (eapply Forall2_length; exact K2).
      exists (depth, kvs, foot), (ownl false ns' kvss' ++ LS). cbn [fst snd]. conj; auto.
      2:{ rewrite map_app, concat_app, <- ownvals_ownl, <- Hc. apply within_app. apply within_own. }
      constructor; auto.
      * rewrite Hb. apply (si_base _ _ _ _ _ _ _ S).
      * apply (si_shared _ _ _ _ _ _ _ S).
      * apply (si_distinct _ _ _ _ _ _ _ S).
      * apply (si_fresh _ _ _ _ _ _ _ S).
      * apply Forall2_app; auto.
      * intros x. rewrite Hcnt, (si_counts _ _ _ _ _ _ _ S), map_app, occs_app. cbn [map occs snd]. unfold tinfo in *. lia.
      * rewrite map_app. apply NoDup_app_intro; [eapply ownl_nodup; eauto|apply (si_nodup _ _ _ _ _ _ _ S)|].
        intros x Hx Hx'. apply in_map_iff in Hx as (p & <- & Hp1). apply in_map_iff in Hx' as (p' & Ep & Hp').
        pose proof (live _ _ _ _ _ _ _ _ S Hp') as Hl'. apply Hnew in Hp1. rewrite Ep in Hl'. lia.
      * intros p. rewrite TL_app, in_app_iff, K3, in_app_iff, (si_in _ _ _ _ _ _ _ S) by auto.
        assert (TL (wb_view w') [root] [(depth, kvs, foot)] = RL ns' kvss') as HTL.
        { unfold TL. cbn [combine flat_map fst snd]. rewrite app_nil_r. exact Hlv. }
        unfold tinfo in *. rewrite HTL.
        assert (In p (RL ns' kvss') <-> In p (ownl false ns' kvss') \/ (In p (RL ns' kvss') /\ In p (RL ns kvss))) as Hiff.
        { rewrite ownl_in by auto. split.
          - intros Hp'. unfold RL in Hp'. apply in_map_iff in Hp' as ([s k] & <- & Hsk). cbn [fst snd].
            destruct (own false s) eqn:Eo; [left; exists s, k; auto|]. right. split.
            + unfold RL. apply in_map_iff. exists (s, k). auto.
            + unfold origin in Horg. rewrite Forall_forall in Horg. pose proof (in_combine_l _ _ _ _ Hsk) as Hs.
              specialize (Horg s Hs). rewrite Eo in Horg. destruct Horg as [Hin Hpos].
              destruct (in_combine_ex ns kvss s (Forall2_length _ _ _ K1) Hin) as (k' & Hk').
              assert (map snd k = map snd k').
              { pose proof (Forall2_combine _ _ _ _ _ HF Hsk) as (_ & _ & _ & _ & h & E1 & _).
                pose proof (Forall2_combine _ _ _ _ _ (si_nodes _ _ _ _ _ _ _ S) Hk') as (_ & _ & _ & _ & h' & E2 & _).
                apply (holds_ext c (wb_view w) (wb_view w1)) in E2; [|apply Hfr1; auto].
                pose proof (holds_det _ _ _ _ _ E1 E2) as E3. inversion E3. auto. }
              unfold RL. apply in_map_iff. exists (s, k'). split; auto. unfold blk_vals. cbn. congruence.
          - intros [(s & k & A & B & ->)|[A _]]; auto. unfold RL. apply in_map_iff. exists (s, k). auto. }
        tauto.
      * intros p Hp'. apply in_app_or in Hp' as [Hp'|Hp']; [|apply (si_alone _ _ _ _ _ _ _ S); auto].
        apply Hnew in Hp'. pose proof (si_counts _ _ _ _ _ _ _ S (fst p)). lia.
      * intros x. rewrite IL_app, in_app_iff, K5 by auto. unfold IL at 2. cbn [combine flat_map fst snd]. rewrite app_nil_r.
        rewrite Hcnt. intros [Hx|Hx]; [|apply Hinn in Hx; lia].
        pose proof (IL_occs _ _ _ _ (si_trees _ _ _ _ _ _ _ S) Hx) as Hpos. apply (si_inner _ _ _ _ _ _ _ S) in Hx. rewrite Hx.
        rewrite occ_not_in; [lia|]. intros K.
        destruct (occ_inner _ _ _ _ _ _ _ x Ht) as (_ & _ & K'). destruct (K' K) as [J|(vs & J)]; [apply Hinn in J|].
        { pose proof (si_counts _ _ _ _ _ _ _ S x). lia. }
        rewrite Hlv in J. pose proof J as J0. apply RL_in_block in J. cbn [fst] in J. apply in_map_iff in J as (s & <- & Hs). unfold origin in Horg. rewrite Forall_forall in Horg.
        specialize (Horg s Hs). destruct (own false s); [lia|]. destruct Horg as [Hns _].
        pose proof (si_counts _ _ _ _ _ _ _ S (su_block s)). apply (in_map su_block) in Hns. apply occ_in in Hns. lia.
      * rewrite ownvals_ownl in Hr. rewrite map_app, concat_app, <- app_assoc. exact Hr.
    + intros w' H. left. auto.
  - auto.
Qed.

(** ** Releasing the runs *)
Lemma dec_all_spec vs : forall r rest, rep r (vs ++ rest) -> exists r', dec_all rcdec vs r = (r', Ok tt) /\ rep r' rest.
Proof.
  induction vs as [|v vs IH]; intros r rest H; cbn [dec_all app] in *; [exists r; auto|].
  destruct (Hdec _ _ _ H) as (r' & E & H'). destruct (IH _ _ H') as (r2 & E2 & H2). exists r2. unfold bindst. rewrite E, E2. auto.
Qed.

Lemma release_one s k ns kvss roots ts w rc LS : SI (s :: ns) (k :: kvss) roots ts w rc LS ->
  forall w' r, (env n max w' /\ (forall x, (if x =? su_block s then 1 else 0) + cnt w' x = cnt w x) /\
     r = (cnt w (su_block s) =? 1) /\ wb_base w' = wb_base w /\ (forall x, wb_view w' x = wb_view w x)) ->
  if r then exists LS', Permutation LS (blk_vals s k :: LS') /\
       forall rc', rep rc' (concat (map snd LS') ++ rcs0) -> SI ns kvss roots ts w' rc' LS'
  else SI ns kvss roots ts w' rc LS.
Proof.
  intros S w' r (He & Hc & -> & Hb & Hv).
  pose proof (si_counts _ _ _ _ _ _ _ S) as Hcnt.
  pose proof (si_distinct _ _ _ _ _ _ _ S) as Hd. cbn [map] in Hd. inversion Hd as [|? ? Hnin Hd']; subst.
  pose proof (si_fresh _ _ _ _ _ _ _ S s (or_introl eq_refl)) as Hf.
  pose proof (si_nodes _ _ _ _ _ _ _ S) as HF. inversion HF as [|? ? ? ? Hs HF']; subst.
  pose proof (si_in _ _ _ _ _ _ _ S) as Hin.
  assert (HRL : RL (s :: ns) (k :: kvss) = blk_vals s k :: RL ns kvss) by reflexivity. rewrite HRL in Hin.
  destruct (TL_frame (wb_view w) (wb_view w') roots ts (si_trees _ _ _ _ _ _ _ S)) as [T1 T2]; [intros; apply Hv|].
  assert (Hnot : ~ In (su_block s) (map fst (RL ns kvss))).
  { rewrite RL_fst by (eapply Forall2_length; eauto). auto. }
  assert (Hcb : cnt w (su_block s) = 1 + occs (su_block s) (map snd ts)).
  { rewrite Hcnt, Hf. cbn [map occ]. rewrite N.eqb_refl, occ_not_in by auto. lia. }
  assert (Hc' : forall x, cnt w' x = cnt w0 x + occ x (map su_block ns) + occs x (map snd ts)).
  { intros x. specialize (Hc x). rewrite Hcnt in Hc. cbn [map occ] in Hc. destruct (x =? su_block s); lia. }
  assert (HF2 : Forall2 (node_for (wb_view w')) ns kvss).
  { eapply Forall2_node_ext; [|exact HF']. intros; apply Hv. }
  pose proof (si_shared _ _ _ _ _ _ _ S) as Hsh. inversion Hsh; subst.
  assert (HI : forall x, In x (IL (wb_view w') roots ts) -> cnt w' x = 1).
  { intros x Hx. rewrite (IL_frame (wb_view w)) in Hx; [|apply (si_trees _ _ _ _ _ _ _ S)|intros; apply Hv].
    pose proof (IL_occs _ _ _ _ (si_trees _ _ _ _ _ _ _ S) Hx) as Hpos. apply (si_inner _ _ _ _ _ _ _ S) in Hx.
    specialize (Hc' x). specialize (Hc x). lia. }
  destruct (N.eqb_spec (cnt w (su_block s)) 1) as [E1|E1].
  - assert (Hp : In (blk_vals s k) LS) by (apply Hin; left; left; auto).
    apply in_split in Hp as (l1 & l2 & ->). exists (l1 ++ l2). split; [symmetry; apply Permutation_middle|].
    pose proof (si_nodup _ _ _ _ _ _ _ S) as Hnd. rewrite map_app in Hnd. cbn [map] in Hnd.
    pose proof (NoDup_remove_1 _ _ _ Hnd) as Hnd1. pose proof (NoDup_remove_2 _ _ _ Hnd) as Hnd2. rewrite <- map_app in Hnd1, Hnd2.
    intros rc' Hr. constructor; auto.
    + rewrite Hb. apply (si_base _ _ _ _ _ _ _ S).
    + intros x Hx. rewrite Hv. apply (si_frame _ _ _ _ _ _ _ S); auto.
    + intros u Hu. apply (si_fresh _ _ _ _ _ _ _ S). right; auto.
    + intros p. rewrite T2. specialize (Hin p). rewrite in_app_iff in *. cbn [In] in Hin.
      assert (~ (In p l1 \/ In p l2) \/ p <> blk_vals s k) as Hx.
      { destruct (N.eq_dec (fst p) (su_block s)) as [E|E].
        - left. intros K. apply Hnd2. cbn. rewrite <- E. apply in_map. apply in_or_app. auto.
        - right. intros ->. apply E. auto. }
      split.
      * intros K. assert (p <> blk_vals s k) by tauto. destruct Hin as [Hin _]. destruct Hin as [[Hq|Hq]|Hq]; try tauto. congruence.
      * intros K. destruct Hin as [_ Hin].
        assert (p <> blk_vals s k).
        { intros ->. destruct K as [K|K].
          - apply Hnot. apply (in_map fst) in K. exact K.
          - apply (TL_foot _ _ _ _ (si_trees _ _ _ _ _ _ _ S)) in K. apply in_occs in K. cbn in K. lia. }
        destruct Hin as [Hq|[Hq|Hq]]; auto. { tauto. } congruence.
    + intros p Hp. apply (si_alone _ _ _ _ _ _ _ S). apply in_app_iff in Hp as [Hp|Hp]; apply in_or_app; cbn [In]; auto.
  - assert (Ht : In (blk_vals s k) (TL (wb_view w) roots ts)).
    { assert (0 < occs (su_block s) (map snd ts)) as K by lia. apply in_occs in K as (f & K1 & K2).
      destruct Hs as (_ & _ & _ & _ & h & Hh & _). cbn [io_make leaf_io] in Hh. eapply TL_leaf; eauto. apply (si_trees _ _ _ _ _ _ _ S). }
    constructor; auto.
    + rewrite Hb. apply (si_base _ _ _ _ _ _ _ S).
    + intros x Hx. rewrite Hv. apply (si_frame _ _ _ _ _ _ _ S); auto.
    + intros u Hu. apply (si_fresh _ _ _ _ _ _ _ S). right; auto.
    + apply (si_nodup _ _ _ _ _ _ _ S).
    + intros p. rewrite Hin, T2. cbn [In]. split; [|tauto]. intros [[<-|K]|K]; auto.
    + apply (si_alone _ _ _ _ _ _ _ S).
    + apply (si_rep _ _ _ _ _ _ _ S).
Qed.

Lemma release_leaves_spec run : forall kvss1 ns kvss roots ts w rc LS, length run = length kvss1 ->
  SI (run ++ ns) (kvss1 ++ kvss) roots ts w rc LS ->
  exists w' rc' LS', release_leaves c rcdec run (w, rc) = ((w', rc'), Ok tt) /\ SI ns kvss roots ts w' rc' LS'.
Proof.
  induction run as [|s run IH]; intros [|k kvss1] ns kvss roots ts w rc LS Hl S; cbn in Hl; try lia.
  { exists w, rc, LS. auto. }
  cbn [app] in S. cbn [release_leaves fst snd].
  pose proof (si_counts _ _ _ _ _ _ _ S (su_block s)) as Hcnt. cbn [map occ] in Hcnt. rewrite N.eqb_refl in Hcnt.
  pose proof (si_nodes _ _ _ _ _ _ _ S) as HF. inversion HF as [|? ? ? ? Hs _]; subst.
  assert (Hpos : 0 < cnt w (su_block s)) by lia.
  pose proof (wb_dec_wp n max Hn (su_block s) w (fun _ => False) (si_env _ _ _ _ _ _ _ S) (proj1 Hs) Hpos) as Hd.
  unfold wp in Hd. destruct (wb_dec (su_block s) w) as [w' [r| |]] eqn:Ed; try destruct Hd.
  rename H into He'. rename H0 into Hrest.
  pose proof (release_one _ _ _ _ _ _ _ _ _ S w' r (conj He' Hrest)) as Hone.
  destruct r.
  - destruct Hone as (LS' & Hperm & Hone).
    assert (Hrd : read_node c (leaf_io V) (su_block s) w' = (w', Ok (map fst k, map snd k))).
    { destruct Hs as (Hlt & _ & _ & _ & h & Hh & _). destruct Hrest as (_ & _ & _ & Hv).
      apply (holds_ext c (wb_view w) (wb_view w')) in Hh; [|apply Hv].
      pose proof (read_node_wp n max c range (leaf_io V) (su_block s) h (map fst k) (map snd k) w'
         (fun w2 r2 => w2 = w' /\ r2 = (map fst k, map snd k)) (fun _ => False) (leaf_io_ok c range) He' Hlt Hh (conj eq_refl eq_refl)) as Hw.
      unfold wp in Hw. destruct (read_node c (leaf_io V) (su_block s) w') as [w2 [r2| |]]; try destruct Hw. subst; auto. }
    rewrite Hrd.
    assert (Hr : rep rc (map snd k ++ concat (map snd LS') ++ rcs0)).
    { eapply (co_perm _ _ _ _ Hrc); [exact (si_rep _ _ _ _ _ _ _ S)|]. rewrite app_assoc. apply Permutation_app_tail.
      change (map snd k ++ concat (map snd LS')) with (concat (map snd (blk_vals s k :: LS'))).
      apply (Permutation_map snd) in Hperm. clear - Hperm. induction Hperm; cbn [concat map]; auto.
      - apply Permutation_app_head; auto.
      - rewrite !app_assoc. apply Permutation_app_tail, Permutation_app_comm.
      - etransitivity; eauto. }
    destruct (dec_all_spec _ _ _ Hr) as (rc' & -> & Hr'). specialize (Hone rc' Hr').
    apply (IH kvss1 ns kvss roots ts w' rc' LS'); auto.
  - apply (IH kvss1 ns kvss roots ts w' rc LS); auto.
Qed.

Lemma release_runs_spec runs : forall rks roots ts w rc LS, Forall2 (fun run kvss => length run = length kvss) runs rks ->
  SI (concat runs) (concat rks) roots ts w rc LS ->
  exists w' rc' LS', release_runs c rcdec runs (w, rc) = ((w', rc'), Ok tt) /\ SI [] [] roots ts w' rc' LS'.
Proof.
  induction runs as [|run runs IH]; intros rks roots ts w rc LS HF S; inversion HF; subst; cbn [concat release_runs] in *.
  { exists w, rc, LS. auto. }
  destruct (release_leaves_spec run y (concat runs) (concat l') roots ts w rc LS H1 S) as (w1 & rc1 & LS1 & E1 & S1).
  unfold bindst. rewrite E1. eapply IH; eauto.
Qed.

(** ** Steps *)

Definition failed (all : list V) (s : @sess R) : Prop := build_failed n max bad (all ++ rcs0) (ss_wb s).

Lemma failed_perm a b s : Permutation a b -> failed a s -> failed b s.
Proof.
  intros P [H|(v & vs & Hb & rest & Hw)]; [left; auto|right]. exists v, vs. split; auto. exists rest. rewrite Hw. apply Permutation_app_tail; auto.
Qed.
Lemma step_failed (kvs : list (N * V)) (LS : list (N * list V)) U all w rc runs roots :
  build_failed n max bad (map snd kvs ++ concat (map snd LS) ++ rcs0) w -> within (concat (map snd LS)) U ->
  within (map snd kvs ++ U) all -> failed all (mkss w rc runs roots).
Proof.
  intros [H|(v & vs & Hb & Hw)] HU Ha; [left; auto|right]. exists v, vs. split; auto.
  eapply within_trans; [exact Hw|]. rewrite app_assoc. apply within_app2; [|apply within_refl].
  eapply within_trans; [|exact Ha]. apply within_app2; auto. apply within_refl.
Qed.

Lemma steps_wp os : forall U trees rks runs roots ts w rc LS, plan range (map (@concat _) rks) os trees ->
  runs_ok runs rks -> SI (concat runs) (concat rks) roots ts w rc LS -> within (concat (map snd LS)) U ->
  wp (sess_steps c rcinc os) (mkss w rc runs roots)
     (fun s _ => exists rks' ts' LS', runs_ok (ss_runs s) rks' /\
        SI (concat (ss_runs s)) (concat rks') (ss_roots s) (ts ++ ts') (ss_wb s) (ss_rc s) LS' /\
        map (fun t => snd (fst t)) ts' = trees /\ exists new, ss_roots s = roots ++ new /\ Forall (fun r => r < n) new)
     (failed (all_values os trees ++ U)).
Proof.
  induction os as [|o os IH]; intros U trees rks runs roots ts w rc LS Hp Hro S HU; cbn [sess_steps].
  - inversion Hp; subst. apply wp_ret. exists rks, [], LS. rewrite app_nil_r. conj; auto. exists []. rewrite app_nil_r. auto.
  - apply wp_bind. unfold sess_step. destruct o as [kvs|its].
    + inversion Hp as [|? ? ? ? Hok Hp'|]; subst. pose proof (define_wp _ _ _ _ _ _ _ kvs S Hok) as Hd. unfold wp in Hd |- *. cbn [ss_rc ss_wb ss_runs ss_roots] in *.
      destruct (build_nodes _ _ _ _ _ _ _) as [w' [[ns rc']| |]]; [| |destruct Hd].
      * destruct Hd as (kvss' & LS' & S' & Hc & Hl & Hne & Hh & HU'). cbn [fst snd] in *. cbn [ss_wb ss_rc ss_runs ss_roots].
        eapply wp_mono; [apply (IH (map snd kvs ++ U) trees (rks ++ [kvss']) (runs ++ [ns]) roots ts w' rc' LS')|auto|].
        5:{ intros s. apply failed_perm. unfold all_values. cbn [flat_map]. perm. }
        -- rewrite map_app. cbn [map]. rewrite Hc. auto.
        -- apply Forall2_app; auto.
        -- rewrite !concat_app. cbn [concat]. rewrite !app_nil_r. auto.
        -- eapply within_trans; [exact HU'|]. apply within_app2; auto. apply within_refl.
      * eapply step_failed; [exact Hd|exact HU|]. unfold all_values. cbn [flat_map app]. exists (flat_map (fun o : @sop V => match o with Define kvs0 => map snd kvs0 | Tree _ => [] end) os ++ flat_map (map snd) trees). perm.
    + inversion Hp as [| |? ? kvs ? trees0 Hx Hok Href Hp']; subst. cbn [ss_rc ss_wb ss_runs ss_roots].
      destruct (item_pushed w runs rks its (si_env _ _ _ _ _ _ _ S) Hro (si_nodes _ _ _ _ _ _ _ S) (si_shared _ _ _ _ _ _ _ S)) with (kvs := kvs)
        as (ops & E & P1 & P2); auto.
      { intros u Hu. rewrite (si_counts _ _ _ _ _ _ _ S). apply (in_map su_block) in Hu. apply occ_in in Hu. lia. }
      unfold wp. cbn beta iota. cbn [ss_rc ss_wb ss_runs ss_roots]. rewrite E. pose proof (tree_wp _ _ _ _ _ _ _ ops kvs S P1 P2 Hok) as Hd. unfold wp in Hd.
      destruct (btree_build c rcinc ops rc w) as [w' [[root rc']| |]]; [| |destruct Hd].
      * destruct Hd as (t & LS' & S' & Ht & Hlt & HU'). cbn [fst snd] in *. cbn [ss_wb ss_rc ss_runs ss_roots].
        specialize (IH (map snd kvs ++ U) trees0 rks runs (roots ++ [root]) (ts ++ [t]) w' rc' LS' Hp' Hro S').
        specialize (IH ltac:(eapply within_trans; [exact HU'|]; apply within_app2; auto; apply within_refl)).
        change (wp (sess_steps c rcinc os) (mkss w' rc' runs (roots ++ [root]))
           (fun s _ => exists rks' ts' LS', runs_ok (ss_runs s) rks' /\
        SI (concat (ss_runs s)) (concat rks') (ss_roots s) (ts ++ ts') (ss_wb s) (ss_rc s) LS' /\
        map (fun t => snd (fst t)) ts' = kvs :: trees0 /\ exists new, ss_roots s = roots ++ new /\ Forall (fun r => r < n) new) (failed (all_values (Tree its :: os) (kvs :: trees0) ++ U))).
        eapply wp_mono; [exact IH| |intros s; apply failed_perm; unfold all_values; cbn [flat_map app]; perm].
        intros s _ (rks' & ts' & LS2 & A & B & C & new & D & F). exists rks', (t :: ts'), LS2. rewrite <- app_assoc in B. conj; auto.
        -- cbn [map]. rewrite Ht, C. auto.
        -- exists (root :: new). rewrite D, <- app_assoc. split; auto.
      * eapply step_failed; [exact Hd|exact HU|]. unfold all_values. cbn [flat_map app]. exists (flat_map (fun o : @sop V => match o with Define kvs0 => map snd kvs0 | Tree _ => [] end) os ++ flat_map (map snd) trees0). perm.
Qed.

Lemma occs_pointers d roots ts x : Forall2 (tree_of d) roots ts ->
  occs x (map snd ts) = occ x (roots ++ flat_map (children c d) (IL d roots ts)).
Proof.
  intros H. induction H as [|r t roots ts Ht HF IH]; auto. unfold IL in *. cbn [combine flat_map fst snd map occs app occ].
  rewrite IH. destruct (occ_inner _ _ _ _ _ _ _ x Ht) as (-> & _). cbn [occ]. rewrite flat_map_app, !occ_app. lia.
Qed.
Lemma IL_nodup ns kvss roots ts w rc LS : SI ns kvss roots ts w rc LS -> NoDup (IL (wb_view w) roots ts).
Proof.
  intros S. apply occ_one_NoDup. intros x Hx.
  assert (occ x (IL (wb_view w) roots ts) <= occs x (map snd ts)).
  { pose proof (si_trees _ _ _ _ _ _ _ S) as H. clear - H. induction H as [|r t roots ts Ht HF IH]; [cbn; lia|].
    unfold IL in *. cbn [combine flat_map fst snd map occs]. rewrite occ_app.
    destruct (occ_inner _ _ _ _ _ _ _ x Ht) as (_ & K & _). lia. }
  pose proof (si_counts _ _ _ _ _ _ _ S x). pose proof (si_inner _ _ _ _ _ _ _ S x Hx). apply occ_in in Hx. lia.
Qed.
End Sess.

(** ** The data space map as counter *)
Lemma mapping_ok nd max base : nd < 2 ^ 64 ->
  counter_ok bt_range mapping_inc (mapping_rep nd max base) (mapping_bad nd max base).
Proof.
  intros Hnd. constructor.
  - intros r vs v Hv (I & HF & Hc). unfold mapping_inc, sm_inc. rewrite (inv_nr _ _ _ I).
    assert (bt_block v < 2 ^ 63) by (destruct Hv; cbn in *; lia).
    rewrite N.mod_small by (unfold W64; lia).
    destruct (N.ltb_spec nd (bt_block v + 1)); [left; lia|].
    destruct (sm_inc_loop r _) as [r' o] eqn:E. apply (sm_inc_loop_spec nd max) in E; [|auto|lia].
    destruct E as [I' [(_ & -> & Hc')|(-> & sat & Hs & Hm & _ & Hc')]].
    + split; [auto|]. split; [constructor; auto; lia|]. intros x. rewrite Hc', Hc. cbn [map occ].
      destruct (N.eqb_spec x (bt_block v)), (N.leb_spec (bt_block v) x), (N.ltb_spec x (bt_block v + 1)); cbn [andb]; lia.
    + right. replace sat with (bt_block v) in * by lia. rewrite <- Hc. lia.
  - intros r vs vs' (I & HF & Hc) P. split; [auto|]. split.
    + rewrite Forall_forall in *. intros x Hx. apply HF. eapply Permutation_in; [symmetry; exact P|auto].
    + intros x. rewrite Hc. f_equal. apply (Permutation_map bt_block) in P. clear - P. induction P; cbn [occ]; lia.
Qed.

Lemma mapping_undo nd max base : counter_undo mapping_dec (mapping_rep nd max base).
Proof.
  intros r v vs (I & HF & Hc). inversion HF; subst. unfold mapping_dec, sm_dec.
  rewrite (sm_get_spec nd max) by auto. destruct (N.ltb_spec (bt_block v) nd); [|lia].
  pose proof (Hc (bt_block v)) as Hv. cbn [map occ] in Hv. rewrite N.eqb_refl in Hv.
  destruct (N.eqb_spec (sm_counts r (bt_block v)) 0); [lia|].
  destruct (sm_set r (bt_block v) _) as [s o] eqn:Es. apply (sm_set_spec nd max) in Es; auto.
  destruct Es as [I' [(_ & _ & -> & Hc')|(Hbad & _)]].
  - exists s. split; auto. split; [auto|]. split; [auto|]. intros x. rewrite Hc', upd_spec. specialize (Hc x). cbn [map occ] in Hc.
    destruct (N.eqb_spec x (bt_block v)); subst; lia.
  - exfalso. apply Hbad. split; auto. pose proof (inv_le _ _ _ I (bt_block v) H1). lia.
Qed.
