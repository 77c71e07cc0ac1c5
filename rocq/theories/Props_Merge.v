(** C56: merging trees.  Only the collection of the leaves is implemented. *)
From Verif Require Import Base Csum_Model Codec_Model SpaceMap_Model Utils_Model Utils_Proofs Builder_Spec BtreeRead_Proofs Pack_Proofs Walker_Model Walker_Spec Walker_Proofs WalkTree_Proofs Props_Walker
  ThinRead_Proofs ThinCheck_Proofs Merge_Model Merge_Spec Merge_Proofs.

Section Seq.
Context {V : Type}.
Definition of_call (x : wcall V) : list leaf_summary :=
  match x with CVisit path _ _ (k :: ks) _ => [mkls (last path 0) (nlen (k :: ks)) k (last (k :: ks) 0)] | _ => [] end.
Lemma seq_snoc l : forall a, in_sequence (a ++ [l]) <-> in_sequence a /\ match rev a with [] => True | x :: _ => l_high x < l_low l end.
Proof.
  induction a as [|x a IH]; [cbn; tauto|]. cbn [app in_sequence rev]. destruct a as [|y a]; [cbn; tauto|]. cbn [app] in *. rewrite IH. cbn [in_sequence].
  destruct (rev (y :: a)) as [|z r] eqn:E; [apply (f_equal (@length _)) in E; rewrite rev_length in E; discriminate|]. cbn [app]. tauto.
Qed.
Lemma seq_prefix b : forall a, in_sequence (a ++ b) -> in_sequence a.
Proof.
  induction b as [|l b IH]; intros a H; [rewrite app_nil_r in H; exact H|]. replace (a ++ l :: b) with ((a ++ [l]) ++ b) in H by (rewrite <- app_assoc; reflexivity).
  apply IH, seq_snoc in H. tauto.
Qed.
Lemma leaves_snoc (l : list (wcall V)) x : lv_leaves (l ++ [x]) = match lv_visit (lv_leaves l) x with Some l' => l' | None => lv_leaves l end.
Proof. unfold lv_leaves. rewrite fold_left_app. reflexivity. Qed.
Lemma visit_iff (l : list (wcall V)) x : in_sequence (lv_leaves l) ->
  (lv_accepts l x = true <-> in_sequence (lv_leaves l ++ of_call x)) /\ (lv_accepts l x = true -> lv_leaves (l ++ [x]) = lv_leaves l ++ of_call x).
Proof.
  intros H. rewrite leaves_snoc. unfold lv_accepts. destruct x as [path kr h [|k ks] vs|path b|]; cbn [lv_visit of_call]; rewrite ?app_nil_r; [tauto| |tauto|tauto].
  rewrite seq_snoc. cbn [l_low]. destruct (rev (lv_leaves l)) as [|y r]; [tauto|]. destruct (N.leb_spec k (l_high y)); split; try tauto; try discriminate; try (split; [discriminate|lia]); split; auto.
Qed.
Lemma okl_iff : forall new l, in_sequence (lv_leaves l) ->
  (okl lv_accepts l new <-> in_sequence (lv_leaves l ++ flat_map of_call new)) /\
  (okl lv_accepts l new -> lv_leaves (l ++ new) = lv_leaves l ++ flat_map of_call new).
Proof.
  induction new as [|x r IH]; intros l H; cbn [okl flat_map]; [rewrite !app_nil_r; tauto|]. destruct (visit_iff l x H) as [H1 H2].
  rewrite app_assoc. conj.
  - split.
    + intros [A B]. specialize (H2 A). apply H1 in A. rewrite <- H2 in A |- *. apply (IH (l ++ [x])); auto.
    + intros A. assert (B : lv_accepts l x = true) by (apply H1; eapply seq_prefix; exact A). split; [exact B|]. specialize (H2 B). apply H1 in B. rewrite <- H2 in A, B. apply (IH (l ++ [x])); auto.
  - intros [A B]. specialize (H2 A). apply H1 in A. rewrite <- H2 in A |- *. replace (l ++ x :: r) with ((l ++ [x]) ++ r) by (rewrite <- app_assoc; reflexivity). apply (IH (l ++ [x])); auto.
Qed.
Context (c : codec V) (eng : N -> option (list N)).
Lemma real_call x : real c false eng x -> match x with CVisit _ _ _ ks vs => length ks = length vs /\ increasing ks | _ => True end.
Proof.
  destruct x as [path kr h ks vs|path b|]; auto. intros (b & p & data & root & _ & _ & E). apply check_raw in E. destruct E as [E _].
  pose proof (raw_facts _ _ _ _ _ E) as (H1 & _ & H2). auto.
Qed.
Lemma call_summary x : real c false eng x -> Forall2 (summarises c eng) (of_call x) (match call_entries x with [] => [] | e => [e] end).
Proof.
  intros H. pose proof (real_call x H) as HL. destruct x as [path kr h [|k ks] vs|path b|]; try constructor. destruct HL as [HL _]. destruct vs as [|v vs]; [discriminate|].
  cbn [of_call call_entries combine]. constructor; [|constructor]. destruct H as (b & p & data & root & -> & E1 & E2). exists data, root, h, (k :: ks), (v :: vs).
  cbn [l_block l_nr l_low l_high]. rewrite last_last. conj; auto. discriminate.
Qed.
Lemma combine_fst (ks : list N) (vs : list V) : length ks = length vs -> map fst (combine ks vs) = ks.
Proof. revert vs. induction ks as [|k ks IH]; intros [|v vs] E; try discriminate; [reflexivity|]. cbn [combine map fst]. rewrite IH by (cbn in E; congruence). reflexivity. Qed.
Lemma last_max ks : increasing ks -> forall x, In x ks -> x <= last ks 0.
Proof.
  induction ks as [|k ks IH]; intros H x Hx; [destruct Hx|]. destruct ks as [|k' ks]; [destruct Hx as [<-|[]]; cbn; lia|].
  change (last (k :: k' :: ks) 0) with (last (k' :: ks) 0). destruct Hx as [<-|Hx]; [|apply IH; [exact (proj2 (proj1 (increasing_cons _ _) H))|exact Hx]].
  apply increasing_cons in H. destruct H as [H1 H2]. specialize (IH H2 k' (or_introl eq_refl)). lia.
Qed.
Lemma last_in (ks : list N) : ks <> [] -> In (last ks 0) ks.
Proof. intros H. destruct (exists_last H) as (a & x & ->). rewrite last_last. apply in_or_app. right. left. reflexivity. Qed.
(** in sequence: increasing *)
Lemma seq_increasing : forall log, Forall (real c false eng) log ->
  (in_sequence (flat_map of_call log) <-> increasing (map fst (flat_map call_entries log))).
Proof.
  induction log as [|x log IH]; intros H; [cbn; tauto|]. inversion H as [|? ? Hx Hl]; subst. specialize (IH Hl). cbn [flat_map].
  pose proof (real_call x Hx) as HK. destruct x as [path kr h ks vs|path b|]; cbn [call_entries of_call app]; try exact IH.
  destruct HK as [HL HI]. rewrite map_app, combine_fst by exact HL. rewrite increasing_app, <- IH. destruct ks as [|k ks]; [cbn [app]; split; [intros Hq; conj; auto; intros a b []|intros (_ & Hq & _); exact Hq]|]. cbn [app]. set (l := mkls _ _ _ _).
  assert (X : in_sequence (l :: flat_map of_call log) <-> in_sequence (flat_map of_call log) /\ match flat_map of_call log with [] => True | l' :: _ => last (k :: ks) 0 < l_low l' end)
    by (cbn [in_sequence]; destruct (flat_map of_call log); cbn [in_sequence l_high l]; tauto).
  rewrite X. clear X.
  assert (Y : in_sequence (flat_map of_call log) -> (match flat_map of_call log with [] => True | l' :: _ => last (k :: ks) 0 < l_low l' end <->
    forall a b, In a (k :: ks) -> In b (map fst (flat_map call_entries log)) -> a < b)); [|tauto].
  intros Hs. apply IH in Hs.
  assert (Z : match flat_map of_call log with [] => map fst (flat_map call_entries log) = [] | l' :: _ => exists r, map fst (flat_map call_entries log) = l_low l' :: r end).
  { clear - Hl. induction Hl as [|y log Hy Hl IHl]; [reflexivity|]. cbn [flat_map]. pose proof (real_call y Hy) as HK. destruct y as [path kr h [|k ks] vs|path b|]; cbn [of_call call_entries app combine]; auto.
    destruct HK as [HL _]. destruct vs as [|v vs]; [discriminate|]. cbn [combine app map fst l_low]. eexists. reflexivity. }
  destruct (flat_map of_call log) as [|l' ls].
  - rewrite Z. split; [intros _ a b _ []|auto].
  - destruct Z as [r Z]. rewrite Z in *. split.
    + intros A a b Ha Hb. pose proof (last_max _ HI a Ha). destruct Hb as [<-|Hb]; [lia|]. pose proof (increasing_head_lt _ _ _ Hs Hb). lia.
    + intros A. apply A; [apply last_in; discriminate|left; reflexivity].
Qed.

Lemma raw_root data root n : unpack_node_raw c data false root = Ok n -> unpack_node_raw c data false true = Ok n.
Proof.
  unfold unpack_node_raw. destruct (nh_unpack data) as [[hd i]| |]; cbn [bind]; auto. destruct (nh_is_leaf hd && _); auto. destruct (4096 <? _); auto. destruct (nh_max_entries hd <? _); auto.
  cbn [negb andb]. destruct (negb (nh_max_entries hd mod 3 =? 0)); auto. destruct root; cbn [negb andb]; auto. destruct (nh_nr_entries hd <? _); [discriminate|auto].
Qed.
(** ** Any device *)
Lemma accepts_end (l : list (wcall V)) : lv_accepts l CEnd = true.
Proof. reflexivity. Qed.
Lemma collect_real : forall roots s lvs, lv_leaves (w_log s) = flat_map of_call (w_log s) -> in_sequence (lv_leaves (w_log s)) -> Forall (real c false eng) (w_log s) ->
  collect c eng roots s = Ok lvs -> exists log, lvs = flat_map of_call log /\ in_sequence lvs /\ Forall (real c false eng) log.
Proof.
  induction roots as [|r rs IH]; intros s lvs HL HS HR H; cbn [collect] in H.
  - apply Ok_inj in H. exists (w_log s). rewrite <- HL. subst lvs. auto.
  - pose proof (walk_lock c false eng lv_accepts accepts_end [] r s) as (new & A & B & C & D).
    destruct (walk c false eng lv_accepts [] r s) as [s1 [e|]]; [discriminate|]. cbn [fst snd] in *. specialize (D eq_refl). destruct (C D) as [E _]. rewrite <- E in A.
    destruct (okl_iff new (w_log s) HS) as [O1 O2]. specialize (O2 D). apply O1 in D. rewrite <- O2, <- A in D.
    apply (IH s1 lvs); auto.
    + rewrite A, O2, HL, flat_map_app. reflexivity.
    + rewrite A. apply Forall_app. auto.
Qed.
End Seq.

Lemma parts_of {V} (c : codec V) eng log : Forall (real c false eng) log ->
  exists parts, Forall2 (summarises c eng) (flat_map of_call log) parts /\ concat parts = flat_map call_entries log.
Proof.
  intros HR. induction HR as [|x log Hx HR (parts & IH1 & IH2)]; [exists []; split; [constructor|reflexivity]|]. cbn [flat_map].
  exists ((match call_entries x with [] => [] | e => [e] end) ++ parts). split; [apply Forall2_app; [apply call_summary, Hx|exact IH1]|].
  rewrite concat_app, IH2. f_equal. destruct (call_entries x); [reflexivity|]. cbn [concat]. apply app_nil_r.
Qed.
(** Whatever is on the device: the leaves collected are leaves of the device, with the entries
    the summaries tell, in key order, and none twice. *)
Theorem C56_ordered : forall {V} (c : codec V) nr eng roots lvs, collect_leaves c nr eng roots = Ok lvs ->
  in_sequence lvs /\ NoDup (map l_block lvs) /\
  exists parts, Forall2 (summarises c eng) lvs parts /\ increasing (map fst (concat parts)).
Proof.
  intros V c nr eng roots lvs H. apply (collect_real c eng) in H; [|reflexivity|exact I|constructor]. destruct H as (log & -> & HS & HR).
  destruct (parts_of c eng log HR) as (parts & P1 & P2). apply (seq_increasing c eng log HR) in HS as HI. rewrite <- P2 in HI. conj; auto; [|exists parts; auto].
  clear P2 HS. revert P1. generalize (flat_map (@of_call V) log). clear log HR. intros ls P1. assert (HI' := HI). clear HI. induction P1 as [|l kvs ls parts Hl P1 IH]; [constructor|]. cbn [concat map] in *. rewrite map_app in HI'. apply increasing_app in HI'.
  destruct HI' as (I1 & I2 & I3). constructor; [|apply IH; exact I2]. intros Hin. apply in_map_iff in Hin. destruct Hin as (l' & E & Hin).
  destruct (ThinCheck_Proofs.F2_in_l _ _ _ l' P1 Hin) as (kvs' & Hk & Hs').
  destruct Hl as (data & root & h & ks & vs & E1 & E2 & E3 & -> & E5 & _). destruct Hs' as (data' & root' & h' & ks' & vs' & F1 & F2 & F3 & -> & F5 & _).
  rewrite E in F1, F2. assert (data' = data) by congruence. subst data'.
  destruct ks as [|k ks]; [congruence|]. destruct vs as [|v vs]; [discriminate|].
  assert (Hk' : ks' = k :: ks).
  { apply check_raw in E2, F2. destruct E2 as [E2 _], F2 as [F2 _]. apply raw_root in E2, F2. congruence. }
  rewrite Hk' in *. destruct vs' as [|v' vs']; [discriminate|]. specialize (I3 k k). cbn [combine map fst] in I3.
  enough (k < k) by lia. apply I3; [left; reflexivity|]. apply in_map_iff. exists (k, v'). split; [reflexivity|]. apply in_concat. exists (combine (k :: ks) (v' :: vs')). split; [exact Hk|left; reflexivity].
Qed.

(** ** Trees *)
(** Trees that share no block: if the ranges of keys follow each other, exactly the leaves of
    all of them are collected; otherwise the merge is refused. *)
Definition a_tree V : Type := nat * N * list (N * V) * list N.
Definition t_root {V} (t : a_tree V) : N := snd (fst (fst t)).
Definition t_entries {V} (t : a_tree V) : list (N * V) := snd (fst t).
Definition t_blocks {V} (t : a_tree V) : list N := snd t.
Section Trees.
Context {V : Type} (c : codec V) (nr : N) (eng : N -> option (list N)) (d : disk).
Definition is_tree (t : a_tree V) : Prop := let '(depth, root, kvs, foot) := t in tree c d true depth root kvs foot /\ increasing (map fst kvs).
Lemma collect_trees : forall ts s, Forall is_tree ts -> NoDup (flat_map t_blocks ts) ->
  map_ok (w_sm s) -> (forall b, In b (flat_map t_blocks ts) -> b < wsm_nr (w_sm s) /\ wcount (w_sm s) b = 0 /\ eng b = Some (d b)) ->
  lv_leaves (w_log s) = flat_map of_call (w_log s) -> in_sequence (lv_leaves (w_log s)) -> Forall (real c false eng) (w_log s) ->
  (increasing (map fst (flat_map call_entries (w_log s) ++ flat_map t_entries ts)) -> exists log, collect c eng (map t_root ts) s = Ok (flat_map of_call log) /\ Forall (real c false eng) log /\
     flat_map call_entries log = flat_map call_entries (w_log s) ++ flat_map t_entries ts) /\
  (~ increasing (map fst (flat_map call_entries (w_log s) ++ flat_map t_entries ts)) -> collect c eng (map t_root ts) s = Err).
Proof using.
  induction ts as [|t ts IH]; intros s HT HN HM HB HL HS HR; cbn [map flat_map collect].
  - rewrite app_nil_r. split; [intros _; exists (w_log s); rewrite HL; auto|]. intros H. exfalso. apply H. rewrite HL in HS. apply (seq_increasing c eng); auto.
  - inversion HT as [|? ? Ht HT']; subst. destruct t as [[[depth root] kvs] foot]. destruct Ht as [Ht Hi]. cbn [flat_map t_blocks t_entries t_root fst snd] in *.
    apply NoDup_app_iff_local in HN. destruct HN as (N1 & N2 & N3).
    destruct (undamaged_walk_sm c false eng d depth root kvs foot [] s Ht N1 Hi HM) as (s' & calls & E & L & K & _ & _ & _ & (K1 & K2) & CC).
    { intros b Hb. apply HB, in_or_app. auto. }
    pose proof (walk_lock c false eng lv_accepts accepts_end [] root s) as (new & A & B & C & D).
    change (walk c false eng all_of [] root s) with (walk c false eng accept_all [] root s) in A, C. rewrite E in A, C. cbn [fst snd] in A, C.
    assert (Ek : flat_map call_entries new = kvs). { rewrite L in A. apply app_inv_head in A. subst new. rewrite flat_map_app, K. cbn. apply app_nil_r. }
    destruct (okl_iff new (w_log s) HS) as [O1 O2].
    assert (HR' : Forall (real c false eng) (w_log s ++ new)) by (apply Forall_app; auto).
    rewrite HL, <- flat_map_app in O1. rewrite (seq_increasing c eng _ HR') in O1. rewrite flat_map_app, Ek in O1.
    rewrite app_assoc.
    destruct (walk c false eng lv_accepts [] root s) as [s1 r1]. cbn [fst snd] in *.
    assert (X : okl lv_accepts (w_log s) new -> (s1 = s' /\ r1 = None) /\ lv_leaves (w_log s') = flat_map of_call (w_log s') /\ in_sequence (lv_leaves (w_log s')) /\
      flat_map call_entries (w_log s') = flat_map call_entries (w_log s) ++ kvs).
    { intros O. split; [exact (C O)|]. specialize (O2 O). apply O1 in O. rewrite A, O2, HL, !flat_map_app, Ek. conj; auto. rewrite <- flat_map_app. apply (seq_increasing c eng _ HR'). rewrite flat_map_app, Ek. exact O. }
    assert (Y : okl lv_accepts (w_log s) new -> collect c eng (map t_root ts) s' = match r1 with None => collect c eng (map t_root ts) s1 | Some _ => Err end) by (intros O; destruct (X O) as [[-> ->] _]; reflexivity).
    assert (HB' : forall b, In b (flat_map t_blocks ts) -> b < wsm_nr (w_sm s') /\ wcount (w_sm s') b = 0 /\ eng b = Some (d b)).
    { intros b Hb. destruct (HB b ltac:(apply in_or_app; auto)) as (B1 & B2 & B3). destruct K1 as (K1 & _). conj; auto; [rewrite K1; exact B1|]. rewrite CC by exact B1. rewrite B2.
      destruct (in_dec N.eq_dec b foot) as [Hf|]; [exfalso; exact (N3 b Hf Hb)|reflexivity]. }
    split.
    + intros I0. assert (O : okl lv_accepts (w_log s) new). { apply O1. rewrite map_app in I0. apply increasing_app in I0. tauto. }
      destruct (X O) as ([-> ->] & X1 & X2 & X3). rewrite <- X3 in *. apply IH; auto. rewrite A. exact HR'.
    + intros I0. destruct r1 as [e|]; [reflexivity|]. pose proof (D eq_refl) as O. destruct (X O) as ([-> _] & X1 & X2 & X3). rewrite <- X3 in *. apply IH; auto. rewrite A. exact HR'.
Qed.
End Trees.

Theorem C56_trees : forall {V} (c : codec V) nr eng d (ts : list (a_tree V)), nr < 2 ^ 64 -> Forall (is_tree c d) ts -> NoDup (flat_map t_blocks ts) ->
  (forall b, In b (flat_map t_blocks ts) -> b < nr /\ eng b = Some (d b)) ->
  (increasing (map fst (flat_map t_entries ts)) ->
     exists lvs parts, collect_leaves c nr eng (map t_root ts) = Ok lvs /\ Forall2 (summarises c eng) lvs parts /\ concat parts = flat_map t_entries ts) /\
  (~ increasing (map fst (flat_map t_entries ts)) -> collect_leaves c nr eng (map t_root ts) = Err).
Proof.
  intros V c nr eng d ts Hn HT HN HB. unfold collect_leaves.
  destruct (collect_trees c eng d ts (walker_new nr) HT HN) as [H1 H2].
  - unfold map_ok, walker_new, rsm_new. cbn [w_sm wsm_nr wmax wcount r_nr r_bits]. split; [auto|split; [lia|intros; lia]].
  - intros b Hb. cbn. destruct (HB b Hb). auto.
  - reflexivity.
  - exact I.
  - constructor.
  - cbn [walker_new w_log flat_map app] in *. split; [|exact H2]. intros HI. destruct (H1 HI) as (log & E & HR & K).
    destruct (parts_of c eng log HR) as (parts & P1 & P2). exists (flat_map of_call log), parts. rewrite P2, K. auto.
Qed.

(** ** What is missing *)
(** No merge ever returns a tree: what comes after the collection is not implemented. *)
Theorem C56_merge_refuted : forall {V} (c : codec V) nr eng roots r, merge c nr eng roots <> Ok r.
Proof. intros. unfold merge. destruct (collect_leaves _ _ _ _); discriminate. Qed.
(** "overlapping ranges are refused" is not so for trees that share blocks: a tree merged with
    itself is accepted, its leaves are collected once. *)
Theorem C56_twice_refuted : exists l, collect_leaves u64_codec 10 Props_Walker.ex_eng [1; 1] = Ok [l] /\ l = mkls 1 84 0 166.
Proof. exists (mkls 1 84 0 166). split; vm_compute; reflexivity. Qed.

(** ** Examples *)
Example C56_met : let t : a_tree N := (0%nat, 1, combine (map (fun i => 2 * i) (nseq 0 84)) (nseq 0 84), [1]) in
  is_tree u64_codec (fun _ => ex_leaf) t /\ increasing (map fst (flat_map t_entries [t])).
Proof.
  cbv zeta. assert (I0 : increasing (map fst (combine (map (fun i => 2 * i) (nseq 0 84)) (nseq 0 84)))) by (vm_compute; conj; auto).
  split; [|cbn [flat_map t_entries fst snd]; rewrite app_nil_r; exact I0]. split; [exact C54_example_tree|exact I0].
Qed.
