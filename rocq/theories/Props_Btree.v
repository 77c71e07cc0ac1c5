(** C09-C13: building, looking up and iterating B-trees. *)
From Coq Require Import Permutation.
From Verif Require Import Base Csum_Model Codec_Model Codec_Spec Codec_Proofs NodeCodec_Proofs
  SpaceMap_Model SpaceMap_Spec SpaceMap_Proofs Io_Proofs IoMany_Proofs Batcher_Model Batcher_Spec Batcher_Proofs
  Builder_Model Builder_Spec Builder_Proofs NodeBuilder_Proofs BtreeBuild_Proofs BtreeRead_Proofs
  Session_Model Session_Spec Session_Proofs.

Lemma flushed_view n max w : env n max w -> forall x, flushed w x = wb_view w x.
Proof. intros He. apply wb_flush_disk. apply (wi_good _ _ _ (e_inv _ _ _ He)). Qed.
Lemma flushed_tree {V} (c : codec V) n max w root depth b kvs foot : env n max w ->
  tree c (wb_view w) root depth b kvs foot -> tree c (flushed w) root depth b kvs foot.
Proof. intros He. apply tree_frame. intros. eapply flushed_view; eauto. Qed.
Lemma own_all {V} w0 ns : forall kvss : list (list (N * V)), origin false w0 (fun _ => False) ns -> length ns = length kvss ->
  ownvals false ns kvss = map snd (concat kvss).
Proof.
  intros kvss H. unfold origin in H.
  assert (Ho : forall s, In s ns -> own false s = true).
  { rewrite Forall_forall in H. intros s Hs. specialize (H s Hs). destruct (own false s); auto. destruct H as [[] _]. }
  clear H. revert kvss. induction ns as [|s ns IH]; intros [|k kvss] Hl; cbn in Hl; try lia; auto.
  cbn [ownvals concat]. rewrite Ho by (left; auto). rewrite map_app, IH; [auto|intros; apply Ho; right; auto|lia].
Qed.

(** C09.  Pushing any list of pairs and completing: if the builder reports
    success then the keys were strictly increasing and, once flushed, the device
    holds a tree with exactly those pairs, every pair counted once; blocks that
    were in use are untouched.  If it reports an error then the keys were not
    increasing, or the space map had no free block, or a counter refused.  It
    never panics. *)
Theorem C09_build_contents : forall V R (c : codec V) (rg : V -> Prop) (rcinc : V -> st R unit) rep bad n max w rc rcs kvs w' out,
  lossless c rg -> N.of_nat (csize c) + 8 < 2 ^ 32 -> 4 <= calc_max_entries c ->
  counter_ok rg rcinc rep bad -> usable n max w -> rep rc rcs ->
  Forall (fun kv => fst kv < 2 ^ 64 /\ rg (snd kv)) kvs ->
  btree_build c rcinc (map (fun kv => PushValue (fst kv) (snd kv)) kvs) rc w = (w', out) ->
  match out with
  | Ok (root, rc') =>
      increasing (map fst kvs) /\ root < n /\ rep rc' (map snd kvs ++ rcs) /\
      (exists depth foot, tree c (flushed w') true depth root kvs foot) /\
      (forall x, 0 < sm_counts (wb_sm w) x -> flushed w' x = flushed w x)
  | Err => ~ increasing (map fst kvs) \/ build_failed n max bad (map snd kvs ++ rcs) w'
  | Panic => False
  end.
Proof.
  intros V R c rg rcinc rep bad n max w rc rcs kvs w' out L Hcs Hm Hrc Hu Hr HF E.
  apply usable_env in Hu as [Hn He].
  assert (wp (btree_build c rcinc (map push_op kvs) rc) w
     (fun w' r => env n max w' /\ increasing (map fst kvs) /\ fst r < n /\ rep (snd r) (map snd kvs ++ rcs) /\
        (exists depth foot, tree c (wb_view w') true depth (fst r) kvs foot) /\
        (forall x, 0 < cnt w x -> wb_view w' x = wb_view w x))
     (fun w' => ~ increasing (map fst kvs) \/ build_failed n max bad (map snd kvs ++ rcs) w')) as Hwp.
  { unfold btree_build. apply wp_bind. eapply wp_mono.
    - eapply (build_values_wp n max c rg (leaf_io V) false rcinc rep bad w rcs rc kvs); auto. apply leaf_io_ok.
    - intros w1 [ns rc1] [Hb Hinc]. cbn [fst snd] in *. apply wp_bind. eapply wp_mono.
      + eapply (build_btree_wp n max c rg rep w rcs (fun _ => False) kvs w1 ns rc1 false); eauto. split; auto.
      + intros w2 root (He2 & Hb2 & Hfr & depth & foot & Ht & Hlt & _ & _ & Hcnt). apply wp_ret. cbn [fst snd]. conj; eauto.
        destruct Hb as (_ & (kvss & HF2 & Hc & Hr2 & _) & _ & _ & _ & Ho).
        rewrite (own_all w) in Hr2; auto. { rewrite Hc in Hr2. auto. } eapply Forall2_length; eauto.
      + intros w2 H. right. left. auto.
    - intros w1 [H|H]; auto. }
  unfold wp in Hwp. change (map push_op kvs) with (map (fun kv => @PushValue V (fst kv) (snd kv)) kvs) in Hwp. rewrite E in Hwp.
  destruct out as [[root rc']| |]; auto. destruct Hwp as (He' & A & B & C & (depth & foot & D) & F). cbn [fst snd] in *. conj; auto.
  - exists depth, foot. eapply flushed_tree; eauto.
  - intros x Hx. rewrite (flushed_view n max w'), (flushed_view n max w) by auto. apply F. auto.
Qed.

(** C10.  The same for any mixture of values and pre-built shared leaves: the
    result has the shape [tree] demands (all leaves at one depth, keys of
    internal nodes, occupancy).  With entries in order the builder only fails for
    lack of space or because a counter refused. *)
Theorem C10_build_shape : forall V R (c : codec V) (rg : V -> Prop) (rcinc : V -> st R unit) rep bad n max w rc rcs os kvs w' out,
  lossless c rg -> N.of_nat (csize c) + 8 < 2 ^ 32 -> 4 <= calc_max_entries c ->
  counter_ok rg rcinc rep bad -> usable n max w -> rep rc rcs ->
  pushed c n (flushed w) (sm_counts (wb_sm w)) os kvs -> entries_ok rg kvs ->
  btree_build c rcinc os rc w = (w', out) ->
  match out with
  | Ok (root, _) =>
      root < n /\ exists depth foot, tree c (flushed w') true depth root kvs foot /\
      (forall x, sm_counts (wb_sm w') x = sm_counts (wb_sm w) x + occ x foot) /\
      (forall x, 0 < sm_counts (wb_sm w) x -> flushed w' x = flushed w x)
  | Err => build_failed n max bad (map snd kvs ++ rcs) w'
  | Panic => False
  end.
Proof.
  intros V R c rg rcinc rep bad n max w rc rcs os kvs w' out L Hcs Hm Hrc Hu Hr Hp Hok E.
  apply usable_env in Hu as [Hn He].
  assert (Hp' : pushed c n (wb_view w) (cnt w) os kvs).
  { pose proof (flushed_view n max w He) as Hfv.
    assert (HB : forall s k, prebuilt c n (flushed w) (sm_counts (wb_sm w)) s k -> prebuilt c n (wb_view w) (cnt w) s k).
    { intros s k (A & B & C & D & (h & F & G) & I). unfold prebuilt. conj; auto; try tauto. exists h. split; auto. eapply holds_ext; [|exact F]. auto. }
    assert (HP : forall os kvs, pushes c n (flushed w) (sm_counts (wb_sm w)) os kvs -> pushes c n (wb_view w) (cnt w) os kvs).
    { clear - HB. induction 1; constructor; auto. eapply Forall2_imp; [|eassumption]. auto. }
    destruct Hp as [Hp|(s & os' & -> & Hs & Hp)]; [left; auto|right]. exists s, os'. auto. }
  assert (wp (btree_build c rcinc os rc) w
     (fun w' r => env n max w' /\ fst r < n /\ (forall x, 0 < cnt w x -> wb_view w' x = wb_view w x) /\
        exists depth foot, tree c (wb_view w') true depth (fst r) kvs foot /\ (forall x, cnt w' x = cnt w x + occ x foot))
     (fun w' => build_failed n max bad (map snd kvs ++ rcs) w')) as Hwp.
  { unfold btree_build. apply wp_bind. eapply wp_mono.
    - eapply (build_ops_wp n max c rg rcinc rep bad w rcs rc (fun _ => True) os kvs); auto.
      apply Forall_forall. intros [k v|ns] _; cbn; auto. apply Forall_forall. auto.
    - intros w1 [ns rc1] Hb. cbn [fst snd] in *. apply wp_bind. eapply wp_mono.
      + eapply (build_btree_wp n max c rg rep w rcs (fun _ => True) kvs w1 ns rc1 false); eauto.
      + intros w2 root (He2 & Hb2 & Hfr & depth & foot & Ht & Hlt & _ & _ & Hcnt). apply wp_ret. cbn [fst snd]. conj; eauto.
      + intros w2 H. left. auto.
    - auto. }
  unfold wp in Hwp. rewrite E in Hwp. destruct out as [[root rc']| |]; auto. cbn [fst snd] in *.
  destruct Hwp as (He' & A & B & depth & foot & C & D). split; auto. exists depth, foot. conj; auto.
  - eapply flushed_tree; eauto.
  - intros x Hx. rewrite (flushed_view n max w'), (flushed_view n max w) by auto. apply B. auto.
Qed.

(** Every block of such a tree passes the strict reader the kernel's rules
    require: the root as a root, every other one as a non-root, which must be at
    least a third full. *)
Theorem C10_nodes_pass_strict_reader : forall V (c : codec V) d depth is_root b kvs foot x,
  tree c d is_root depth b kvs foot -> In x foot ->
  exists n, check_and_unpack_node c (mkblock x (d x)) false (is_root && (x =? b)) = Ok n.
Proof.
  assert (Hthird : forall m k : N, m / 2 <= k -> m / 3 <= k) by (intros; dlia).
  intros V c d depth. induction depth as [|dp IH]; intros is_root b kvs foot x H Hx; cbn [tree] in H.
  - destruct H as (h & ks & vs & Hh & H1 & -> & H2 & H3 & H4 & H5 & ->). destruct Hx as [<-|[]].
    rewrite N.eqb_refl, Bool.andb_true_r. exists (Leaf h ks vs). apply Hh. intros _ ->. cbn [get_header].
    rewrite H2, H3. apply Hthird. auto.
  - destruct H as (h & ch & subs & Hh & H2 & H3 & H4 & H5 & HF & -> & ->).
    assert (Hroot : exists n, check_and_unpack_node c (mkblock b (d b)) false is_root = Ok n).
    { eexists. apply Hh. intros _ ->. cbn [get_header]. rewrite H2, H3. apply Hthird. auto. }
    destruct (N.eqb_spec x b) as [->|Hne].
    + rewrite Bool.andb_true_r. auto.
    + destruct Hx as [Hx|Hx]; [congruence|]. rewrite Bool.andb_false_r. clear H2 H3 H4 H5 Hh Hroot.
      induction HF as [|kb sub ch subs (A & B & C) HF IHF]; cbn [map concat] in Hx; [destruct Hx|].
      apply in_app_or in Hx as [Hx|Hx]; auto. destruct (IH _ _ _ _ _ C Hx) as (n & Hn). exists n. exact Hn.
Qed.

(** C11.  On every tree the lenient reader can read, whose internal keys
    separate the children, lookup returns exactly the stored value. *)
Theorem C11_lookup : forall V (c : codec V) d depth b kvs fuel key,
  wf_tree c d depth b kvs -> (depth < fuel)%nat ->
  btree_lookup fuel c d true b key = Ok (assoc kvs key).
Proof. intros. apply lookup_spec with (depth := depth); auto. Qed.

(** A list of pairs is a finite map when its keys are distinct. *)
Theorem C11_assoc_is_membership : forall V (kvs : list (N * V)) k,
  increasing (map fst kvs) -> forall v, assoc kvs k = Some v <-> In (k, v) kvs.
Proof.
  intros V kvs k Hi v. apply increasing_NoDup in Hi. induction kvs as [|[k' v'] r IH]; cbn [assoc In]; [split; [discriminate|intros []]|].
  cbn [map fst] in Hi. inversion Hi; subst. destruct (N.eqb_spec k k') as [->|Hne].
  - split; [intros E; inversion E; auto|]. intros [E|Hin]; [inversion E; auto|]. exfalso. apply H1. apply (in_map fst) in Hin. exact Hin.
  - rewrite IH by auto. split; auto. intros [E|Hin]; auto. inversion E; congruence.
Qed.

(** C12.  Positioning the iterator and stepping it to the end yields exactly the
    entries in order. *)
Theorem C12_iterate : forall V (c : codec V) d depth b kvs fuel fuel',
  wf_tree c d depth b kvs -> (depth < fuel)%nat -> nlen kvs < N.of_nat fuel' ->
  (s <- it_left_most fuel c d b [] ;; it_collect fuel' c d s) = Ok kvs.
Proof. intros. eapply iterate_spec; eauto. Qed.

(** Trees made by the builder are such trees, so C09 + C11 + C12 compose. *)
Theorem C12_built_trees_readable : forall V (c : codec V) d depth root b kvs foot,
  tree c d root depth b kvs foot -> increasing (map fst kvs) ->
  (forall fuel key, (depth < fuel)%nat -> btree_lookup fuel c d true b key = Ok (assoc kvs key)) /\
  (forall fuel fuel', (depth < fuel)%nat -> nlen kvs < N.of_nat fuel' ->
     (s <- it_left_most fuel c d b [] ;; it_collect fuel' c d s) = Ok kvs).
Proof.
  intros V c d depth root b kvs foot H Hi. pose proof (tree_wf _ _ _ _ _ _ _ H Hi) as Hw. split; intros.
  - eapply lookup_spec; eauto.
  - eapply iterate_spec; eauto.
Qed.

(** C13.  A session builds runs of leaves, then trees out of values and
    references to those runs, and finally releases the runs.  If it succeeds,
    the flushed device holds trees with the contents asked for; every block's
    reference count has grown by exactly the number of pointers to it, a pointer
    being a root or an entry of an internal node ([I] lists the internal nodes of
    all the trees, and each occurs only once); the value counter has counted the
    values of each leaf that is reachable once, however often it is shared; and
    blocks in use before are untouched. *)
Theorem C13_session_accounting : forall V R (c : codec V) (rg : V -> Prop) (rcinc rcdec : V -> st R unit) rep bad n max w rc rcs os trees s out,
  lossless c rg -> N.of_nat (csize c) + 8 < 2 ^ 32 -> 4 <= calc_max_entries c ->
  counter_ok rg rcinc rep bad -> counter_undo rcdec rep -> usable n max w -> rep rc rcs ->
  plan rg [] os trees ->
  session c rcinc rcdec os (mkss w rc [] []) = (s, out) ->
  match out with
  | Ok _ =>
      exists depths,
        length depths = length (ss_roots s) /\
        Forall2 (fun rd kvs => fst rd < n /\ exists foot, tree c (flushed (ss_wb s)) true (snd rd) (fst rd) kvs foot)
                (combine (ss_roots s) depths) trees /\
        (let I := flat_map (fun rd => inner c (flushed (ss_wb s)) (snd rd) (fst rd)) (combine (ss_roots s) depths) in
         NoDup I /\
         forall x, sm_counts (wb_sm (ss_wb s)) x =
                   sm_counts (wb_sm w) x + occ x (ss_roots s ++ flat_map (children c (flushed (ss_wb s))) I)) /\
        (exists L, leaf_set c (flushed (ss_wb s)) (combine (ss_roots s) depths) L /\
                   rep (ss_rc s) (concat (map snd L) ++ rcs)) /\
        (forall x, 0 < sm_counts (wb_sm w) x -> flushed (ss_wb s) x = flushed w x)
  | Err => build_failed n max bad (all_values os trees ++ rcs) (ss_wb s)
  | Panic => False
  end.
Proof.
  intros V R c rg rcinc rcdec rep bad n max w rc rcs os trees s out L Hcs Hm Hrc Hdec Hu Hr Hp E.
  apply usable_env in Hu as [Hn He].
  assert (S0 : SI n max c rep w rcs [] [] [] [] w rc []).
  { constructor; auto; try constructor; try (intros ? []).
    - intros x. cbn. lia.
    - intros []. - cbn. intros [[]|[]]. }
  pose proof (steps_wp n max Hn c rg rcinc rep bad L Hcs Hm Hrc w rcs os [] trees [] [] [] [] w rc [] Hp (Forall2_nil _) S0 (within_refl [])) as Hs.
  unfold session, bindst in E. unfold wp in Hs. destruct (sess_steps c rcinc os (mkss w rc [] [])) as [s1 [u| |]]; [| |destruct Hs].
  2:{ injection E as <- <-. unfold failed in Hs. rewrite app_nil_r in Hs. exact Hs. }
  destruct Hs as (rks & ts & LS & Hro & S1 & Ht & new & Hnew & Hlt). cbn [app] in *.
  destruct (release_runs_spec n max Hn c rg rcinc rcdec rep bad Hcs Hm Hrc Hdec w rcs (ss_runs s1) rks (ss_roots s1) ts (ss_wb s1) (ss_rc s1) LS) as (w2 & rc2 & LS2 & E2 & S2); auto.
  { clear - Hro. unfold runs_ok in Hro. eapply Forall2_imp; [|exact Hro]. cbn; intros a b K; decompose [and] K; auto. }
  rewrite E2 in E. injection E as <- <-. cbn [ss_roots ss_wb ss_rc].
  pose proof (si_env _ _ _ _ _ _ _ _ _ _ _ _ _ S2) as He2. pose proof (flushed_view n max w2 He2) as Hfv.
  pose proof (si_trees _ _ _ _ _ _ _ _ _ _ _ _ _ S2) as HT.
  pose proof (Forall2_length _ _ _ HT) as Hlen.
  assert (HTf : Forall2 (tree_of c (flushed w2)) (ss_roots s1) ts).
  { eapply Forall2_imp; [|exact HT]. intros r t K. unfold tree_of in *. eapply tree_frame; [|exact K]. auto. }
  assert (HIL : flat_map (fun rd => inner c (flushed w2) (snd rd) (fst rd)) (combine (ss_roots s1) (map (fun t => fst (fst t)) ts)) = IL c (wb_view w2) (ss_roots s1) ts).
  { rewrite <- (IL_frame c (wb_view w2) (flushed w2) _ _ HT) by auto. unfold IL. clear. generalize (ss_roots s1) as roots.
    induction ts as [|t ts IH]; intros [|r roots]; cbn [combine map flat_map fst snd]; auto. f_equal. auto. }
  exists (map (fun t => fst (fst t)) ts). conj.
  - rewrite map_length. auto.
  - rewrite <- Ht. rewrite Hnew in HTf |- *. clear - HTf Hlt. revert ts HTf.
    induction Hlt as [|r new Hr Hlt IH]; intros ts HTf; inversion HTf; subst; cbn [combine map]; constructor; auto.
    cbn [fst snd]. split; auto. exists (snd y). exact H1.
  - cbv zeta. rewrite HIL. eapply IL_nodup; eauto.
  - cbv zeta. intros x. change (sm_counts (wb_sm w2) x) with (cnt w2 x). change (sm_counts (wb_sm w) x) with (cnt w x). rewrite HIL, (si_counts _ _ _ _ _ _ _ _ _ _ _ _ _ S2). cbn [map occ].
    rewrite (occs_pointers n Hn c Hcs Hm _ _ _ x HTf). rewrite (IL_frame c (wb_view w2) (flushed w2) _ _ HT) by auto. lia.
  - exists LS2. split; [|apply (si_rep _ _ _ _ _ _ _ _ _ _ _ _ _ S2)]. split; [apply (si_nodup _ _ _ _ _ _ _ _ _ _ _ _ _ S2)|].
    intros p. rewrite (si_in _ _ _ _ _ _ _ _ _ _ _ _ _ S2). cbn [RL]. unfold RL. cbn [combine map In].
    destruct (TL_frame c (wb_view w2) (flushed w2) _ _ HT) as [_ HTL]; [auto|]. rewrite <- HTL. unfold TL. rewrite in_flat_map. split.
    + intros [[]|((r & t) & K1 & K2)]. exists r, (fst (fst t)). cbn [fst snd] in K2. split; auto.
      clear - K1. revert ts K1. generalize (ss_roots s1) as roots. induction roots as [|a roots IH]; intros [|t0 ts] K1; cbn [combine map In] in *; auto.
      destruct K1 as [K1|K1]; [left; congruence|right; auto].
    + intros (r & dp & K1 & K2). right.
      assert (exists t, In (r, t) (combine (ss_roots s1) ts) /\ fst (fst t) = dp) as (t & K3 & K4).
      { clear - K1. revert ts K1. generalize (ss_roots s1) as roots. induction roots as [|a roots IH]; intros [|t0 ts] K1; cbn [combine map In] in *; try tauto.
        destruct K1 as [K1|K1]; [injection K1 as <- <-; eauto|]. destruct (IH _ K1) as (t & A & B). eauto. }
      exists (r, t). cbn [fst snd]. rewrite K4. auto.
  - intros x Hx. rewrite Hfv, (flushed_view n max w He). apply (si_frame _ _ _ _ _ _ _ _ _ _ _ _ _ S2). auto.
Qed.

(** The instance thin_restore uses: values are mappings, the counter is the data
    space map.  Afterwards the count of a data block is what it was plus the
    number of mappings to it in the distinct leaves. *)
Theorem C13_data_counts : forall n max nd dmax w base dsm os trees s,
  usable n max w -> nd < 2 ^ 64 -> mapping_rep nd dmax base dsm [] -> plan bt_range [] os trees ->
  session bt_codec mapping_inc mapping_dec os (mkss w dsm [] []) = (s, Ok tt) ->
  exists depths L, length depths = length (ss_roots s) /\
    leaf_set bt_codec (flushed (ss_wb s)) (combine (ss_roots s) depths) L /\
    forall x, sm_counts (ss_rc s) x = base x + occ x (map bt_block (concat (map snd L))).
Proof.
  intros n max nd dmax w base dsm os trees s Hu Hnd Hr Hp E.
  eapply (C13_session_accounting _ _ bt_codec bt_range mapping_inc mapping_dec (mapping_rep nd dmax base) (mapping_bad nd dmax base)) in E; eauto.
  - destruct E as (depths & A & _ & _ & (L & B & _ & _ & C) & _). exists depths, L. conj; auto. rewrite app_nil_r in C. auto.
  - apply bt_lossless.
  - reflexivity.
  - cbv. discriminate.
  - apply mapping_ok; auto.
  - apply mapping_undo.
Qed.

(** ** Concrete cases *)
Definition ex_w : wb := wb_new (fun _ => repeat 0 4096) (fun _ => true) (sm_new 16 255) 8 (fun _ => repeat 0 4096).
Example ex_w_usable : usable 16 255 ex_w.
Proof.
  unfold usable, ex_w, wb_new. cbn [wb_sm wb_queue wb_good wb_junk sm_new sm_nr sm_max sm_nalloc sm_counts sm_begin].
  assert (bytes (repeat 0 4096)).
  { unfold bytes. apply Forall_forall. intros x Hx. apply repeat_spec in Hx. subst. reflexivity. }
  assert (nlen (repeat 0 4096) = 4096) by (vm_compute; reflexivity).
  split; [reflexivity|]. split; [reflexivity|]. split; [reflexivity|]. split; [lia|]. split; [reflexivity|].
  split; [lia|]. split; [intros; lia|]. split; [constructor|]. split; auto.
Qed.
Example ex_hyps : lossless u64_codec (fun v => v < 2 ^ 64) /\ N.of_nat (csize u64_codec) + 8 < 2 ^ 32 /\
  4 <= calc_max_entries u64_codec /\ 4 <= calc_max_entries bt_codec /\ 4 <= calc_max_entries dd_codec /\
  4 <= calc_max_entries ie_codec /\
  counter_ok (V:=N) (fun v => v < 2 ^ 64) noop_inc (fun (_ : unit) _ => True) (fun _ _ => False) /\
  counter_ok bt_range mapping_inc (mapping_rep 100 255 (fun _ => 0)) (mapping_bad 100 255 (fun _ => 0)) /\
  mapping_rep 100 255 (fun _ => 0) (sm_new 100 255) [].
Proof.
  split; [apply u64_lossless|]. split; [reflexivity|]. split; [vm_compute; discriminate|]. split; [vm_compute; discriminate|].
  split; [vm_compute; discriminate|]. split; [vm_compute; discriminate|]. split; [constructor; auto|].
  split; [apply mapping_ok; reflexivity|].
  - split; [apply sm_new_inv; lia|]. split; [constructor|]. intros. reflexivity.
Qed.

(** 300 entries make two leaves and a root; lookup and iteration see them. *)
Definition ex_kvs : list (N * N) := map (fun i => (3 * i, i * i)) (nseq 0 300).
Example C09_example :
  match btree_build u64_codec noop_inc (map (fun kv => PushValue (fst kv) (snd kv)) ex_kvs) tt ex_w with
  | (w', Ok (root, _)) =>
      (root, btree_lookup 5 u64_codec (flushed w') true root 300, btree_lookup 5 u64_codec (flushed w') true root 301,
       (s <- it_left_most 5 u64_codec (flushed w') root [] ;; it_collect 400 u64_codec (flushed w') s))
      = (2, Ok (Some 10000), Ok None, Ok ex_kvs)
  | _ => False
  end.
Proof. vm_compute. reflexivity. Qed.

(** A run of two leaves shared by two trees. *)
Definition ex_ops : list (@sop N) := [Define ex_kvs; Tree [IRef 0]; Tree [IRef 0; IVal 5000 1]].
Example C13_example :
  plan (fun v => v < 2 ^ 64) [] ex_ops [ex_kvs; ex_kvs ++ [(5000, 1)]] /\
  match session u64_codec noop_inc (fun _ => ret tt) ex_ops (mkss ex_w tt [] []) with
  | (s, Ok tt) => (ss_roots s, map (sm_counts (wb_sm (ss_wb s))) (range 0 16)) = ([2; 4], [2; 1; 1; 1; 1; 0; 0; 0; 0; 0; 0; 0; 0; 0; 0; 0])
  | _ => False
  end.
Proof.
  split.
  - apply plan_define.
    + split; [|apply Forall_forall; intros [k v] Hx; unfold ex_kvs in Hx; apply in_map_iff in Hx as (i & E & Hi); inversion E; subst; apply in_nseq in Hi; cbn [fst snd]; nia].
      vm_compute. tauto.
    + apply plan_tree; [reflexivity| | |].
      * split; [|apply Forall_forall; intros [k v] Hx; unfold ex_kvs in Hx; apply in_map_iff in Hx as (i & E & Hi); inversion E; subst; apply in_nseq in Hi; cbn [fst snd]; nia].
        vm_compute. tauto.
      * intros i [].
      * eapply plan_tree; [reflexivity| | |constructor].
        -- split; [vm_compute; tauto|]. apply Forall_app. split; [|constructor; [cbn; lia|constructor]].
           apply Forall_forall; intros [k v] Hx; unfold ex_kvs in Hx; apply in_map_iff in Hx as (i & E & Hi); inversion E; subst; apply in_nseq in Hi; cbn [fst snd]; nia.
        -- intros i Hi. cbn [tl] in Hi. repeat (destruct Hi as [E|Hi]; [first [discriminate E|injection E as <-; discriminate]|]). destruct Hi.
  - vm_compute. reflexivity.
Qed.

(** ** What does not hold *)

(** After re-using a leaf the builder remembers only that leaf's first key, so a
    later value whose key lies inside the leaf is accepted, and the tree it makes
    is refused by the node reader. *)
Theorem C09_push_inside_reused_leaf_refuted :
  exists ops : list (@sop N),
    ops = [Define (map (fun i => (i, i)) (nseq 1 130)); Tree [IRef 0; IVal 5 7]] /\
    match session u64_codec noop_inc (fun _ => ret tt) ops (mkss ex_w tt [] []) with
    | (s, Ok tt) =>
        match ss_roots s with
        | [root] => check_and_unpack_node u64_codec (mkblock root (flushed (ss_wb s) root)) false true = Err
        | _ => False
        end
    | _ => False
    end.
Proof. eexists. split; [reflexivity|]. vm_compute. reflexivity. Qed.

(** An empty run cannot be re-used after other content: its (absent) first key
    counts as 0 and is refused. *)
Theorem C10_empty_run_after_content_refuted :
  exists ops : list (@sop N), ops = [Define []; Tree [IVal 5 7; IRef 0]] /\
    snd (session u64_codec noop_inc (fun _ => ret tt) ops (mkss ex_w tt [] [])) = Err.
Proof. eexists. split; [reflexivity|]. vm_compute. reflexivity. Qed.

Print Assumptions C09_build_contents.
Print Assumptions C10_build_shape.
Print Assumptions C10_nodes_pass_strict_reader.
Print Assumptions C11_lookup.
Print Assumptions C12_iterate.
Print Assumptions C13_session_accounting.
Print Assumptions C13_data_counts.
