(** What a dump that reports success has read. *)
From Verif Require Import Base Csum_Model Codec_Model Codec_Spec Codec_Proofs NodeCodec_Proofs SpaceMap_Model Utils_Model Utils_Spec Utils_Proofs
  Builder_Spec BtreeRead_Proofs Walker_Model Walker_Proofs ThinOut_Model ThinOut_Spec ThinOut_Proofs ThinCheck_Spec Runs_Model Runs_Spec
  Restore_Model Repair_Model RestoreDoc_Spec Dump_Model Dump_Spec DumpSound_Spec Dump_Proofs DumpDoc_Proofs Props_Runs.

(** The internal nodes above the leaves [ls], which are below [nr]. *)
Fixpoint inner_tree (nr : N) (eng : N -> option (list N)) (is_root : bool) (depth : nat) (b : N) (ls : list N) : Prop :=
  match depth with
  | O => ls = [b] /\ b < nr
  | S dp => exists h ks bs subs, node_on bt_codec eng is_root b (Internal h ks bs) /\ Forall2 (inner_tree nr eng false dp) bs subs /\ ls = concat subs
  end.

Section Sound.
Context (nr : N) (eng : N -> option (list N)).

Lemma lw_unpack_inv data r n : lw_unpack bt_codec false data r = Ok n -> metadata_block_type data = NODE /\ unpack_node_raw bt_codec data false r = Ok n.
Proof using. unfold lw_unpack. destruct (metadata_block_type data); try discriminate. auto. Qed.
Lemma lw_visit_inv all : forall krs bs sm sm' out, length krs = length bs -> lw_visit nr all krs bs sm = (sm', out, Ok tt) ->
  map snd out = bs /\ (bs <> [] -> existsb (fun v => nr <=? v) all = false).
Proof using.
  induction krs as [|kr krs IH]; intros [|b bs] sm sm' out HL H; try discriminate HL; cbn [lw_visit] in H.
  - injection H as _ <-. split; [auto|congruence].
  - destruct (rsm_inc sm b 1) as [sm1 [[]| |]]; try discriminate H. destruct (existsb _ all) eqn:Ex; [discriminate H|].
    destruct (lw_visit nr all krs bs sm1) as [[sm2 out2] r] eqn:E. injection H as _ <- ->. injection HL as HL.
    apply IH in E as [<- _]; [|exact HL]. split; auto.
Qed.
Lemma lw_node_inv : forall dp kr b data r sm sm' out, eng b = Some data -> lw_node bt_codec false nr eng dp kr data r sm = (sm', out, Ok tt) ->
  inner_tree nr eng r (S dp) b (map snd out).
Proof using.
  induction dp as [|dp IH]; intros kr b data r sm sm' out E H; cbn [lw_node] in H;
    destruct (lw_unpack bt_codec false data r) as [[h ks vs|h ks vs]| |] eqn:Eu; try discriminate H; apply lw_unpack_inv in Eu as [T U];
    destruct (split_key_ranges kr ks) as [krs| |] eqn:Es; try discriminate H;
    (assert (Hn : node_on bt_codec eng r b (Internal h ks vs)) by (exists data; conj; auto));
    pose proof (split_length _ _ _ Es) as HL; apply raw_facts in U as (_ & _ & HL2).
  - apply lw_visit_inv in H as [Ho Hx]; [|congruence]. exists h, ks, vs, (map (fun x => [x]) vs). conj; auto.
    + assert (HF : Forall (fun x => x < nr) vs).
      { destruct vs as [|v0 vs0] eqn:Ev; [constructor|]. rewrite <- Ev in *. assert (Hne : vs <> []) by (rewrite Ev; discriminate). specialize (Hx Hne). rewrite Forall_forall. intros x Hin.
        destruct (N.lt_ge_cases x nr) as [|Hge]; auto. exfalso.
        assert (existsb (fun v => nr <=? v) vs = true) by (apply existsb_exists; exists x; split; auto; apply N.leb_le; auto). congruence. }
      clear - HF. induction HF; cbn [map]; constructor; auto. cbn [inner_tree]. auto.
    + rewrite Ho. clear. induction vs; cbn; congruence.
  - destruct (negb _); [discriminate H|]. destruct (lw_sm_inc_all vs sm) as [sm1 [[]| |]]; try discriminate H.
    assert (HG : forall krs vs sm sm' out, length krs = length vs -> lw_children eng (fun kr data sm => lw_node bt_codec false nr eng dp kr data false sm) krs vs sm = (sm', out, Ok tt) ->
      exists subs, Forall2 (inner_tree nr eng false (S dp)) vs subs /\ map snd out = concat subs).
    { clear - IH. induction krs as [|kr krs IHk]; intros [|v vs] sm sm' out HL H; try discriminate HL; cbn [lw_children] in H.
      - injection H as _ <-. exists []. split; [constructor|reflexivity].
      - destruct (eng v) as [d|] eqn:Ev; [|discriminate H]. destruct (lw_node bt_codec false nr eng dp kr d false sm) as [[sm1 o1] [[]| |]] eqn:E1; try discriminate H.
        destruct (lw_children eng _ krs vs sm1) as [[sm2 o2] r2] eqn:E2. injection H as _ <- ->. injection HL as HL.
        apply (IH _ v) in E1; auto. apply IHk in E2 as (subs & A & B); auto. exists (map snd o1 :: subs). split; [constructor; auto|].
        rewrite map_app, B. reflexivity. }
    apply HG in H as (subs & A & B); [|congruence]. exists h, ks, vs, subs. auto.
Qed.
Lemma lw_walk_inv root sm sm' out : lw_walk bt_codec false nr eng root sm = (sm', out, Ok tt) -> exists depth, inner_tree nr eng true depth root (map snd out).
Proof using.
  unfold lw_walk. intros H. destruct (lw_depth bt_codec false eng _ root true) as [d| |] eqn:Ed; try discriminate H.
  destruct (lw_sm_inc root sm) as [sm1 [[]| |]]; try discriminate H. destruct d as [|d].
  - destruct (N.leb_spec nr root); [discriminate H|]. injection H as _ <-. exists O. cbn. auto.
  - destruct (eng root) as [data|] eqn:E; [|discriminate H]. exists (S d). eapply lw_node_inv; eauto.
Qed.
Lemma inner_lt : forall depth r b ls, inner_tree nr eng r depth b ls -> Forall (fun x => x < nr) ls.
Proof using.
  induction depth as [|dp IH]; intros r b ls H; cbn [inner_tree] in H; [destruct H as [-> H]; auto|].
  destruct H as (h & ks & bs & subs & _ & HF & ->). apply Forall_concat. clear - HF IH. induction HF; constructor; eauto.
Qed.

(** ** The leaves of the devices *)
Lemma collect_inv : forall roots sm m, collect_leaves nr eng roots sm = Ok m ->
  forall r es, map_get m r = Some es -> exists depth ls, es = map EnLeaf ls /\ inner_tree nr eng true depth r ls.
Proof using.
  induction roots as [|r0 roots IH]; intros sm m H r es Hg; cbn [collect_leaves] in H; [injection H as <-; discriminate Hg|].
  destruct (lw_walk bt_codec false nr eng r0 sm) as [[sm' out] [[]| |]] eqn:Ew; try discriminate H.
  destruct (collect_leaves nr eng roots sm') as [m1| |] eqn:E1; try discriminate H. cbn [bind] in H. injection H as <-. cbn [map_get] in Hg.
  destruct (N.eqb_spec r r0) as [->|]; [|eauto]. injection Hg as <-. apply lw_walk_inv in Ew as (d & Hd). exists d, (map snd out). rewrite map_map. auto.
Qed.
Definition dev_leaves (d : N * (N * device_detail)) (ls : list N) : Prop := exists depth, inner_tree nr eng true depth (fst (snd d)) ls.
Definition md_of (x : (N * (N * device_detail)) * list entry) : md_dev := mkmd (fst (fst x) mod 2 ^ 32) (snd (snd (fst x))) (snd x).
Lemma build_inv devs md : build_metadata_with_dev_ nr eng devs = Ok md ->
  exists Ls, Forall2 dev_leaves devs Ls /\ md = mkmeta [] (map md_of (combine devs (map (map EnLeaf) Ls))) nr.
Proof using.
  unfold build_metadata_with_dev_. intros H. destruct (collect_leaves nr eng _ _) as [m| |] eqn:Em; try discriminate H. cbn [bind] in H.
  destruct (build_devs m devs) as [ds| |] eqn:Eb; try discriminate H. cbn [bind] in H. injection H as <-.
  pose proof (collect_inv _ _ _ Em) as Hc. clear Em. revert ds Eb. induction devs as [|[id [root dt]] devs IH]; intros ds Eb; cbn [build_devs] in Eb.
  - injection Eb as <-. exists []. split; [constructor|reflexivity].
  - destruct (map_get m root) as [es|] eqn:Eg; [|discriminate Eb]. destruct (build_devs m devs) as [ds1| |]; try discriminate Eb. cbn [bind] in Eb. injection Eb as <-.
    destruct (IH ds1 eq_refl) as (Ls & A & B). injection B as ->. apply Hc in Eg as (d & ls & -> & Hd). exists (ls :: Ls). split; [constructor; auto; exists d; exact Hd|]. reflexivity.
Qed.

(** ** Everything printed was read *)
Definition readable (b : N) : Prop := leaf_is eng b (content_at eng b).
Lemma dump_leaf_is b data kvs : eng b = Some data -> dump_leaf data = Ok kvs -> readable b.
Proof using.
  intros E H. unfold readable, content_at. rewrite E, H. unfold dump_leaf in H. destruct (metadata_block_type data) eqn:T; try discriminate H.
  destruct (unpack_node_raw bt_codec data true true) as [[h ks vs|h ks vs]| |] eqn:U; try discriminate H. cbn [bind] in H. injection H as <-. exists data, h, ks, vs. auto.
Qed.
Lemma emit_leaves_read : forall ls run o, emit_leaves_ eng run ls = (o, Ok tt) -> Forall readable ls.
Proof using.
  induction ls as [|b ls IH]; intros run o H; [constructor|]. cbn [emit_leaves_] in H. destruct (eng b) as [data|] eqn:E; [|discriminate H].
  destruct (dump_leaf data) as [kvs| |] eqn:D; try discriminate H. destruct (mv_visit run kvs) as [run' o1]. destruct (emit_leaves_ eng run' ls) as [o2 x] eqn:E2.
  injection H as _ ->. constructor; [eapply dump_leaf_is; eauto|eauto].
Qed.
Lemma emit_read ls o : emit_leaves eng ls = (o, Ok tt) -> Forall readable ls.
Proof using. unfold emit_leaves. destruct (emit_leaves_ eng None ls) as [o' x] eqn:E. intros [= _ ->]. eapply emit_leaves_read; eauto. Qed.
Lemma emit_entries_read : forall es pend o, emit_entries_ eng pend es = (o, Ok tt) -> Forall readable (pend ++ flat_map leaf_of es).
Proof using.
  induction es as [|[b|n] es IH]; intros pend o H; cbn [emit_entries_] in H.
  - cbn [flat_map]. rewrite app_nil_r. destruct pend; [constructor|eapply emit_read; eauto].
  - apply IH in H. rewrite <- app_assoc in H. exact H.
  - destruct (match pend with [] => ([], Ok tt) | _ => emit_leaves eng pend end) as [o1 x] eqn:E1. destruct x as [[]| |]; try discriminate H.
    destruct (emit_entries_ eng [] es) as [o2 y] eqn:E2. injection H as _ ->. apply IH in E2. cbn [app flat_map leaf_of] in *. apply Forall_app. split; auto.
    destruct pend; [constructor|eapply emit_read; eauto].
Qed.
Lemma sections_read {A} (before : A -> event) entries after rest : forall l o, dump_sections eng before entries after l rest = (o, Ok tt) ->
  snd rest = Ok tt /\ forall x, In x l -> Forall readable (flat_map leaf_of (entries x)).
Proof using.
  induction l as [|x l IH]; intros o H; cbn [dump_sections] in H; [rewrite H; cbn; split; [auto|intros ? []]|].
  destruct (emit_entries eng (entries x)) as [o1 [[]| |]] eqn:E; try discriminate H. destruct (dump_sections eng before entries after l rest) as [o2 y] eqn:E2.
  injection H as _ ->. destruct (IH _ eq_refl) as [A1 A2]. split; auto. intros x' [<-|Hx]; auto. apply emit_entries_read in E. exact E.
Qed.

(** ** What the output says *)
Lemma defs_say rest : forall defs, (forall id es, In (id, es) defs -> exists l, es = map EnLeaf l /\ Forall (printable eng) l) ->
  exists secs, dump_sections eng (fun d => EvDefB (fst d)) snd EvDefE defs rest = (flat_map sect_events secs ++ fst rest, snd rest) /\
    definitions secs = defs_mean eng defs /\ Forall (fun x => exists name ms, x = SDef name ms) secs.
Proof using.
  induction defs as [|[id es] defs IH]; intros Hd; cbn [dump_sections].
  - exists []. conj; [destruct rest; reflexivity|reflexivity|constructor].
  - destruct IH as (secs & E & S & F); [intros; eapply Hd; right; eauto|]. destruct (Hd id es (or_introl eq_refl)) as (l & -> & Hl).
    destruct (print_def eng l Hl) as (ms & Em & Fm). cbn [fst snd]. rewrite Em, E. exists (SDef id ms :: secs). conj.
    + cbn [flat_map sect_events app]. rewrite <- !app_assoc. reflexivity.
    + cbn [definitions flat_map app defs_mean map fst snd]. f_equal; [|exact S]. f_equal. unfold def_maps. rewrite leaf_of_leaves. exact Fm.
    + constructor; eauto.
Qed.
Lemma devs_say D resolve : forall xs : list ((N * (N * device_detail)) * list entry),
  (forall d es, In (d, es) xs -> (forall b, In (EnLeaf b) es -> printable eng b) /\ (forall n, In (EnRef n) es -> assoc D n = Some (resolve n))) ->
  exists secs, dump_sections eng (fun d => EvDevB (dev_ir d)) md_entries EvDevE (map md_of xs) ([EvSbE; EvEof], Ok tt) = (flat_map sect_events secs ++ [EvSbE; EvEof], Ok tt) /\
    Forall2 (fun x s => exists its, s = SDev (dev_ir (md_of x)) its /\ content_entries D its = Some (flat_map (denote_entry (content_at eng) resolve) (snd x))) xs secs.
Proof using.
  induction xs as [|[d es] xs IH]; intros Hx; cbn [map dump_sections].
  - exists []. split; [reflexivity|constructor].
  - destruct IH as (secs & E & S); [intros d0 es0 Hi; exact (Hx d0 es0 (or_intror Hi))|]. destruct (Hx d es (or_introl eq_refl)) as (H1 & H2).
    destruct (print_entries eng D resolve es [] ltac:(constructor) H1 H2) as (its & A & B & _). cbn [flat_map app] in B.
    rewrite E. change (md_entries (md_of (d, es))) with es. unfold emit_entries. rewrite A. exists (SDev (dev_ir (md_of (d, es))) its :: secs). split.
    + cbn [flat_map sect_events app]. rewrite <- !app_assoc. reflexivity.
    + constructor; auto. exists its. auto.
Qed.
End Sound.
