(** The space map checkers on top of the walker. *)
From Verif Require Import Base Csum_Model Codec_Model Codec_Spec SpaceMap_Model SpaceMap_Spec SpaceMap_Proofs Utils_Model Utils_Proofs Pack_Proofs Builder_Spec
  Walker_Model Walker_Spec Walker_Proofs Props_Walker SmCheck_Model SmCheck_Spec SmCheck_Proofs WalkVisit_Proofs.

(** ** Walks keep the kind of map *)
Section K.
Context {V : Type} (c : codec V) (inf : bool) (eng : N -> option (list N)) (acc : list (wcall V) -> wcall V -> bool).
Definition keeps (s s' : wst V) : Prop := wvalid (w_sm s) -> wkind (w_sm s) (w_sm s') /\ wvalid (w_sm s').
Lemma keeps_same s s' : w_sm s' = w_sm s -> keeps s s'.
Proof. intros H Hv. rewrite H. unfold wkind. auto. Qed.
Lemma keeps_trans s1 s2 s3 : keeps s1 s2 -> keeps s2 s3 -> keeps s1 s3.
Proof. intros H1 H2 Hv. destruct (H1 Hv) as [(A & B & C) V1]. destruct (H2 V1) as [(A' & B' & C') V2]. split; auto. unfold wkind. conj; congruence. Qed.
Lemma keeps_inc b s s' r : w_sm_inc b s = (s', r) -> keeps s s'.
Proof. intros E Hv. destruct (w_sm_inc_spec b s s' r Hv E) as (_ & _ & K & W & _). auto. Qed.
Lemma see_keeps path : forall krs bs s s' errs todo, see_children acc path krs bs s = (s', errs, todo) -> keeps s s'.
Proof.
  induction krs as [|kr krs IH]; intros [|b bs] s s' errs todo E; try (injection E as <- _ _; apply keeps_same; auto; fail).
  cbn [see_children] in E. destruct (w_sm_inc b s) as [s1 rr] eqn:Ei. pose proof (keeps_inc _ _ _ _ Ei) as K.
  match type of E with context [match rr with Ok _ => _ | _ => _ end] => idtac end.
  match type of E with (match ?x with _ => _ end) = _ => destruct x as [[sa ea] ta] eqn:Ea end.
  destruct (see_children acc path krs bs sa) as [[sb eb] tb] eqn:Eb. injection E as <- _ _. apply IH in Eb.
  eapply keeps_trans; [exact K|]. eapply keeps_trans; [|exact Eb].
  destruct rr as [rc| |]; [destruct (rc =? 0); [|destruct (w_fail s1 b); [|unfold call in Ea; cbv beta iota zeta in Ea]]| |]; injection Ea as <- _ _; apply keeps_same; auto.
Qed.
Lemma agg_keeps b errs (s s' : wst V) r : build_aggregate b errs s = (s', r) -> keeps s s'.
Proof. destruct errs as [|e [|e' x]]; cbn; intros H; injection H as <- <-; apply keeps_same; auto. Qed.
Lemma walk_node_keeps fuel : forall path kr b data isr s s' r, walk_node c inf eng acc fuel path kr b data isr s = (s', r) -> keeps s s'.
Proof.
  induction fuel as [|fuel IH]; intros path kr b data isr s s' r E; cbn [walk_node] in E; [injection E as <- _; apply keeps_same; auto|].
  destruct (check_and_unpack_node c (mkblock b data) inf isr) as [[h ks vs|h ks vs]| |]; try (injection E as <- _; apply keeps_same; auto; fail).
  - destruct (split_key_ranges kr ks) as [krs| |]; try (injection E as <- _; apply keeps_same; auto; fail).
    destruct (see_children acc (path ++ [b]) krs vs s) as [[s1 errs1] todo] eqn:E1. apply see_keeps in E1.
    match type of E with (let '(s2, errs2) := walk_list eng ?f _ _ _ in _) = _ => set (fy := f) in * end.
    assert (HL : forall todo s1 s2 errs, walk_list eng fy (path ++ [b]) todo s1 = (s2, errs) -> keeps s1 s2).
    { clear - IH. induction todo as [|[kr b'] todo IHt]; intros sx sy errs H; cbn [walk_list] in H.
      - injection H as <- _. apply keeps_same; auto.
      - destruct (eng b') as [data|].
        + destruct (fy kr b' data sx) as [s3 e] eqn:Ew. destruct (walk_list eng fy (path ++ [b]) todo s3) as [s4 es] eqn:E4.
          injection H as <- _. eapply keeps_trans; [eapply IH; exact Ew|eapply IHt; exact E4].
        + destruct (walk_list eng fy (path ++ [b]) todo _) as [s4 es] eqn:E4. injection H as <- _. apply IHt in E4.
          eapply keeps_trans; [|exact E4]. apply keeps_same; auto. }
    destruct (walk_list eng fy (path ++ [b]) todo s1) as [s2 errs2] eqn:E2. apply HL in E2. apply agg_keeps in E.
    eapply keeps_trans; [exact E1|]. eapply keeps_trans; eauto.
  - unfold call in E. cbv beta iota zeta in E. destruct (acc (w_log s) _); injection E as <- _; apply keeps_same; auto.
Qed.
Lemma walk_keeps path root s s' r : walk c inf eng acc path root s = (s', r) -> keeps s s'.
Proof.
  unfold walk. destruct (w_sm_inc root s) as [s1 rr] eqn:Ei. pose proof (keeps_inc _ _ _ _ Ei) as K. intros E.
  eapply keeps_trans; [exact K|]. clear Ei K.
  destruct rr as [rc| |]; try (injection E as <- _; apply keeps_same; auto; fail).
  destruct (0 <? rc).
  - destruct (w_fail s1 root) as [e|]; unfold call in E; cbv beta iota zeta in E;
    repeat match type of E with context [acc ?a ?b] => destruct (acc a b) end; injection E as <- _; apply keeps_same; auto.
  - destruct (eng root) as [data|]; [|injection E as <- _; apply keeps_same; auto].
    destruct (walk_node c inf eng acc _ path full_range root data true s1) as [s2 e] eqn:Ew. apply walk_node_keeps in Ew.
    unfold call in E. cbv beta iota zeta in E. eapply keeps_trans; [exact Ew|].
    destruct e; repeat match type of E with context [acc ?a ?b] => destruct (acc a b) end; injection E as <- _; apply keeps_same; auto.
Qed.
End K.

(** ** Core maps that agree on everything a caller sees *)
Lemma counted_in_dec l b : NoDup l -> counted l b = if in_dec N.eq_dec b l then 1 else 0.
Proof.
  intros H. unfold counted. destruct (in_dec N.eq_dec b l) as [Hi|Hi].
  - rewrite (proj1 (NoDup_count_occ' N.eq_dec l) H b Hi). auto.
  - rewrite (proj1 (count_occ_not_In N.eq_dec l b) Hi). auto.
Qed.
Lemma with_blocks_valid l sm sm' : core_valid sm -> fresh sm l -> with_blocks l sm sm' -> core_valid sm'.
Proof.
  intros (A & B & C) (HN & HF) (N1 & M1 & C1). unfold core_valid. rewrite N1, M1. conj; auto. intros b Hb. rewrite C1 by auto.
  rewrite counted_in_dec by auto. specialize (C b Hb). destruct (in_dec N.eq_dec b l) as [Hi|]; [destruct (HF b Hi)|]; lia.
Qed.
Lemma with_blocks_trans l m sm1 sm2 sm3 : with_blocks l sm1 sm2 -> with_blocks m sm2 sm3 -> with_blocks (l ++ m) sm1 sm3.
Proof.
  intros (A & B & C) (A' & B' & C'). unfold with_blocks. conj; try congruence. intros b Hb. rewrite C', C by congruence.
  unfold counted. rewrite count_occ_app. lia.
Qed.
Lemma fresh_after l m sm sm' : fresh sm (l ++ m) -> with_blocks l sm sm' -> fresh sm l /\ fresh sm' m.
Proof.
  intros (HN & HF) (N1 & _ & C1). split.
  - split; [apply NoDup_app_iff_local in HN; tauto|]. intros; apply HF, in_or_app; auto.
  - split; [apply NoDup_app_iff_local in HN; tauto|]. intros b Hb. destruct (HF b (in_or_app _ _ _ (or_intror Hb))) as [A B]. split; [congruence|].
    rewrite C1 by auto. rewrite B. unfold counted. rewrite (proj1 (count_occ_not_In N.eq_dec l b)); auto.
    intros Hi. apply NoDup_app_iff_local in HN as (_ & _ & HN). eapply HN; eauto.
Qed.
Lemma fresh_none sm : fresh sm [].
Proof. split; [constructor|intros b []]. Qed.

(** ** Index entries *)
Lemma inc_one sm b : core_valid sm -> b < sm_nr sm -> sm_counts sm b < sm_max sm ->
  exists sm', sm_inc sm b 1 = (sm', Ok tt) /\ with_blocks [b] sm sm'.
Proof.
  intros (A & B & C) Hb Hc. unfold sm_inc. rewrite N.mod_small by (unfold W64 in *; lia).
  destruct (N.ltb_spec (sm_nr sm) (b + 1)); [lia|]. rewrite range_cons, (range_nil (b + 1)) by lia. cbn [sm_inc_loop].
  destruct (N.leb_spec (sm_max sm) (sm_counts sm b)); [lia|]. eexists. split; [reflexivity|]. unfold with_blocks. cbn [sm_nr sm_max sm_counts].
  conj; auto. intros x Hx. rewrite upd_spec, counted_cons, counted_nil. rewrite N.eqb_sym. destruct (N.eqb_spec b x); [subst|]; lia.
Qed.
Lemma inc_entries_spec : forall ies sm, core_valid sm -> fresh sm (map ie_blocknr ies) ->
  exists sm', inc_entries sm ies = (sm', Ok tt) /\ with_blocks (map ie_blocknr ies) sm sm'.
Proof.
  induction ies as [|ie ies IH]; intros sm HV HF; cbn [map inc_entries].
  - exists sm. split; auto. unfold with_blocks. conj; auto. intros; rewrite counted_nil; lia.
  - cbn [map] in HF. change (ie_blocknr ie :: map ie_blocknr ies) with ([ie_blocknr ie] ++ map ie_blocknr ies) in HF.
    destruct (proj2 HF (ie_blocknr ie)) as [Hb Hz]; [left; auto|].
    destruct (inc_one sm (ie_blocknr ie) HV Hb) as (s1 & E1 & W1); [destruct HV as (_ & ? & _); lia|].
    rewrite E1. destruct (fresh_after _ _ _ _ HF W1) as [F1 F2].
    destruct (IH s1 (with_blocks_valid _ _ _ HV F1 W1) F2) as (s2 & E2 & W2). rewrite E2. exists s2. split; auto.
    exact (with_blocks_trans _ _ _ _ _ W1 W2).
Qed.

(** ** Trees *)
Lemma tree_on_core {V} (c : codec V) inf eng d depth root kvs foot sm :
  tree c d true depth root kvs foot -> increasing (map fst kvs) -> core_valid sm -> fresh sm foot -> (forall b, In b foot -> eng b = Some (d b)) ->
  exists s' calls sm', walk c inf eng (fun _ _ => true) [0] root (walker_on sm) = (s', None) /\
    w_log s' = calls ++ [CEnd] /\ flat_map call_entries calls = kvs /\ Forall leaf_call calls /\
    w_sm s' = WCore sm' /\ with_blocks foot sm sm'.
Proof.
  intros HT Hi HV (HN & HF) He.
  destruct (undamaged_walk c inf eng d depth root kvs foot [0] (walker_on sm) HT HN Hi) as (s' & calls & E & L & K & Hlc & _ & _ & Hc).
  { unfold map_ok, walker_on. cbn [w_sm wsm_nr wmax wcount]. exact HV. }
  { intros b Hb. unfold walker_on. cbn [w_sm wsm_nr wcount]. destruct (HF b Hb). auto. }
  unfold accept_all in E. pose proof (walk_keeps c inf eng _ _ _ _ _ _ E HV) as [(A & B & C) _].
  unfold walker_on in *. cbn [w_sm wsm_nr wmax wcount w_log wrestr app] in *.
  destruct (w_sm s') as [sm'|m] eqn:Es; [|discriminate]. cbn [wsm_nr wmax wcount] in *.
  exists s', calls, sm'. conj; auto. unfold with_blocks. conj; auto. intros b Hb. rewrite Hc, counted_in_dec by auto. auto.
Qed.
Lemma collect_calls {V} (calls : list (wcall V)) kvs : increasing (map fst kvs) -> flat_map call_entries calls = kvs ->
  collect_values (calls ++ [CEnd]) = kvs.
Proof. intros Hi K. unfold collect_values. rewrite fold_left_app. cbn [fold_left]. rewrite collect_log; cbn [app]; rewrite K; auto. Qed.

(** ** Large counts *)
Lemma overflow_visit_iff sm : forall kvs, overflow_visit sm kvs = Ok tt <-> matches sm kvs.
Proof.
  induction kvs as [|[k v] kvs IH]; cbn [overflow_visit].
  - split; [intros _ k v []|auto].
  - unfold sm_get. split.
    + destruct (N.leb_spec (sm_nr sm) k); [discriminate|]. destruct (N.eqb_spec (sm_counts sm k) v); cbn [negb]; [|discriminate].
      intros HO k' v' [Hx|Hx]; [injection Hx as <- <-; auto|]. apply IH; auto.
    + intros H. destruct (H k v (or_introl eq_refl)) as [A B]. destruct (N.leb_spec (sm_nr sm) k); [lia|].
      destruct (N.eqb_spec (sm_counts sm k) v); [|congruence]. cbn [negb]. apply IH. intros k' v' Hx. apply H. right; auto.
Qed.
Lemma overflow_call_iff sm x : overflow_call sm x = Ok tt <-> matches sm (call_entries x).
Proof. destruct x; cbn [overflow_call call_entries]; [apply overflow_visit_iff| |]; (split; [intros _ k v []|auto]). Qed.
Lemma matches_flat sm calls : matches sm (flat_map call_entries calls) <-> Forall (fun x => overflow_call sm x = Ok tt) calls.
Proof.
  split.
  - intros H. apply Forall_forall. intros x Hx. apply overflow_call_iff. intros k v Hk. apply H. apply in_flat_map. eauto.
  - intros HF k v Hk. apply in_flat_map in Hk as (x & Hx & Hk). rewrite Forall_forall in HF. apply HF in Hx. apply overflow_call_iff in Hx. auto.
Qed.
(** A walk that compares, of an undamaged tree. *)
Lemma compare_walk sm inf eng root s s' calls kvs :
  walk u32_codec inf eng (fun _ _ => true) [0] root s = (s', None) -> w_log s = [] -> w_log s' = calls ++ [CEnd] -> flat_map call_entries calls = kvs ->
  (matches sm kvs -> walk u32_codec inf eng (overflow_accepts sm) [0] root s = (s', None) /\ panicked sm (w_log s') = false) /\
  (forall s2, walk u32_codec inf eng (overflow_accepts sm) [0] root s = (s2, None) -> s2 = s' /\ matches sm kvs).
Proof.
  intros E L0 L K. set (acc := fun x => match overflow_call sm x with Ok _ => true | _ => false end).
  change (overflow_accepts sm) with (fun (_ : list (wcall N)) x => acc x).
  assert (Ha : forall x, acc x = true <-> overflow_call sm x = Ok tt).
  { intros x. unfold acc. destruct (overflow_call sm x) as [[]| |]; split; auto; discriminate. }
  split.
  - intros HM. rewrite <- K in HM. apply matches_flat in HM. split.
    + eapply (WalkVisit_Proofs.walk_same u32_codec inf eng acc); [exact E|rewrite L0; exact L|]. rewrite removelast_last.
      eapply Forall_impl; [|exact HM]. intros x Hx. apply Ha; auto.
    + rewrite L. unfold panicked. rewrite existsb_app. cbn. rewrite orb_false_r.
      destruct (existsb _ calls) eqn:Ex; auto. apply existsb_exists in Ex as (x & Hx & Hp). rewrite Forall_forall in HM. rewrite (HM x Hx) in Hp. discriminate.
  - intros s2 E2. destruct (walk_sound u32_codec inf eng acc _ _ _ _ E2) as (E3 & new & Ln & HF). rewrite E in E3. injection E3 as <-.
    split; auto. rewrite L0, L in Ln. cbn [app] in Ln. apply app_inj_tail in Ln as [<- _]. rewrite <- K. apply matches_flat.
    eapply Forall_impl; [|exact HF]. intros x Hx. apply Ha; auto.
Qed.

(** ** The data space map *)
Lemma check_disk_iff eng inf d root dsm msm depth depth' ikvs kvs foot foot' :
  blocks_ok eng -> core_valid msm ->
  tree ie_codec d true depth' (sr_bitmap_root root) ikvs foot' -> increasing (map fst ikvs) ->
  tree u32_codec d true depth (sr_ref_count_root root) kvs foot -> increasing (map fst kvs) ->
  (forall b, In b (foot' ++ foot) -> eng b = Some (d b)) ->
  fresh msm (foot' ++ map ie_blocknr (map snd ikvs) ++ foot) ->
  forall n lks,
  (exists msm', check_disk_space_map (sm_nr msm) eng inf root dsm msm = (msm', Ok (n, lks)) /\
     with_blocks (foot' ++ map ie_blocknr (map snd ikvs) ++ foot) msm msm') <->
  matches dsm kvs /\ check_low_ref_counts eng dsm (map snd ikvs) = Ok (n, lks).
Proof.
  intros Hb HV HT' Hi' HT Hi He HF n lks. unfold check_disk_space_map. rewrite N.eqb_refl. cbn [negb].
  set (ies := map snd ikvs) in *.
  assert (F1 : fresh msm foot'). { destruct HF as [HN HF]. split; [apply NoDup_app_iff_local in HN; tauto|]. intros; apply HF, in_or_app; auto. }
  destruct (tree_on_core ie_codec inf eng d depth' _ ikvs foot' msm HT' Hi' HV F1) as (s1 & calls1 & m1 & E1 & L1 & K1 & _ & S1 & W1).
  { intros b Hx. apply He, in_or_app; auto. }
  rewrite E1, L1, S1. rewrite (collect_calls calls1 ikvs Hi' K1). fold ies. cbn [core_of].
  destruct (fresh_after _ _ _ _ HF W1) as [_ F2]. pose proof (with_blocks_valid _ _ _ HV F1 W1) as V1.
  assert (F2' : fresh m1 (map ie_blocknr ies)). { destruct F2 as [HN HX]. split; [apply NoDup_app_iff_local in HN; tauto|]. intros; apply HX, in_or_app; auto. }
  destruct (inc_entries_spec ies m1 V1 F2') as (m2 & E2 & W2). rewrite E2.
  destruct (fresh_after _ _ _ _ F2 W2) as [_ F3]. pose proof (with_blocks_valid _ _ _ V1 F2' W2) as V2.
  destruct (tree_on_core u32_codec inf eng d depth _ kvs foot m2 HT Hi V2 F3) as (s3 & calls3 & m3 & E3 & L3 & K3 & _ & S3 & W3).
  { intros b Hx. apply He, in_or_app; auto. }
  destruct (compare_walk dsm inf eng _ (walker_on m2) s3 calls3 kvs E3 eq_refl L3 K3) as [H1 H2].
  split.
  - intros (msm' & E & _). destruct (walk u32_codec inf eng (overflow_accepts dsm) [0] (sr_ref_count_root root) (walker_on m2)) as [s4 e] eqn:E4.
    destruct (panicked dsm (w_log s4)); [discriminate|]. destruct e; [discriminate|]. destruct (H2 s4 eq_refl) as [_ HM]. split; auto.
    injection E as _ E. exact E.
  - intros [HM HL]. destruct (H1 HM) as [-> ->]. rewrite HL. rewrite S3. cbn [core_of]. exists m3. split; auto.
    eapply with_blocks_trans; [exact W1|]. eapply with_blocks_trans; [exact W2|exact W3].
Qed.

Lemma check_disk_ok eng inf d root dsm msm depth depth' ikvs kvs foot foot' :
  blocks_ok eng -> core_valid msm ->
  tree ie_codec d true depth' (sr_bitmap_root root) ikvs foot' -> increasing (map fst ikvs) ->
  tree u32_codec d true depth (sr_ref_count_root root) kvs foot -> increasing (map fst kvs) ->
  (forall b, In b (foot' ++ foot) -> eng b = Some (d b)) ->
  fresh msm (foot' ++ map ie_blocknr (map snd ikvs) ++ foot) ->
  forall n lks,
  forall msm', check_disk_space_map (sm_nr msm) eng inf root dsm msm = (msm', Ok (n, lks)) ->
  with_blocks (foot' ++ map ie_blocknr (map snd ikvs) ++ foot) msm msm' /\
  matches dsm kvs /\ check_low_ref_counts eng dsm (map snd ikvs) = Ok (n, lks).
Proof.
  intros Hb HV HT' Hi' HT Hi He HF n lks msm'. unfold check_disk_space_map. rewrite N.eqb_refl. cbn [negb].
  set (ies := map snd ikvs) in *.
  assert (F1 : fresh msm foot'). { destruct HF as [HN HF]. split; [apply NoDup_app_iff_local in HN; tauto|]. intros; apply HF, in_or_app; auto. }
  destruct (tree_on_core ie_codec inf eng d depth' _ ikvs foot' msm HT' Hi' HV F1) as (s1 & calls1 & m1 & E1 & L1 & K1 & _ & S1 & W1).
  { intros b Hx. apply He, in_or_app; auto. }
  rewrite E1, L1, S1. rewrite (collect_calls calls1 ikvs Hi' K1). fold ies. cbn [core_of].
  destruct (fresh_after _ _ _ _ HF W1) as [_ F2]. pose proof (with_blocks_valid _ _ _ HV F1 W1) as V1.
  assert (F2' : fresh m1 (map ie_blocknr ies)). { destruct F2 as [HN HX]. split; [apply NoDup_app_iff_local in HN; tauto|]. intros; apply HX, in_or_app; auto. }
  destruct (inc_entries_spec ies m1 V1 F2') as (m2 & E2 & W2). rewrite E2.
  destruct (fresh_after _ _ _ _ F2 W2) as [_ F3]. pose proof (with_blocks_valid _ _ _ V1 F2' W2) as V2.
  destruct (tree_on_core u32_codec inf eng d depth _ kvs foot m2 HT Hi V2 F3) as (s3 & calls3 & m3 & E3 & L3 & K3 & _ & S3 & W3).
  { intros b Hx. apply He, in_or_app; auto. }
  destruct (compare_walk dsm inf eng _ (walker_on m2) s3 calls3 kvs E3 eq_refl L3 K3) as [H1 H2].
  intros E. destruct (walk u32_codec inf eng (overflow_accepts dsm) [0] (sr_ref_count_root root) (walker_on m2)) as [s4 e] eqn:E4.
  destruct (panicked dsm (w_log s4)); [discriminate|]. destruct e; [discriminate|]. destruct (H2 s4 eq_refl) as [_ HM].
  assert (HL : check_low_ref_counts eng dsm ies = Ok (n, lks)) by congruence.
  split; [|auto]. destruct (H1 HM) as [E5 E6]. assert (Es : s4 = s3) by congruence. subst s4.
  assert (Em : core_of (w_sm s3) m2 = msm') by congruence. rewrite <- Em, S3. cbn [core_of].
  eapply with_blocks_trans; [exact W1|]. eapply with_blocks_trans; [exact W2|exact W3].
Qed.

(** ** The metadata space map *)
Lemma check_metadata_iff eng inf d root msm depth kvs foot ies :
  blocks_ok eng -> core_valid msm ->
  tree u32_codec d true depth (sr_ref_count_root root) kvs foot -> increasing (map fst kvs) ->
  (forall b, In b (foot ++ [sr_bitmap_root root]) -> eng b = Some (d b)) ->
  load_metadata_index (mkblock (sr_bitmap_root root) (d (sr_bitmap_root root))) (sr_nr_blocks root) = Ok (mkmi (sr_bitmap_root root) ies) ->
  fresh msm (foot ++ [sr_bitmap_root root] ++ map ie_blocknr ies) ->
  exists msm' out, check_metadata_space_map (sm_nr msm) eng inf root msm = (msm', out) /\
    with_blocks (foot ++ [sr_bitmap_root root] ++ map ie_blocknr ies) msm msm' /\
    forall n lks, out = Ok (n, lks) <-> matches msm' kvs /\ check_low_ref_counts eng msm' ies = Ok (n, lks).
Proof.
  intros Hb HV HT Hi He HL HF. unfold check_metadata_space_map. rewrite N.eqb_refl. cbn [negb]. unfold count_btree_blocks.
  assert (F1 : fresh msm foot). { destruct HF as [HN HF]. split; [apply NoDup_app_iff_local in HN; tauto|]. intros; apply HF, in_or_app; auto. }
  destruct (tree_on_core u32_codec false eng d depth _ kvs foot msm HT Hi HV F1) as (s1 & calls1 & m1 & E1 & L1 & K1 & _ & S1 & W1).
  { intros b Hx. apply He, in_or_app; auto. }
  unfold walker_on in E1. rewrite E1, S1. cbn [core_of].
  rewrite (He (sr_bitmap_root root)) by (apply in_or_app; right; left; auto). rewrite HL. cbn [mi_indexes].
  destruct (fresh_after _ _ _ _ HF W1) as [_ F2]. pose proof (with_blocks_valid _ _ _ HV F1 W1) as V1.
  destruct (proj2 F2 (sr_bitmap_root root)) as [Hr Hz]; [left; auto|].
  destruct (inc_one m1 (sr_bitmap_root root) V1 Hr) as (m2 & E2 & W2); [destruct V1 as (_ & ? & _); lia|]. rewrite E2.
  destruct (fresh_after _ _ _ _ F2 W2) as [F2' F3]. pose proof (with_blocks_valid _ _ _ V1 F2' W2) as V2.
  destruct (inc_entries_spec ies m2 V2 F3) as (m3 & E3 & W3). rewrite E3.
  assert (HW : with_blocks (foot ++ [sr_bitmap_root root] ++ map ie_blocknr ies) msm m3).
  { eapply with_blocks_trans; [exact W1|]. eapply with_blocks_trans; [exact W2|exact W3]. }
  destruct (undamaged_walk u32_codec inf eng d depth (sr_ref_count_root root) kvs foot [0] (walker_new (sm_nr msm)) HT (proj1 F1) Hi) as (s4 & calls4 & E4 & L4 & K4 & _).
  { unfold map_ok, walker_new, rsm_new. cbn [w_sm wsm_nr wmax wcount r_nr r_bits]. split; [destruct HV; auto|split; [lia|intros; lia]]. }
  { intros b Hx. cbn. destruct (proj2 F1 b Hx). conj; auto. apply He, in_or_app; auto. }
  unfold accept_all in E4. change (w_log (walker_new (sm_nr msm))) with (@nil (wcall N)) in L4. cbn [app] in L4.
  destruct (compare_walk m3 inf eng _ (walker_new (sm_nr msm)) s4 calls4 kvs E4 eq_refl L4 K4) as [H1 H2].
  destruct (walk u32_codec inf eng (overflow_accepts m3) [0] (sr_ref_count_root root) (walker_new (sm_nr msm))) as [s5 e] eqn:E5.
  destruct (panicked m3 (w_log s5)) eqn:Ep.
  - exists m3, Panic. conj; auto. intros n lks. split; [discriminate|]. intros [HM _]. destruct (H1 HM) as [HX HP]. injection HX as -> _. congruence.
  - destruct e as [e|].
    + exists m3, Err. conj; auto. intros n lks. split; [discriminate|]. intros [HM _]. destruct (H1 HM) as [HX _]. discriminate.
    + exists m3, (check_low_ref_counts eng m3 ies). conj; auto. intros n lks. destruct (H2 s5 eq_refl) as [_ HM]. tauto.
Qed.
