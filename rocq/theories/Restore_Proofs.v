(** thin_restore: control flow (C21) and the order of device writes (C20). *)
From Verif Require Import Base Csum_Model Codec_Model SpaceMap_Model Batcher_Model Builder_Model Session_Model
  ThinOut_Model Walker_Model SmWrite_Model Restore_Model Restore_Spec RestoreSafe_Proofs.

(** ** Control state *)
Record ctl := mkctl { c_sec : section; c_cur : option bool; c_dev : bool; c_sb : bool }.
Definition ctl_of (s : rstate) : ctl :=
  mkctl (r_sec s) (match r_cur s with Some (m, _) => Some (is_def m) | None => None end)
        (match r_dev s with Some _ => true | None => false end) (match r_sb s with Some _ => true | None => false end).
Definition ctl_step (e : event) (c : ctl) : option ctl :=
  match e with
  | EvSbB _ => if sec_eqb (c_sec c) InNone then Some (mkctl InSuperblock (c_cur c) (c_dev c) true) else None
  | EvSbE => if c_sb c then Some (mkctl Finalized (c_cur c) (c_dev c) false) else None
  | EvDefB _ => match c_cur c with None => if sec_eqb (c_sec c) InSuperblock then Some (mkctl InDef (Some true) (c_dev c) (c_sb c)) else None | _ => None end
  | EvDefE => match c_cur c with Some true => Some (mkctl InSuperblock None (c_dev c) (c_sb c)) | _ => None end
  | EvDevB _ => match c_cur c with None => if sec_eqb (c_sec c) InSuperblock then Some (mkctl InDevice (Some false) true (c_sb c)) else None | _ => None end
  | EvDevE => match c_cur c with Some false => if c_dev c then Some (mkctl InSuperblock None false (c_sb c)) else None | _ => None end
  | EvMap _ => match c_cur c with Some _ => Some c | None => None end
  | EvRef _ => match c_cur c with Some _ => if c_dev c then Some c else None | None => None end
  | EvEof => if sec_eqb (c_sec c) Finalized then Some c else None
  end.

Lemma bindst_ok {S A B} (m : st S A) (f : A -> st S B) s s' b : bindst m f s = (s', Ok b) ->
  exists s1 a, m s = (s1, Ok a) /\ f a s1 = (s', Ok b).
Proof. unfold bindst. destruct (m s) as [s1 [a| |]]; try discriminate. eauto. Qed.
Lemma lift_ok {S A} (r : res A) (s s' : S) a : lift r s = (s', Ok a) -> s' = s /\ r = Ok a.
Proof. unfold lift. intros H. inversion H; auto. Qed.
Lemma on_w_ok {A} (m : st wb A) s s' a : on_w m s = (s', Ok a) -> exists w, m (r_w s) = (w, Ok a) /\ s' = set_w w s.
Proof. unfold on_w. destruct (m (r_w s)) as [w r] eqn:E. intros H. injection H as <- ->. eauto. Qed.
Lemma on_builder_ok {A} b (m : st _ A) s s' a b' : on_builder b m s = (s', Ok (a, b')) ->
  exists d w, r_dsm s = Some d /\ m (r_w s, mknb (nb_values b) (nb_nodes b) (nb_last b) d) = ((w, b'), Ok a) /\
    s' = set_dsm (Some (nb_rc b')) (set_w w s).
Proof.
  unfold on_builder. destruct (r_dsm s) as [d|]; try discriminate. destruct (m _) as [[w b''] [x| |]] eqn:E; try discriminate.
  intros H. injection H as <- <- <-. exists d, w. auto.
Qed.
Tactic Notation "bo" hyp(H) "as" ident(s) ident(a) ident(E) := apply bindst_ok in H as (s & a & E & H).
Lemma check_ok sec s s' u : check_section sec s = (s', Ok u) -> s' = s /\ sec_eqb (r_sec s) sec = true.
Proof. unfold check_section, get, bindst. destruct (sec_eqb _ _); [|discriminate]. intros H. injection H as <- _. auto. Qed.
Lemma begin_ok sec s s' u : begin_section sec s = (s', Ok u) -> r_cur s = None /\ exists d, r_dsm s = Some d /\ s' = set_cur (Some (sec, nb_new d)) s.
Proof.
  unfold begin_section, get, bindst. destruct (r_cur s); [discriminate|]. destruct (r_dsm s) as [d|]; [|discriminate].
  intros H. injection H as <- _. split; auto. exists d. auto.
Qed.
Lemma end_ok s s' sec ns : end_section s = (s', Ok (sec, ns)) ->
  exists b d w b', r_cur s = Some (sec, b) /\ r_dsm s = Some d /\
    nb_complete bt_codec (leaf_io block_time) (is_def sec) mapping_inc (r_w s, mknb (nb_values b) (nb_nodes b) (nb_last b) d) = ((w, b'), Ok ns) /\
    s' = set_dsm (Some (nb_rc b')) (set_w w (set_cur None s)).
Proof.
  unfold end_section. intros H. bo H as sv1 xv1 E. injection E as <- <-. bo H as sv2 xv2 E. injection E as <- <-.
  destruct (r_cur s) as [[sec' b]|]; [|discriminate]. bo H as sv p E. destruct p as [ns' b']. injection H as <- <- <-.
  apply on_builder_ok in E as (d & w & E1 & E2 & ->). cbn in E1. exists b, d, w, b'. auto.
Qed.
Lemma on_current_ok os s s' u : on_current os s = (s', Ok u) ->
  exists sec b d w b', r_cur s = Some (sec, b) /\ r_dsm s = Some d /\
    do_ops bt_codec (leaf_io block_time) (is_def sec) mapping_inc os (r_w s, mknb (nb_values b) (nb_nodes b) (nb_last b) d) = ((w, b'), Ok tt) /\
    s' = set_cur (Some (sec, b')) (set_dsm (Some (nb_rc b')) (set_w w s)).
Proof.
  unfold on_current. intros H. bo H as sv3 xv3 E. injection E as <- <-. destruct (r_cur s) as [[sec b]|]; [|discriminate].
  bo H as sv p E. destruct p as [[] b']. injection H as <- _. apply on_builder_ok in E as (d & w & E1 & E2 & ->). exists sec, b, d, w, b'. auto.
Qed.
Lemma release_ok s s' u : release_subtrees s = (s', Ok u) -> exists w d, s' = set_dsm (Some d) (set_w w s).
Proof.
  unfold release_subtrees. destruct (r_dsm s) as [d|]; [|discriminate]. destruct (release_runs _ _ _ _) as [[w d'] r].
  intros H. injection H as <- _. eauto.
Qed.

Lemma finalize_ok o s s' u : finalize o s = (s', Ok u) -> exists src devs dr mr dsm1 w1 s2 dsm2 w3 w4 droot mroot sb dp mp,
  r_sb s = Some src /\ r_devs s = devs /\
  build_device_details devs (r_w s) = (w1, Ok (dr, mr)) /\
  release_subtrees (set_w w1 (set_sb None s)) = (s2, Ok tt) /\ s2 = set_dsm (Some dsm2) (set_w (r_w s2) (set_sb None s)) /\ r_dsm s = Some dsm1 /\
  write_disk_sm dsm2 (r_w s2) = (w3, Ok droot) /\ pack_root droot SPACE_MAP_ROOT_SIZE = Ok dp /\
  write_metadata_sm w3 = (w4, Ok mroot) /\ pack_root mroot SPACE_MAP_ROOT_SIZE = Ok mp /\
  override_sb o (mktsb false 0 2 (is_time src) (is_transaction src) 0 dp mp mr dr (is_data_block_size src) (sr_nr_blocks mroot)) = Ok sb /\
  exists w5, wb_write_superblock sb w4 = (w5, Ok tt) /\ s' = set_sec Finalized (set_w w5 s2).
Proof.
  unfold finalize. intros H. bo H as s1 x1 E. injection E as <- <-. bo H as s1 x1 E. injection E as <- <-. destruct (r_sb s) as [src|] eqn:Esb; [|discriminate].
  bo H as s1 x1 E. injection E as <- <-. bo H as s1 x1 E. destruct x1 as [dr mr]. apply on_w_ok in E as (w1 & E1 & ->).
  bo H as s2 x2 E. destruct x2. pose proof (release_ok _ _ _ E) as (w2 & dsm2 & Es2). bo H as s3 x3 E0. injection E0 as <- <-.
  assert (Ed2 : r_dsm s2 = Some dsm2) by (rewrite Es2; reflexivity). rewrite Ed2 in H.
  bo H as s3 droot E0. apply on_w_ok in E0 as (w3 & E3 & ->). bo H as s4 dp E0. apply lift_ok in E0 as [-> E4].
  bo H as s4 mroot E0. apply on_w_ok in E0 as (w4 & E5 & ->). bo H as s4 mp E0. apply lift_ok in E0 as [-> E6].
  bo H as s4 sb E0. apply lift_ok in E0 as [-> E7]. bo H as s5 t E0. apply on_w_ok in E0 as (w5 & E8 & ->). destruct t. unfold modify in H. injection H as <- _.
  assert (exists d1, r_dsm s = Some d1) as (d1 & Ed1).
  { unfold release_subtrees in E. cbn in E. destruct (r_dsm s); [eauto|discriminate]. }
  cbn [r_w set_w set_sb r_devs] in *.
  exists src, (r_devs s), dr, mr, d1, w1, s2, dsm2, w3, w4, droot, mroot, sb, dp, mp. conj; auto.
  all: try (exists w5; split; auto).
  - subst s2. reflexivity.
Qed.

Lemma superblock_b_ok sb s s' u : superblock_b sb s = (s', Ok u) ->
  r_sec s = InNone /\ 128 <= is_data_block_size sb <= 2097152 /\ is_data_block_size sb mod 128 = 0 /\
  exists w b, wb_alloc (r_w s) = (w, Ok b) /\ b_loc b = 0 /\
    s' = set_sec InSuperblock (set_w w (set_dsm (Some (core_sm_for (is_nr_data_blocks sb) (W32 - 1))) (set_sb (Some sb) s))).
Proof.
  unfold superblock_b. intros H. bo H as sv1 xv1 E. apply check_ok in E as [-> E0]. destruct (negb _ || negb _) eqn:Ec; [discriminate|].
  bo H as sv2 xv2 E. injection E as <- _. bo H as sv3 xv3 E. injection E as <- _. bo H as s9 blk E. apply on_w_ok in E as (w & E & ->). cbn [r_w set_dsm set_sb] in E.
  destruct (N.eqb_spec (b_loc blk) 0); [|discriminate]. unfold modify in H. cbn [negb] in H. injection H as <- _.
  apply Bool.orb_false_iff in Ec as [Ec1 Ec2]. apply Bool.negb_false_iff in Ec1, Ec2. apply andb_prop in Ec1 as [Ec1 Ec3].
  apply N.leb_le in Ec1, Ec3. apply N.eqb_eq in Ec2.
  change 127 with (N.ones 7) in Ec2. rewrite N.land_ones in Ec2. change (2 ^ 7) with 128 in Ec2.
  destruct (r_sec s); try discriminate. conj; auto. exists w, blk. auto.
Qed.

Lemma visit_ctl o e s s' u : visit o e s = (s', Ok u) -> ctl_step e (ctl_of s) = Some (ctl_of s').
Proof.
  destruct e; cbn [visit ctl_step ctl_of c_sec c_cur c_dev c_sb]; intros H.
  - apply superblock_b_ok in H as (E & _ & _ & w & b & _ & _ & ->). unfold ctl_of. cbn. rewrite E. reflexivity.
  - apply finalize_ok in H as (src & devs & dr & mr & d1 & w1 & s2 & d2 & w3 & w4 & droot & mroot & sb & dp & mp & E1 & _ & _ & _ & E2 & _ & _ & _ & _ & _ & _ & w5 & _ & ->).
    rewrite E1. f_equal. rewrite E2. reflexivity.
  - unfold def_shared_b in H. bo H as sv4 xv4 E. apply check_ok in E as [-> E]. bo H as su1 xu1 E0. injection E0 as <- _.
    apply begin_ok in H as (E1 & d & _ & ->). cbn in E1. rewrite E1, E. reflexivity.
  - unfold def_shared_e in H. bo H as sv p E. destruct p as [sec ns]. apply end_ok in E as (b & d & w & b' & E1 & _ & _ & ->).
    destruct sec; [|discriminate]. bo H as sv5 xv5 E. injection E as <- _. injection H as <- _. rewrite E1. reflexivity.
  - unfold device_b in H. bo H as sv6 xv6 E. apply check_ok in E as [-> E]. bo H as su2 xu2 E0. injection E0 as <- _. bo H as su3 xu3 E0. injection E0 as <- _.
    apply begin_ok in H as (E1 & d' & _ & ->). cbn in E1. rewrite E1, E. reflexivity.
  - unfold device_e in H. bo H as sv7 xv7 E. injection E as <- <-. bo H as sv8 xv8 E. injection E as <- _. destruct (r_dev s) eqn:Ed; [|discriminate].
    bo H as sv p E. destruct p as [sec ns]. apply end_ok in E as (b & d' & w & b' & E1 & _ & _ & ->). cbn in E1.
    destruct sec; [discriminate|]. bo H as sv9 xv9 E. apply on_w_ok in E as (w2 & _ & ->). bo H as sv10 xv10 E. injection E as <- _. injection H as <- _.
    rewrite E1. reflexivity.
  - unfold restore_map in H. apply on_current_ok in H as (sec & b & d & w & b' & E1 & _ & _ & ->). rewrite E1. unfold ctl_of. cbn. rewrite E1. reflexivity.
  - unfold restore_ref in H. bo H as sv11 xv11 E. injection E as <- <-. destruct (r_dev s) eqn:Ed; [|discriminate]. bo H as sv12 xv12 E. injection E as <- <-.
    destruct (find _ _) as [[k ns]|]; [|discriminate]. apply on_current_ok in H as (sec & b & d' & w & b' & E1 & _ & _ & ->). rewrite E1. unfold ctl_of. cbn. rewrite E1, Ed. reflexivity.
  - unfold restore_eof in H. apply check_ok in H as [-> E]. rewrite E. reflexivity.
Qed.
Fixpoint ctl_steps (es : list event) (c : ctl) : option ctl :=
  match es with [] => Some c | e :: r => match ctl_step e c with Some c' => ctl_steps r c' | None => None end end.
Lemma visits_ctl o es : forall s s' u, visits o es s = (s', Ok u) -> ctl_steps es (ctl_of s) = Some (ctl_of s').
Proof.
  induction es as [|e es IH]; intros s s' u H; cbn [visits ctl_steps] in *; [injection H as <- _; auto|].
  bo H as sv13 xv13 E. apply visit_ctl in E. rewrite E. eauto.
Qed.

(** ** The language (C21) *)
Definition content (e : event) : Prop := (exists m, e = EvMap m) \/ exists name, e = EvRef name.
Definition start : ctl := mkctl InNone None false false.
Lemma ctl_steps_app a b : forall c, ctl_steps (a ++ b) c = match ctl_steps a c with Some c' => ctl_steps b c' | None => None end.
Proof. induction a as [|e a IH]; intros c; cbn [app ctl_steps]; auto. destruct (ctl_step e c); auto. Qed.
Lemma ctl_snoc es e c : ctl_steps (es ++ [e]) start = Some c -> exists c0, ctl_steps es start = Some c0 /\ ctl_step e c0 = Some c.
Proof.
  rewrite ctl_steps_app. destruct (ctl_steps es start) as [c0|]; [|discriminate]. cbn [ctl_steps].
  destruct (ctl_step e c0) as [c1|] eqn:E; [|discriminate]. intros H. injection H as <-. eauto.
Qed.
Ltac brk H := repeat match type of H with
  | context[match ?x with _ => _ end] => destruct x eqn:?; try discriminate H
  end.
Lemma none_only_start es c : ctl_steps es start = Some c -> c_sec c = InNone -> es = [].
Proof.
  revert c. induction es as [|e es IH] using rev_ind; intros c H Hc; auto. apply ctl_snoc in H as (c0 & H & E).
  destruct e; cbn [ctl_step] in E; brk E; injection E as <-; cbn [c_sec] in Hc; try discriminate;
    try (rewrite (IH _ H Hc) in H; injection H as <-; discriminate).
Qed.
Inductive opened : list event -> ctl -> Prop :=
| op_none : opened [] (mkctl InSuperblock None false true)
| op_def name ms : opened (EvDefB name :: map EvMap ms) (mkctl InDef (Some true) false true)
| op_dev d its : Forall content its -> opened (EvDevB d :: its) (mkctl InDevice (Some false) true true).
Lemma opened_spec es c : ctl_steps es start = Some c -> c_sb c = true ->
  exists sb secs op, es = EvSbB sb :: concat secs ++ op /\ Forall section_events secs /\ opened op c.
Proof.
  revert c. induction es as [|e es IH] using rev_ind; intros c H Hc; [injection H as <-; discriminate|].
  apply ctl_snoc in H as (c0 & H & E).
  destruct e as [sb0| |name| |d| |m|name|].
  - cbn [ctl_step] in E. destruct (sec_eqb (c_sec c0) InNone) eqn:Es; [|discriminate]. injection E as <-.
    assert (c_sec c0 = InNone) by (destruct (c_sec c0); auto; discriminate). pose proof (none_only_start _ _ H H0) as ->.
    injection H as <-. exists sb0, [], []. cbn. conj; auto. constructor.
  - cbn [ctl_step] in E. brk E. injection E as <-. discriminate.
  - assert (Hc0 : c_sb c0 = true) by (cbn [ctl_step] in E; brk E; injection E as <-; exact Hc).
    destruct (IH _ H Hc0) as (sb & secs & op & -> & HF & Ho). inversion Ho; subst; try discriminate E. cbn in E. injection E as <-.
    exists sb, secs, [EvDefB name]. rewrite app_nil_r. conj; auto. exact (op_def name []).
  - assert (Hc0 : c_sb c0 = true) by (cbn [ctl_step] in E; brk E; injection E as <-; exact Hc).
    destruct (IH _ H Hc0) as (sb & secs & op & -> & HF & Ho). inversion Ho; subst; try discriminate E. cbn in E. injection E as <-.
    exists sb, (secs ++ [EvDefB name :: map EvMap ms ++ [EvDefE]]), []. conj.
    + rewrite concat_app. cbn [concat]. rewrite !app_nil_r. cbn [app]. rewrite <- app_assoc. reflexivity.
    + apply Forall_app. split; auto. constructor; [constructor|constructor].
    + constructor.
  - assert (Hc0 : c_sb c0 = true) by (cbn [ctl_step] in E; brk E; injection E as <-; exact Hc).
    destruct (IH _ H Hc0) as (sb & secs & op & -> & HF & Ho). inversion Ho; subst; try discriminate E. cbn in E. injection E as <-.
    exists sb, secs, [EvDevB d]. rewrite app_nil_r. conj; auto. constructor. constructor.
  - assert (Hc0 : c_sb c0 = true) by (cbn [ctl_step] in E; brk E; injection E as <-; exact Hc).
    destruct (IH _ H Hc0) as (sb & secs & op & -> & HF & Ho). inversion Ho; subst; try discriminate E. cbn in E. injection E as <-.
    exists sb, (secs ++ [EvDevB d :: its ++ [EvDevE]]), []. conj.
    + rewrite concat_app. cbn [concat]. rewrite !app_nil_r. cbn [app]. rewrite <- app_assoc. reflexivity.
    + apply Forall_app. split; auto. constructor; [constructor; auto|constructor].
    + constructor.
  - assert (Hc0 : c_sb c0 = true) by (cbn [ctl_step] in E; brk E; injection E as <-; exact Hc).
    destruct (IH _ H Hc0) as (sb & secs & op & -> & HF & Ho). inversion Ho; subst; try discriminate E; cbn in E; injection E as <-.
    + exists sb, secs, (EvDefB name :: map EvMap (ms ++ [m])). conj; auto; [|constructor].
      cbn [app]. rewrite map_app, <- app_assoc. reflexivity.
    + exists sb, secs, (EvDevB d :: its ++ [EvMap m]). conj; auto; [|constructor; apply Forall_app; split; auto; constructor; [left; eauto|constructor]].
      cbn [app]. rewrite <- app_assoc. reflexivity.
  - assert (Hc0 : c_sb c0 = true) by (cbn [ctl_step] in E; brk E; injection E as <-; exact Hc).
    destruct (IH _ H Hc0) as (sb & secs & op & -> & HF & Ho). inversion Ho; subst; try discriminate E; cbn in E; injection E as <-.
    exists sb, secs, (EvDevB d :: its ++ [EvRef name]). conj; auto; [|constructor; apply Forall_app; split; auto; constructor; [right; eauto|constructor]].
    cbn [app]. rewrite <- app_assoc. reflexivity.
  - cbn [ctl_step] in E. destruct (sec_eqb (c_sec c0) Finalized) eqn:Es; [|discriminate]. injection E as <-.
    destruct (IH _ H Hc) as (sb & secs & op & -> & HF & Ho). inversion Ho; subst; discriminate.
Qed.
Lemma finalized_spec es c : ctl_steps es start = Some c -> c_sec c = Finalized -> ~ In EvEof es ->
  exists es1 c1 rest, es = es1 ++ EvSbE :: rest /\ ctl_steps es1 start = Some c1 /\ c_sb c1 = true /\
    c_cur c = c_cur c1 /\ Forall content rest /\ (c_cur c1 = None -> rest = []).
Proof.
  revert c. induction es as [|e es IH] using rev_ind; intros c H Hc Hn; [injection H as <-; discriminate|].
  apply ctl_snoc in H as (c0 & H & E). assert (Hn' : ~ In EvEof es) by (intros K; apply Hn, in_or_app; auto).
  assert (Hcont : content e -> c0 = c /\ c_cur c <> None -> exists es1 c1 rest, es ++ [e] = es1 ++ EvSbE :: rest /\ ctl_steps es1 start = Some c1 /\ c_sb c1 = true /\
    c_cur c = c_cur c1 /\ Forall content rest /\ (c_cur c1 = None -> rest = [])).
  { intros He [-> Hcur]. destruct (IH _ H Hc Hn') as (es1 & c1 & rest & -> & A & B & C & D & F). exists es1, c1, (rest ++ [e]).
    conj; auto.
    - rewrite <- app_assoc. reflexivity.
    - apply Forall_app. auto.
    - intros K. congruence. }
  destruct e; cbn [ctl_step] in E; brk E; injection E as <-; cbn [c_sec] in Hc; try discriminate.
  - exists es, c0, []. conj; auto.
  - apply Hcont; [left; eauto|split; auto; congruence].
  - apply Hcont; [right; eauto|split; auto; congruence].
  - exfalso. apply Hn, in_or_app. right. left. auto.
Qed.
Lemma nested_content o its r : Forall content its -> nested o (its ++ r) = nested o r.
Proof. induction 1 as [|e its [(m & ->)|(name & ->)] H IH]; cbn [app nested]; auto. Qed.
Lemma maps_content ms : Forall content (map EvMap ms).
Proof. apply Forall_forall. intros e He. apply in_map_iff in He as (m & <- & _). left; eauto. Qed.
Lemma nested_secs o secs r : Forall section_events secs -> nested o (concat secs ++ r) = nested o r.
Proof.
  induction 1 as [|sec secs Hs H IH]; cbn [concat app]; auto. rewrite <- app_assoc. rewrite <- IH. destruct Hs.
  - cbn [app nested]. rewrite <- app_assoc, nested_content by apply maps_content. reflexivity.
  - cbn [app nested]. rewrite <- app_assoc, nested_content by auto. reflexivity.
Qed.
Lemma accepted_shape es c : ctl_steps es start = Some c -> c_sec c = Finalized -> ~ In EvEof es -> document es \/ unclosed es.
Proof.
  intros H Hc Hn. destruct (finalized_spec _ _ H Hc Hn) as (es1 & c1 & rest & -> & A & B & C & D & F).
  destruct (opened_spec _ _ A B) as (sb & secs & op & -> & HF & Ho). inversion Ho; subst; cbn [c_cur] in *.
  - left. exists sb, secs. split; auto. rewrite F, app_nil_r by auto. reflexivity.
  - right. exists sb, secs, (EvDefB name), (map EvMap ms), rest. conj; eauto.
    + apply Forall_app. split; auto. apply maps_content.
    + cbn [app]. rewrite <- app_assoc. reflexivity.
  - right. exists sb, secs, (EvDevB d), its, rest. conj; eauto.
    + apply Forall_app. split; auto.
    + cbn [app]. rewrite <- app_assoc. reflexivity.
Qed.
Lemma unclosed_not_nested es : unclosed es -> ~ nested [] es.
Proof.
  intros (sb & secs & op & body & rest & HF & Hop & Hb & ->) H. cbn [nested app] in H. rewrite nested_secs in H by auto.
  apply Forall_app in Hb as [Hb _].
  destruct Hop as [(x & ->)|(x & ->)]; cbn [nested] in H; rewrite nested_content in H by auto; exact H.
Qed.
Lemma ctl_new w : ctl_of (restorer_new w) = start.
Proof. reflexivity. Qed.

(** ** The order of writes (C20) *)
Lemma write_superblock_ok sb w w' u : wb_write_superblock sb w = (w', Ok u) -> exists data, wb_log w' = wb_log w ++ [mkblock 0 data] /\
  wb_good w 0 = true /\ wb_sm w' = wb_sm w /\ wb_queue w' = wb_queue w /\ wb_base w' = wb_base w /\ wb_good w' = wb_good w /\
  (b <- to_block (thin_sb_pack sb) ;; write_checksum b THIN_SUPERBLOCK) = Ok data.
Proof.
  unfold wb_write_superblock. intros H. bo H as s1 b E. apply lift_ok in E as [-> E1]. bo H as s2 data E. apply lift_ok in E as [-> E2].
  destruct (wb_good w 0) eqn:Eg; [|discriminate]. injection H as <- _. exists data. cbn [wb_log wb_sm wb_queue wb_base wb_good]. conj; auto. rewrite E1. exact E2.
Qed.
Lemma write_superblock_fail sb w w' r : wb_write_superblock sb w = (w', r) -> (forall u, r <> Ok u) -> w' = w.
Proof.
  unfold wb_write_superblock, bindst, lift. destruct (to_block _) as [b| |]; [|intros H _; injection H as <- _; auto|intros H _; injection H as <- _; auto].
  destruct (write_checksum _ _); [|intros H _; injection H as <- _; auto|intros H _; injection H as <- _; auto].
  destruct (wb_good w 0); intros H Hr; injection H as <- <-; auto. exfalso. eapply Hr; eauto.
Qed.
Definition safe_err {S A} (P : S -> Prop) (m : st S A) : Prop :=
  forall s, P s -> match m s with (_, Ok _) => True | (s', _) => P s' end.
Lemma safe_err_bind {S A B} (P : S -> Prop) (m : st S A) (f : A -> st S B) Q : safe P m Q -> (forall a, Q a -> safe_err P (f a)) -> safe_err P (bindst m f).
Proof.
  intros Hm Hf s Hs. unfold bindst. specialize (Hm s Hs). destruct (m s) as [s' [a| |]]; auto. destruct Hm as [H1 H2]. exact (Hf a H2 s' H1).
Qed.
Lemma safe_safe_err {S A} (P : S -> Prop) (m : st S A) Q : safe P m Q -> safe_err P m.
Proof. intros H s Hs. specialize (H s Hs). destruct (m s) as [s' [a| |]]; auto. Qed.
Lemma finalize_err pre o : safe_err (KR pre) (finalize o).
Proof.
  assert (G : forall A (f : rstate -> A), safe (KR pre) (get f) any) by (intros; apply safe_get; intros; exact I).
  assert (L : forall A (r : res A), safe (KR pre) (lift r) any) by (intros; apply safe_lift; intros; exact I).
  unfold finalize. eapply safe_err_bind; [apply G|]. intros sb _.
  eapply safe_err_bind; [apply safe_modify; intros s (H1 & H2 & H3); unfold KR; cbn; auto|]. intros _ _.
  destruct sb as [src|]; [|eapply safe_safe_err, safe_fail with (Q := any)].
  eapply safe_err_bind; [apply G|]. intros devs _. eapply safe_err_bind; [apply safe_on_w, safe_device_details|]. intros [dr mr] _.
  eapply safe_err_bind; [apply safe_release|]. intros _ _. eapply safe_err_bind; [apply G|]. intros [dsm|] _; [|eapply safe_safe_err, L].
  eapply safe_err_bind; [apply safe_on_w, safe_write_disk_sm|]. intros droot _. eapply safe_err_bind; [apply L|]. intros dp _.
  eapply safe_err_bind; [apply safe_on_w, safe_write_metadata_sm|]. intros mroot _. eapply safe_err_bind; [apply L|]. intros mp _.
  eapply safe_err_bind; [apply L|]. intros sb _. intros s Hs. unfold bindst, on_w, modify.
  destruct (wb_write_superblock sb (r_w s)) as [w r] eqn:E. destruct r as [u| |]; auto.
  - apply write_superblock_fail in E; [|discriminate]. subst w. destruct Hs as (A & B & C). unfold KR. cbn. auto.
  - apply write_superblock_fail in E; [|discriminate]. subst w. destruct Hs as (A & B & C). unfold KR. cbn. auto.
Qed.
Lemma finalize_safe pre o s s' r : KR pre s -> finalize o s = (s', r) ->
  match r with
  | Ok _ => exists tail data, wb_log (r_w s') = pre ++ tail ++ [mkblock 0 data] /\ Forall nzb tail /\ wb_queue (r_w s') = [] /\
              KR (pre ++ tail ++ [mkblock 0 data]) s'
  | _ => KR pre s'
  end.
Proof.
  intros HK E. destruct r as [u| |].
  - apply finalize_ok in E as (src & devs & dr & mr & d1 & w1 & s2 & d2 & w3 & w4 & droot & mroot & sb & dp & mp & E1 & E2 & E3 & E4 & E5 & E6 & E7 & E8 & E9 & E10 & E11 & w5 & E12 & ->).
    assert (K1 : KR pre (set_w w1 (set_sb None s))).
    { destruct HK as (A & B & C). pose proof (safe_device_details pre devs (r_w s) A) as X. rewrite E3 in X. unfold KR. cbn. tauto. }
    pose proof (safe_release pre _ K1) as K2. rewrite E4 in K2. destruct K2 as [(K2 & S2 & C2) _].
    pose proof (safe_write_disk_sm pre d2 (r_w s2) K2) as K3. rewrite E7 in K3. destruct K3 as [K3 _].
    pose proof (safe_write_metadata_sm pre w3 K3) as K4. rewrite E9 in K4. destruct K4 as [(K4 & (tail & K5 & K6) & K7) _].
    apply metadata_sm_flushed in E9. apply write_superblock_ok in E12 as (data & L & _ & Hsm & Hq & _).
    exists tail, data. cbn [r_w set_sec set_w]. rewrite L, K5, <- app_assoc. conj; auto; [congruence|].
    unfold KR. cbn. split; [|auto]. unfold K. rewrite Hsm, Hq, E9, L, K5. split; auto. split; [|constructor].
    exists []. rewrite app_nil_r, app_assoc. split; auto.
  - pose proof (finalize_err pre o s HK) as X. rewrite E in X. exact X.
  - pose proof (finalize_err pre o s HK) as X. rewrite E in X. exact X.
Qed.

Lemma visit_safe pre o e : (forall sb, e <> EvSbB sb) -> e <> EvSbE -> safe (KR pre) (visit o e) any.
Proof.
  intros H1 H2. destruct e; cbn [visit].
  - exfalso. eapply H1; eauto. - congruence.
  - apply safe_def_b. - apply safe_def_e. - apply safe_dev_b. - apply safe_dev_e. - apply safe_map. - apply safe_ref. - apply safe_check.
Qed.
(** The state before the superblock is announced. *)
Definition untouched (s : rstate) : Prop :=
  wb_log (r_w s) = [] /\ wb_queue (r_w s) = [] /\ r_sec s = InNone /\ r_sb s = None /\ r_cur s = None /\ r_dev s = None /\ r_subs s = [].
Lemma visits_snoc o es : forall e s, visits o (es ++ [e]) s = (_ <~ visits o es ;; visit o e) s.
Proof.
  induction es as [|x es IH]; intros e s; cbn [app visits].
  - unfold bindst, ret. destruct (visit o e s) as [s' [[]| |]]; auto.
  - unfold bindst at 1 2 3. destruct (visit o x s) as [s' [u| |]]; auto. rewrite IH. reflexivity.
Qed.
(** The superblock was written when the [EvSbE] after [es1] was handled: at that moment the
    device had been sent [l1] and then it, and nothing was pending. *)
Definition committed (o : overrides) (s0 : rstate) (es : list event) (l1 : list block) (data : list N) : Prop :=
  exists es1 es2 s1, es = es1 ++ EvSbE :: es2 /\ visits o (es1 ++ [EvSbE]) s0 = (s1, Ok tt) /\
    wb_queue (r_w s1) = [] /\ wb_log (r_w s1) = l1 ++ [mkblock 0 data] /\ Forall nzb l1.
Definition phase (o : overrides) (s0 : rstate) (es : list event) (s : rstate) : Prop :=
  KR [] s \/ exists l1 data, KR (l1 ++ [mkblock 0 data]) s /\ committed o s0 es l1 data.
Lemma committed_snoc o s0 es e l1 data : committed o s0 es l1 data -> committed o s0 (es ++ [e]) l1 data.
Proof. intros (es1 & es2 & s1 & -> & H). exists es1, (es2 ++ [e]), s1. rewrite <- app_assoc. auto. Qed.
Lemma sb_first w s0 sb s' r : untouched s0 -> r_w s0 = w -> superblock_b sb s0 = (s', r) ->
  match r with Ok _ => KR [] s' | _ => wb_log (r_w s') = [] /\ wb_queue (r_w s') = [] end.
Proof.
  intros (H1 & H2 & H3 & H4 & H5 & H6 & H7) Ew E. destruct r as [u| |].
  - apply superblock_b_ok in E as (_ & _ & _ & w' & b & Ea & Eb & ->).
    unfold wb_alloc, bindst, wb_alloc_loc in Ea. destruct (sm_alloc (wb_sm (r_w s0))) as [sm' [[x|]| |]] eqn:Es; try discriminate.
    injection Ea as <- <-. cbn [b_loc] in Eb. subst x. apply alloc_free in Es as [_ ->].
    unfold KR. cbn. rewrite H5, H7. split; [|split; auto; constructor]. unfold K. cbn. rewrite H1, H2. split; [reflexivity|]. split; [exists []; auto|constructor].
  - assert (X : wb_log (r_w s') = wb_log (r_w s0) /\ wb_queue (r_w s') = wb_queue (r_w s0)); [|destruct X; split; congruence].
    revert E. unfold superblock_b, check_section, get, modify, on_w, bindst, ret, fail. destruct (sec_eqb _ _); [|intros E; injection E as <-; auto].
    destruct (_ || _); [intros E; injection E as <-; auto|]. cbn [r_w set_dsm set_sb].
    unfold wb_alloc, bindst, wb_alloc_loc. destruct (sm_alloc _) as [sm' [[x|]| |]]; cbn [b_loc]; try (intros E; injection E as <-; cbn; auto); try discriminate.
    destruct (negb _); intros E; try discriminate. injection E as <-. cbn. auto.
  - assert (X : wb_log (r_w s') = wb_log (r_w s0) /\ wb_queue (r_w s') = wb_queue (r_w s0)); [|destruct X; split; congruence].
    revert E. unfold superblock_b, check_section, get, modify, on_w, bindst, ret, fail. destruct (sec_eqb _ _); [|discriminate].
    destruct (_ || _); [discriminate|]. cbn [r_w set_dsm set_sb].
    unfold wb_alloc, bindst, wb_alloc_loc. destruct (sm_alloc _) as [sm' [[x|]| |]]; cbn [b_loc]; try (intros E; injection E as <-; cbn; auto); try discriminate.
    destruct (negb _); discriminate.
Qed.
Lemma other_first o e s0 s' r : untouched s0 -> (forall sb, e <> EvSbB sb) -> visit o e s0 = (s', r) ->
  r = Err /\ wb_log (r_w s') = [] /\ wb_queue (r_w s') = [].
Proof.
  intros (H1 & H2 & H3 & H4 & H5 & H6 & H7) Hn E. destruct e; cbn [visit] in E.
  - exfalso. eapply Hn; eauto.
  - unfold finalize, get, modify, bindst in E. rewrite H4 in E. injection E as <- <-. cbn. auto.
  - unfold def_shared_b, check_section, get, bindst in E. rewrite H3 in E. injection E as <- <-. auto.
  - unfold def_shared_e, end_section, get, modify, bindst in E. rewrite H5 in E. injection E as <- <-. cbn. auto.
  - unfold device_b, check_section, get, bindst in E. rewrite H3 in E. injection E as <- <-. auto.
  - unfold device_e, get, modify, bindst in E. rewrite H6 in E. injection E as <- <-. cbn. auto.
  - unfold restore_map, on_current, get, bindst in E. rewrite H5 in E. injection E as <- <-. auto.
  - unfold restore_ref, get, bindst in E. rewrite H6 in E. injection E as <- <-. auto.
  - unfold restore_eof, check_section, get, bindst in E. rewrite H3 in E. injection E as <- <-. auto.
Qed.
Lemma untouched_ctl s0 : untouched s0 -> ctl_of s0 = start.
Proof. intros (H1 & H2 & H3 & H4 & H5 & H6 & H7). unfold ctl_of. rewrite H3, H4, H5, H6. reflexivity. Qed.
Lemma step_phase o s0 es e s1 s r : untouched s0 -> es <> [] -> phase o s0 es s1 -> visits o es s0 = (s1, Ok tt) ->
  visit o e s1 = (s, r) -> phase o s0 (es ++ [e]) s.
Proof.
  intros Hu Hne Hph Hv E. pose proof (visits_ctl _ _ _ _ _ Hv) as Hc. rewrite (untouched_ctl _ Hu) in Hc.
  assert (Hsec : r_sec s1 <> InNone). { intros K. apply Hne. eapply none_only_start; eauto. }
  assert (Hpre : forall pre, KR pre s1 -> e <> EvSbE -> KR pre s).
  { intros pre HK He. destruct e as [sb0| | | | | | | |].
    - unfold visit, superblock_b, check_section, get, bindst in E. destruct (r_sec s1); try congruence; injection E as <- _; auto.
    - congruence.
    - pose proof (visit_safe pre o (EvDefB name) ltac:(discriminate) He s1 HK) as X. rewrite E in X. destruct r; tauto.
    - pose proof (visit_safe pre o EvDefE ltac:(discriminate) He s1 HK) as X. rewrite E in X. destruct r; tauto.
    - pose proof (visit_safe pre o (EvDevB d) ltac:(discriminate) He s1 HK) as X. rewrite E in X. destruct r; tauto.
    - pose proof (visit_safe pre o EvDevE ltac:(discriminate) He s1 HK) as X. rewrite E in X. destruct r; tauto.
    - pose proof (visit_safe pre o (EvMap m) ltac:(discriminate) He s1 HK) as X. rewrite E in X. destruct r; tauto.
    - pose proof (visit_safe pre o (EvRef name) ltac:(discriminate) He s1 HK) as X. rewrite E in X. destruct r; tauto.
    - pose proof (visit_safe pre o EvEof ltac:(discriminate) He s1 HK) as X. rewrite E in X. destruct r; tauto. }
  assert (Hdec : e = EvSbE \/ e <> EvSbE) by (destruct e; (left; reflexivity) || (right; discriminate)).
  destruct Hdec as [->|He].
  2:{ destruct Hph as [HK|(l1 & data & HK & Hco)]; [left; auto|]. right. exists l1, data. split; auto. apply committed_snoc. auto. }
  destruct Hph as [HK|(l1 & data & HK & Hco)].
  - pose proof (finalize_safe [] o s1 s r HK E) as X. destruct r as [u| |]; [|left; exact X|left; exact X].
    destruct X as (tail & data & X1 & X2 & X3 & X4). right. exists tail, data. split; [exact X4|].
    exists es, [], s. conj; auto. rewrite visits_snoc. unfold bindst. rewrite Hv. destruct u. exact E.
  - right. exists l1, data. split; [|apply committed_snoc; auto].
    pose proof (finalize_safe _ o s1 s r HK E) as X. destruct r as [u| |]; [|exact X|exact X].
    exfalso. pose proof (visit_ctl o EvSbE _ _ _ E) as Y. cbn [ctl_step] in Y. destruct (c_sb (ctl_of s1)) eqn:Eb; [|discriminate].
    destruct Hco as (es1 & es2 & s2 & -> & H2 & _).
    (* two superblocks *)
    apply visits_ctl in H2. rewrite (untouched_ctl _ Hu) in H2.
    destruct (opened_spec _ _ Hc Eb) as (sb & secs & op & Ees & HF & Ho).
    assert (Hin : In EvSbE (EvSbB sb :: concat secs ++ op)) by (rewrite <- Ees; apply in_or_app; right; left; auto).
    destruct Hin as [Hin|Hin]; [discriminate|]. apply in_app_or in Hin as [Hin|Hin].
    + apply in_concat in Hin as (sec & K1 & K2). rewrite Forall_forall in HF. specialize (HF _ K1). destruct HF as [nm ms|dv its Hits].
      * destruct K2 as [K2|K2]; [discriminate|]. apply in_app_or in K2 as [K2|[K2|[]]]; [|discriminate]. apply in_map_iff in K2 as (? & ? & _). discriminate.
      * destruct K2 as [K2|K2]; [discriminate|]. apply in_app_or in K2 as [K2|[K2|[]]]; [|discriminate].
        rewrite Forall_forall in Hits. destruct (Hits _ K2) as [(? & ?)|(? & ?)]; discriminate.
    + inversion Ho; subst; [destruct Hin| |].
      * destruct Hin as [K2|K2]; [discriminate|]. apply in_map_iff in K2 as (? & ? & _). discriminate.
      * destruct Hin as [K2|K2]; [discriminate|]. match goal with K : Forall _ ?l |- _ => rewrite Forall_forall in K; destruct (K _ K2) as [(? & ?)|(? & ?)]; discriminate end.
Qed.
Lemma prefix_phase o s0 es : untouched s0 -> forall s, visits o es s0 = (s, Ok tt) -> es = [] \/ phase o s0 es s.
Proof.
  intros Hu. induction es as [|e es IH] using rev_ind; intros s H; auto. right. rewrite visits_snoc in H. bo H as s1 x E. destruct x.
  destruct (IH _ E) as [->|Hph].
  - cbn in E. injection E as <-. destruct e; try (apply other_first in H as [H _]; [discriminate|auto|discriminate]).
    left. exact (sb_first _ _ _ _ _ Hu eq_refl H).
  - destruct es as [|e0 es0] eqn:Ees.
    + cbn in E. injection E as <-. destruct e; try (apply other_first in H as [H _]; [discriminate|auto|discriminate]).
      left. exact (sb_first _ _ _ _ _ Hu eq_refl H).
    + rewrite <- Ees in *. eapply step_phase; eauto. rewrite Ees. discriminate.
Qed.
(** The prefix handled before an error. *)
Lemma visits_fail o es : forall s s' r, visits o es s = (s', r) -> r <> Ok tt ->
  exists es1 e es2 s1, es = es1 ++ e :: es2 /\ visits o es1 s = (s1, Ok tt) /\ visit o e s1 = (s', r).
Proof.
  induction es as [|e es IH]; intros s s' r H Hr; cbn [visits] in H; [injection H as <- <-; congruence|].
  unfold bindst in H. destruct (visit o e s) as [s1 [u| |]] eqn:E.
  - destruct (IH _ _ _ H Hr) as (es1 & e' & es2 & s2 & -> & A & B). exists (e :: es1), e', es2, s2. conj; auto. cbn [visits]. unfold bindst. rewrite E. exact A.
  - injection H as <- <-. exists [], e, es, s. conj; auto.
  - injection H as <- <-. exists [], e, es, s. conj; auto.
Qed.
Lemma committed_app o s0 es es' l1 data : committed o s0 es l1 data -> committed o s0 (es ++ es') l1 data.
Proof. intros (es1 & es2 & s1 & -> & H). exists es1, (es2 ++ es'), s1. rewrite <- app_assoc. auto. Qed.
Lemma write_order o s0 es s r : untouched s0 -> visits o es s0 = (s, r) ->
  Forall nzb (wb_log (r_w s)) \/
  exists l1 data l2, wb_log (r_w s) = l1 ++ mkblock 0 data :: l2 /\ Forall nzb l2 /\ committed o s0 es l1 data.
Proof.
  intros Hu H.
  assert (Hdone : forall es', phase o s0 es' s -> (exists t, es = es' ++ t) -> Forall nzb (wb_log (r_w s)) \/
     exists l1 data l2, wb_log (r_w s) = l1 ++ mkblock 0 data :: l2 /\ Forall nzb l2 /\ committed o s0 es l1 data).
  { intros es' [((_ & (tail & A & B) & _) & _)|(l1 & data & ((_ & (tail & A & B) & _) & _) & C)] (t & ->).
    - left. rewrite A. exact B.
    - right. exists l1, data, tail. rewrite A, <- app_assoc. conj; auto. apply committed_app; auto. }
  destruct r as [[]| |].
  - destruct (prefix_phase _ _ _ Hu _ H) as [->|Hp].
    + cbn in H. injection H as <-. left. destruct Hu as (-> & _). constructor.
    + apply (Hdone es); auto. exists []. rewrite app_nil_r. auto.
  - destruct (visits_fail _ _ _ _ _ H ltac:(discriminate)) as (es1 & e & es2 & s1 & -> & A & B).
    destruct (prefix_phase _ _ _ Hu _ A) as [->|Hp].
    + cbn in A. injection A as <-. left. destruct e; try (apply other_first in B as (_ & -> & _); [constructor|auto|discriminate]).
      destruct (sb_first _ _ _ _ _ Hu eq_refl B) as [-> _]. constructor.
    + destruct es1 as [|e0 es0] eqn:Ees.
      * cbn in A. injection A as <-. left. destruct e; try (apply other_first in B as (_ & -> & _); [constructor|auto|discriminate]).
        destruct (sb_first _ _ _ _ _ Hu eq_refl B) as [-> _]. constructor.
      * rewrite <- Ees in *. apply (Hdone (es1 ++ [e])). { eapply step_phase; eauto. rewrite Ees. discriminate. } exists es2. rewrite <- app_assoc. auto.
  - destruct (visits_fail _ _ _ _ _ H ltac:(discriminate)) as (es1 & e & es2 & s1 & -> & A & B).
    destruct (prefix_phase _ _ _ Hu _ A) as [->|Hp].
    + cbn in A. injection A as <-. left. destruct e; try (apply other_first in B as (_ & -> & _); [constructor|auto|discriminate]).
      destruct (sb_first _ _ _ _ _ Hu eq_refl B) as [-> _]. constructor.
    + destruct es1 as [|e0 es0] eqn:Ees.
      * cbn in A. injection A as <-. left. destruct e; try (apply other_first in B as (_ & -> & _); [constructor|auto|discriminate]).
        destruct (sb_first _ _ _ _ _ Hu eq_refl B) as [-> _]. constructor.
      * rewrite <- Ees in *. apply (Hdone (es1 ++ [e])). { eapply step_phase; eauto. rewrite Ees. discriminate. } exists es2. rewrite <- app_assoc. auto.
Qed.
