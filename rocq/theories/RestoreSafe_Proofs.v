(** Writes to block 0 during a restore (C20): nothing but the superblock writer touches a
    block that is in use and was not allocated by the operation itself.  No hypothesis about
    sizes, contents or failures is needed. *)
From Verif Require Import Base Csum_Model Codec_Model Codec_Spec SpaceMap_Model Batcher_Model Builder_Model Session_Model
  ThinOut_Model Walker_Model SmWrite_Model Array_Model Restore_Model.

(** [m] keeps [P], whatever its outcome; a result satisfies [Q]. *)
Definition safe {S A} (P : S -> Prop) (m : st S A) (Q : A -> Prop) : Prop :=
  forall s, P s -> match m s with (s', Ok a) => P s' /\ Q a | (s', _) => P s' end.

Section Logic.
Context {S : Type}.
Variable P : S -> Prop.
Lemma safe_ret {A} (a : A) (Q : A -> Prop) : Q a -> safe P (ret a) Q.
Proof using. intros H s Hs. cbn. auto. Qed.
Lemma safe_fail {A} (Q : A -> Prop) : safe P fail Q.
Proof using. intros s Hs. exact Hs. Qed.
Lemma safe_lift {A} (r : res A) (Q : A -> Prop) : (forall a, r = Ok a -> Q a) -> safe P (lift r) Q.
Proof using. intros H s Hs. unfold lift. destruct r; auto. Qed.
Lemma safe_bind {A B} (m : st S A) (f : A -> st S B) Q R : safe P m Q -> (forall a, Q a -> safe P (f a) R) -> safe P (bindst m f) R.
Proof using.
  intros Hm Hf s Hs. unfold bindst. specialize (Hm s Hs). destruct (m s) as [s' [a| |]]; auto.
  destruct Hm as [H1 H2]. exact (Hf a H2 s' H1).
Qed.
Lemma safe_mono {A} (m : st S A) (Q R : A -> Prop) : safe P m Q -> (forall a, Q a -> R a) -> safe P m R.
Proof using. intros H HQ s Hs. specialize (H s Hs). destruct (m s) as [s' [a| |]]; auto. destruct H; auto. Qed.
Lemma safe_true {A} (m : st S A) (Q : A -> Prop) : safe P m Q -> safe P m (fun _ => True).
Proof using. intros H. eapply safe_mono; eauto. Qed.
Lemma safe_if {A} (b : bool) (m1 m2 : st S A) Q : safe P m1 Q -> safe P m2 Q -> safe P (if b then m1 else m2) Q.
Proof using. destruct b; auto. Qed.
End Logic.

Definition any {A} : A -> Prop := fun _ => True.
Definition nz (s : summary) : Prop := su_block s <> 0.
Definition nzb (b : block) : Prop := b_loc b <> 0.

(** The device writes so far are [pre] followed by writes to blocks other than 0, none is
    pending for block 0, and block 0 is in use. *)
Definition K (pre : list block) (w : wb) : Prop :=
  0 < sm_counts (wb_sm w) 0 /\ (exists tail, wb_log w = pre ++ tail /\ Forall nzb tail) /\ Forall nzb (wb_queue w).

Section Wb.
Variable pre : list block.
Notation K := (K pre).

Lemma alloc_free s s' b : sm_alloc s = (s', Ok (Some b)) -> sm_counts s b = 0 /\ s' = mksm (sm_nr s) (sm_max s) (sm_nalloc s + 1) (b + 1) (upd (sm_counts s) b 1).
Proof using.
  assert (HL : forall nr counts bs b', find_free_loop nr counts bs = Ok (Some b') -> counts b' = 0).
  { intros nr counts bs. induction bs as [|x bs IH]; intros b' H; cbn [find_free_loop] in H; [discriminate|].
    destruct (nr <=? x); [discriminate|]. destruct (N.eqb_spec (counts x) 0); auto. injection H as <-. auto. }
  unfold sm_alloc, sm_find_free. destruct (find_free_loop _ _ (range (sm_begin s) _)) as [[x|]| |] eqn:E1; try discriminate.
  - intros H. injection H as <- <-. eauto.
  - destruct (find_free_loop _ _ (range 0 _)) as [[x|]| |] eqn:E2; try discriminate. intros H. injection H as <- <-. eauto.
Qed.
Lemma alloc_none s s' r : sm_alloc s = (s', r) -> (forall b, r <> Ok (Some b)) -> s' = s.
Proof using.
  unfold sm_alloc. destruct (sm_find_free s (sm_begin s) _) as [[x|]| |].
  - intros H Hr. injection H as <- <-. exfalso. eapply Hr; eauto.
  - destruct (sm_find_free s 0 _) as [[x|]| |]; intros H Hr; injection H as <- <-; auto. exfalso. eapply Hr; eauto.
  - intros H _. injection H as <- _. auto.
  - intros H _. injection H as <- _. auto.
Qed.
Lemma safe_alloc_loc : safe K wb_alloc_loc (fun b => b <> 0).
Proof using.
  intros w (H0 & H1 & H2). unfold wb_alloc_loc. destruct (sm_alloc (wb_sm w)) as [s [[b|]| |]] eqn:E.
  - apply alloc_free in E as [Hb ->]. assert (b <> 0) by (intros ->; lia). split; auto. unfold K. cbn [wb_sm wb_log wb_queue sm_counts].
    rewrite upd_other by auto. auto.
  - apply alloc_none in E; [|discriminate]. subst. unfold K. auto.
  - apply alloc_none in E; [|discriminate]. subst. unfold K. auto.
  - unfold K; auto.
Qed.
Lemma safe_alloc : safe K wb_alloc nzb.
Proof using. unfold wb_alloc. eapply safe_bind; [apply safe_alloc_loc|]. intros b Hb w Hw. split; auto. Qed.
Lemma safe_alloc_zeroed : safe K wb_alloc_zeroed nzb.
Proof using. unfold wb_alloc_zeroed. eapply safe_bind; [apply safe_alloc_loc|]. intros b Hb. apply safe_ret. exact Hb. Qed.
Lemma safe_flush : safe K wb_flush any.
Proof using.
  intros w (H0 & (tail & H1 & H1') & H2). cbn. split; [|exact I]. unfold K. cbn [wb_sm wb_log wb_queue]. split; [auto|]. split; [|constructor].
  exists (tail ++ wb_queue w). rewrite H1, app_assoc. split; auto. apply Forall_app; auto.
Qed.
Lemma safe_clear : safe K wb_clear_allocations any.
Proof using. intros w H. cbn. split; [exact H|exact I]. Qed.
Lemma replace_first_nz q b : nzb b -> Forall nzb q -> match replace_first q b with Some q' => Forall nzb q' | None => True end.
Proof using.
  intros Hb. induction 1 as [|x q Hx Hq IH]; cbn [replace_first]; auto. destruct (b_loc x =? b_loc b); [constructor; auto|].
  destruct (replace_first q b); auto.
Qed.
Lemma safe_write b kind : nzb b -> safe K (wb_write b kind) any.
Proof using.
  intros Hb. unfold wb_write. eapply safe_bind; [apply safe_lift with (Q := any); intros; exact I|]. intros data _ w Hw.
  set (b' := mkblock (b_loc b) data). assert (Hb' : nzb b') by exact Hb. clearbody b'.
  unfold write_hit. pose proof (replace_first_nz (rev (wb_queue w)) b' Hb') as Hq.
  destruct Hw as (H0 & H1 & H2).
  destruct (replace_first _ _) as [q|].
  - split; [|exact I]. unfold K. cbn. split; [exact H0|]. split; [exact H1|]. apply Forall_rev. apply Hq. apply Forall_rev. auto.
  - split; [|exact I]. destruct (_ =? _).
    + destruct (safe_flush w (conj H0 (conj H1 H2))) as [(A & B & C) _]. unfold K. cbn in *. split; [exact A|]. split; [exact B|]. constructor; auto.
    + unfold K. cbn. split; [exact H0|]. split; [exact H1|]. apply Forall_app; auto.
Qed.
Lemma safe_read loc : safe K (wb_read loc) (fun b => b_loc b = loc).
Proof using.
  intros w Hw. unfold wb_read. destruct (find_queued _ _); [split; auto|]. destruct (wb_good w loc); auto.
Qed.
Lemma inc_loop_up bs : forall s s' r x, sm_inc_loop s bs = (s', r) -> sm_counts s x <= sm_counts s' x.
Proof using.
  induction bs as [|b bs IH]; intros s s' r x H; cbn [sm_inc_loop] in H; [injection H as <- _; lia|].
  destruct (sm_max s <=? sm_counts s b); [injection H as <- _; lia|]. apply (IH _ _ _ x) in H. cbn [sm_counts] in H.
  destruct (N.eqb_spec x b) as [->|]; [rewrite upd_same in H|rewrite upd_other in H by auto]; lia.
Qed.
Lemma safe_inc b : safe K (wb_inc b) any.
Proof using.
  intros w (H0 & H1 & H2). unfold wb_inc. destruct (sm_inc (wb_sm w) b 1) as [s r] eqn:E.
  assert (sm_counts (wb_sm w) 0 <= sm_counts s 0).
  { unfold sm_inc in E. destruct (_ <? _); [injection E as <- _; lia|]. eapply inc_loop_up; eauto. }
  assert (K (set_sm w s)) by (unfold K; cbn; conj; auto; lia). destruct r; auto. split; [auto|exact I].
Qed.
Lemma safe_dec b : b <> 0 -> safe K (wb_dec b) any.
Proof using.
  intros Hb w (H0 & H1 & H2). unfold wb_dec. destruct (sm_dec (wb_sm w) b) as [s r] eqn:E.
  assert (sm_counts s 0 = sm_counts (wb_sm w) 0).
  { unfold sm_dec in E. destruct (sm_get (wb_sm w) b) as [old| |]; try (injection E as <- _; reflexivity).
    destruct (old =? 0); [injection E as <- _; reflexivity|].
    unfold sm_set in E. destruct (_ <=? _); [injection E as <- _; reflexivity|]. destruct (_ <? _); [injection E as <- _; reflexivity|].
    injection E as <- _. cbn [sm_counts]. apply upd_other; auto. }
  assert (K (set_sm w s)) by (unfold K; cbn; conj; auto; lia). destruct r; auto. split; [auto|exact I].
Qed.
Lemma safe_write_node {V} (c : codec V) io ks vs : safe K (write_node c io ks vs) (fun p => snd p <> 0).
Proof using.
  unfold write_node. eapply safe_bind; [apply safe_alloc|]. intros b Hb.
  eapply safe_bind; [apply safe_lift with (Q := any); intros; exact I|]. intros data _.
  eapply safe_bind; [apply safe_write; exact Hb|]. intros _ _. apply safe_ret. exact Hb.
Qed.
Lemma safe_read_node {V} (c : codec V) io loc : safe K (read_node c io loc) any.
Proof using.
  unfold read_node. eapply safe_bind; [apply safe_read|]. intros b _.
  eapply safe_bind; [apply safe_lift with (Q := any); intros; exact I|]. intros n _. apply safe_lift. intros; exact I.
Qed.
End Wb.

(** ** NodeBuilder *)
Section Nb.
Variable pre : list block.
Context {V R : Type}.
Variable c : codec V.
Variable io : node_io V.
Variable shared : bool.
Variable rcinc : V -> st R unit.
Definition KB (s : wb * nbuilder V R) : Prop := K pre (fst s) /\ Forall nz (nb_nodes (snd s)).

Lemma safe_onw {A} (m : st wb A) Q : safe (K pre) m Q -> safe KB (onw m) Q.
Proof using.
  intros H [w b] [H1 H2]. unfold onw. specialize (H w H1). cbn [fst snd] in *. destruct (m w) as [w' [a| |]].
  - destruct H as [A1 A2]. split; [split|]; auto.
  - split; auto.
  - split; auto.
Qed.
Lemma safe_onrc {A} (m : st R A) : safe KB (onrc m) any.
Proof using.
  intros [w b] [H1 H2]. unfold onrc. destruct (m (nb_rc b)) as [rc [a| |]]; unfold KB; cbn [fst snd nb_nodes] in *; try split; auto. exact I.
Qed.
Lemma safe_onb f : (forall b, Forall nz (nb_nodes b) -> Forall nz (nb_nodes (f b))) -> safe KB (onb f) any.
Proof using. intros H [w b] [H1 H2]. unfold onb, KB. cbn [fst snd] in *. split; [|exact I]. split; auto. Qed.
Lemma safe_getb : safe KB getb (fun b => Forall nz (nb_nodes b)).
Proof using. intros [w b] [H1 H2]. unfold getb, KB. cbn [fst snd] in *. auto. Qed.
Ltac sb Hb := eapply safe_bind; [apply safe_getb|intros a Hb; cbv beta in Hb].
Tactic Notation "u" tactic3(x) := eapply safe_bind; [x|intros ? _].

Lemma safe_emit_values nr : safe KB (emit_values c io shared nr) any.
Proof using.
  unfold emit_values. sb Hb. apply safe_if; [apply safe_lift; discriminate|].
  u (apply safe_onb; auto). eapply safe_bind; [apply safe_onw, safe_write_node|]. intros [key loc] Hl. cbn [snd] in Hl.
  apply safe_onb. intros b' Hb'. cbn. apply Forall_app. split; [exact Hb'|]. constructor; [exact Hl|constructor].
Qed.
Lemma safe_emit_all : safe KB (emit_all c io shared) any.
Proof using.
  unfold emit_all. sb Hb. apply safe_if; [apply safe_ret; exact I|]. apply safe_if; [apply safe_emit_values|].
  apply safe_if; [|apply safe_lift; discriminate]. u (apply safe_emit_values). apply safe_emit_values.
Qed.
Lemma safe_inc_all vs : safe KB (inc_all rcinc vs) any.
Proof using. induction vs as [|v vs IH]; cbn [inc_all]; [apply safe_ret; exact I|]. u (apply safe_onrc). exact IH. Qed.
Lemma safe_unshift : safe KB (unshift_node c io rcinc) any.
Proof using.
  unfold unshift_node. sb Hb. destruct (rev (nb_nodes a)) as [|ls r] eqn:E; [apply safe_lift; discriminate|].
  assert (Hn : nb_nodes a = rev r ++ [ls]) by (rewrite <- (rev_involutive (nb_nodes a)), E; reflexivity). rewrite Hn in Hb.
  apply Forall_app in Hb as [Hb1 Hb2]. inversion Hb2; subst.
  u (apply safe_onb; intros ? _; exact Hb1).
  eapply safe_bind; [apply safe_onw, safe_read_node|]. intros [keys values] _.
  u (apply safe_onw, safe_dec; assumption).
  u (apply safe_if; [apply safe_inc_all|apply safe_ret; exact I]). apply safe_onb; auto.
Qed.
Lemma safe_check_ordered key : safe KB (check_ordered_key (V := V) (R := R) key) any.
Proof using.
  unfold check_ordered_key. sb Hb. destruct (nb_last a); [apply safe_if; [apply safe_fail|]|]; apply safe_onb; auto.
Qed.
Lemma safe_push_value key v : safe KB (push_value c io shared rcinc key v) any.
Proof using.
  unfold push_value. sb Hb. eapply safe_bind with (Q := any).
  - assert (forall b : bool, safe KB (if b then emit_node c io shared else ret tt) any) by
      (intros; apply safe_if; [apply safe_emit_values|apply safe_ret; exact I]).
    destruct (nb_nodes a) as [|x [|y l]]; auto. apply safe_if; auto. apply safe_unshift.
  - intros _ _. u (apply safe_check_ordered). u (apply safe_onrc). apply safe_onb; auto.
Qed.
Lemma safe_append_values n : safe KB (append_values c io rcinc n) any.
Proof using.
  unfold append_values. eapply safe_bind; [apply safe_onw, safe_read_node|]. intros [keys values] _.
  u (apply safe_inc_all). apply safe_onb; auto.
Qed.
Lemma safe_add_nodes ns : Forall nz ns -> safe KB (add_nodes (V := V) (R := R) ns) any.
Proof using.
  induction 1 as [|x ns Hx H IH]; cbn [add_nodes]; [apply safe_ret; exact I|].
  u (apply safe_onw, safe_inc). u (apply safe_onb; intros b Hb; cbn; apply Forall_app; split; auto). exact IH.
Qed.
Lemma safe_push_nodes ns : Forall nz ns -> safe KB (push_nodes c io shared rcinc ns) any.
Proof using.
  intros H. unfold push_nodes. destruct ns as [|n0 rest]; [apply safe_lift; discriminate|].
  pose proof H as Hall. inversion H as [|? ? Hn0 Hrest]; subst. sb Hb.
  assert (Hmain : safe KB
    (if negb (Nat.eqb (length rest) 0) && existsb (fun n => su_nr n <? half c) (n0 :: rest) then lift Panic else
          if match nb_last a with Some last => su_key n0 <=? last | None => false end then fail else
          _ <~ (match nb_nodes a with
                | [n] => if su_nr n <? half c then unshift_node c io rcinc else ret tt
                | _ => ret tt
                end) ;;
          b <~ getb ;;
          _ <~ (if negb (nlen (nb_values b) =? 0) && (nlen (nb_values b) <? half c) then
                  _ <~ append_values c io rcinc n0 ;;
                  match rest with
                  | [] => ret tt
                  | _ => _ <~ emit_all c io shared ;; add_nodes rest
                  end
                else
                  _ <~ emit_all c io shared ;;
                  if su_nr n0 <? half c then append_values c io rcinc n0 else add_nodes (n0 :: rest)) ;;
          onb (set_last (su_key (last (n0 :: rest) n0)))) any).
  { apply safe_if; [apply safe_lift; discriminate|]. apply safe_if; [apply safe_fail|].
    eapply safe_bind with (Q := any).
    { destruct (nb_nodes a) as [|x [|y l]]; try (apply safe_ret; exact I). apply safe_if; [apply safe_unshift|apply safe_ret; exact I]. }
    intros _ _. eapply safe_bind; [apply safe_getb|]. intros b' Hb'. eapply safe_bind with (Q := any).
    { apply safe_if.
      - u (apply safe_append_values). destruct rest; [apply safe_ret; exact I|]. u (apply safe_emit_all). apply safe_add_nodes; auto.
      - u (apply safe_emit_all). apply safe_if; [apply safe_append_values|apply safe_add_nodes; auto]. }
    intros _ _. apply safe_onb; auto. }
  destruct rest; [|exact Hmain]. destruct (nb_nodes a); [|exact Hmain]. destruct (nb_values a); [|exact Hmain].
  apply safe_add_nodes; auto.
Qed.
Lemma safe_nb_complete : safe KB (nb_complete c io shared rcinc) (Forall nz).
Proof using.
  unfold nb_complete. sb Hb. u (apply safe_if; [apply safe_unshift|apply safe_ret; exact I]).
  u (apply safe_emit_all). eapply safe_bind; [apply safe_getb|]. intros b2 Hb2.
  eapply safe_bind with (Q := any). { destruct (nb_nodes b2); [apply safe_emit_values|apply safe_ret; exact I]. }
  intros _ _. eapply safe_bind; [apply safe_getb|]. intros b3 Hb3. apply safe_ret. exact Hb3.
Qed.
Definition op_nz (o : @build_op V) : Prop := match o with PushValue _ _ => True | PushNodes ns => Forall nz ns end.
Lemma safe_do_ops os : Forall op_nz os -> safe KB (do_ops c io shared rcinc os) any.
Proof using.
  induction 1 as [|o os Ho H IH]; cbn [do_ops]; [apply safe_ret; exact I|].
  eapply safe_bind with (Q := any); [|intros; exact IH]. destruct o; cbn [do_op op_nz] in *; [apply safe_push_value|apply safe_push_nodes; auto].
Qed.
Lemma safe_build_nodes os rc : Forall op_nz os -> safe (K pre) (build_nodes c io shared rcinc os rc) (fun p => Forall nz (fst p)).
Proof using.
  intros Hos w Hw. unfold build_nodes.
  assert (H : safe KB (_ <~ do_ops c io shared rcinc os ;; nb_complete c io shared rcinc) (Forall nz)).
  { eapply safe_bind; [apply safe_do_ops; auto|]. intros _ _. apply safe_nb_complete. }
  specialize (H (w, nb_new rc) (conj Hw (Forall_nil _))). destruct (bindst _ _ _) as [[w' b'] [ns| |]].
  - destruct H as [[H1 _] H2]. auto.
  - apply H. - apply H.
Qed.
End Nb.

(** ** Trees, space maps *)
Tactic Notation "u" tactic3(x) := eapply safe_bind; [x|intros ? _].
Section Trees.
Variable pre : list block.
Notation KP := (K pre).
Notation KO := (KB pre (V := N) (R := unit)).

Lemma values_nz {V A} (f : A -> @build_op V) l : (forall x, exists k v, f x = PushValue k v) -> Forall op_nz (map f l).
Proof using. intros H. apply Forall_forall. intros o Ho. apply in_map_iff in Ho as (x & <- & _). destruct (H x) as (k & v & ->). exact I. Qed.
Lemma safe_build_levels fuel : forall ns, Forall nz ns -> safe KP (build_levels fuel ns) (fun r => r <> 0).
Proof using.
  induction fuel as [|f IH]; intros ns H; destruct ns as [|a [|b r]]; cbn [build_levels]; try (apply safe_lift; discriminate).
  - apply safe_ret. inversion H; auto.
  - apply safe_ret. inversion H; auto.
  - eapply safe_bind.
    + apply safe_build_nodes. apply values_nz. eauto.
    + intros [up u0] Hup. cbn [fst] in Hup. apply IH; auto.
Qed.
Lemma safe_build_btree ns : Forall nz ns -> safe KP (build_btree ns) (fun r => r <> 0).
Proof using. apply safe_build_levels. Qed.
Lemma safe_btree_build {V R} (c : codec V) (rcinc : V -> st R unit) os rc : Forall op_nz os ->
  safe KP (btree_build c rcinc os rc) (fun p => fst p <> 0).
Proof using.
  intros H. unfold btree_build. eapply safe_bind; [apply safe_build_nodes; auto|]. intros [leaves rc'] Hl. cbn [fst] in Hl.
  eapply safe_bind; [apply safe_build_btree; auto|]. intros root Hr. apply safe_ret. exact Hr.
Qed.
Lemma safe_release_leaves {V R} (c : codec V) (rcdec : V -> st R unit) ns : Forall nz ns ->
  safe (fun s => KP (fst s)) (release_leaves c rcdec ns) any.
Proof using.
  induction 1 as [|x ns Hx H IH]; cbn [release_leaves]; [apply safe_ret; exact I|]. intros [w rc] Hw. cbn [fst snd] in *.
  pose proof (safe_dec pre (su_block x) Hx w Hw) as Hd. destruct (wb_dec (su_block x) w) as [w1 [[]| |]]; [| |exact Hd|exact Hd].
  - destruct Hd as [Hd _]. pose proof (safe_read_node pre c (leaf_io V) (su_block x) w1 Hd) as Hr.
    destruct (read_node c (leaf_io V) (su_block x) w1) as [w2 [[ks vs]| |]]; [|exact Hr|exact Hr]. destruct Hr as [Hr _].
    destruct (dec_all rcdec vs rc) as [rc' [t| |]]; [|exact Hr|exact Hr]. apply (IH (w2, rc') Hr).
  - destruct Hd as [Hd _]. apply (IH (w1, rc) Hd).
Qed.
Lemma safe_release_runs {V R} (c : codec V) (rcdec : V -> st R unit) runs : Forall (Forall nz) runs ->
  safe (fun s => KP (fst s)) (release_runs c rcdec runs) any.
Proof using.
  induction 1 as [|x ns Hx H IH]; cbn [release_runs]; [apply safe_ret; exact I|]. u (apply safe_release_leaves; auto). exact IH.
Qed.

Lemma safe_write_bitmap es : safe KP (write_bitmap es) (fun b => b <> 0).
Proof using.
  unfold write_bitmap. eapply safe_bind; [apply safe_alloc_zeroed|]. intros b Hb.
  u (apply safe_lift with (Q := any); intros; exact I). u (apply safe_lift with (Q := any); intros; exact I).
  u (apply safe_write; exact Hb). apply safe_ret. exact Hb.
Qed.
Lemma safe_complete_tree {V} (c : codec V) : safe (KB pre) (complete_tree c) (fun r => r <> 0).
Proof using. unfold complete_tree. eapply safe_bind; [apply safe_nb_complete|]. intros ns Hns. apply safe_onw, safe_build_btree. exact Hns. Qed.
Lemma safe_complete_overflow : safe KO complete_overflow (fun r => r <> 0).
Proof using. exact (safe_complete_tree u32_codec). Qed.
Lemma safe_with_overflow {A} (m : st ost A) Q : safe KO m Q -> safe KP (with_overflow m) Q.
Proof using.
  intros H w Hw. unfold with_overflow. specialize (H (w, nb_new tt) (conj Hw (Forall_nil _))).
  destruct (m (w, nb_new tt)) as [[w' b'] [a| |]]; [|apply H|apply H]. destruct H as [[H1 _] H2]. auto.
Qed.
Definition nzi (ie : index_entry) : Prop := ie_blocknr ie <> 0.
Lemma safe_wc_entries sm begin is : forall acc, safe KO (wc_entries sm begin is acc) any.
Proof using.
  induction is as [|i is IH]; intros acc; cbn [wc_entries]; [apply safe_ret; exact I|]. destruct acc as [[es ff] nf].
  eapply safe_bind; [apply safe_lift with (Q := any); intros; exact I|]. intros rc _.
  eapply safe_bind with (Q := any); [|intros; apply IH].
  repeat (apply safe_if; [apply safe_ret; exact I|]). u (apply safe_push_value). apply safe_ret; exact I.
Qed.
Lemma safe_wc_bitmaps sm bms : safe KO (wc_bitmaps sm bms) (Forall nzi).
Proof using.
  induction bms as [|bm bms IH]; cbn [wc_bitmaps]; [apply safe_ret; constructor|].
  eapply safe_bind with (Q := nzi).
  - unfold wc_bitmap. eapply safe_bind; [apply safe_wc_entries|]. intros [[es ff] nf] _.
    eapply safe_bind; [apply safe_onw, safe_write_bitmap|]. intros loc Hl. apply safe_ret. exact Hl.
  - intros ie Hie. eapply safe_bind; [exact IH|]. intros ies Hies. apply safe_ret. constructor; auto.
Qed.
Lemma safe_write_disk_sm sm : safe KP (write_disk_sm sm) any.
Proof using.
  unfold write_disk_sm, write_common. eapply safe_bind with (Q := any).
  - apply safe_with_overflow. eapply safe_bind; [apply safe_wc_bitmaps|]. intros ies _.
    eapply safe_bind; [apply safe_complete_overflow|]. intros root _. apply safe_ret. exact I.
  - intros [ies rc_root] _. eapply safe_bind; [apply safe_btree_build, values_nz; eauto|]. intros [root x] _.
    u (apply safe_flush). apply safe_ret. exact I.
Qed.
Lemma safe_mc_write s : Forall nzi (mc_out s) -> safe KO (mc_write s) (Forall nzi).
Proof using.
  intros H. unfold mc_write. eapply safe_bind; [apply safe_onw, safe_write_bitmap|]. intros loc Hl. apply safe_ret. constructor; auto.
Qed.
Lemma safe_mc_block b s : Forall nzi (mc_out s) -> safe KO (mc_block b s) (fun s => Forall nzi (mc_out s)).
Proof using.
  intros H. unfold mc_block. eapply safe_bind with (Q := fun s => Forall nzi (mc_out s)).
  - apply safe_if; [|apply safe_ret; auto]. eapply safe_bind; [apply safe_mc_write; auto|]. intros out Ho. apply safe_ret. exact Ho.
  - intros s' Hs'. eapply safe_bind with (Q := any).
    { apply safe_onw. intros w Hw. destruct (sm_get (wb_sm w) b); auto. split; [auto|exact I]. }
    intros rc _. apply safe_if; [apply safe_ret; exact Hs'|]. apply safe_if; [apply safe_ret; exact Hs'|].
    u (apply safe_push_value). apply safe_ret. exact Hs'.
Qed.
Lemma safe_mc_blocks bs : forall s, Forall nzi (mc_out s) -> safe KO (mc_blocks bs s) (fun s => Forall nzi (mc_out s)).
Proof using.
  induction bs as [|b bs IH]; intros s H; cbn [mc_blocks]; [apply safe_ret; auto|].
  eapply safe_bind; [apply safe_mc_block; auto|]. intros s' Hs'. apply IH. exact Hs'.
Qed.
Lemma safe_mc_rest k : safe KO (mc_rest k) (Forall nzi).
Proof using.
  induction k as [|k IH]; cbn [mc_rest]; [apply safe_ret; constructor|].
  eapply safe_bind; [apply safe_onw, safe_write_bitmap|]. intros loc Hl. eapply safe_bind; [exact IH|]. intros r Hr.
  apply safe_ret. constructor; auto.
Qed.
Lemma safe_metadata_common : safe KP write_metadata_common (fun p => Forall nzi (fst p)).
Proof using.
  unfold write_metadata_common. apply safe_with_overflow. u (apply safe_onw, safe_clear).
  eapply safe_bind; [apply safe_mc_blocks; constructor|]. intros s Hs. eapply safe_bind; [apply safe_mc_write; auto|]. intros out Ho.
  eapply safe_bind with (Q := any). { apply safe_onw. intros w Hw. split; [auto|exact I]. } intros nr _.
  eapply safe_bind; [apply safe_mc_rest|]. intros more Hmore. eapply safe_bind; [apply safe_complete_overflow|]. intros root _.
  apply safe_ret. cbn [fst]. apply Forall_app. split; auto. apply Forall_rev. auto.
Qed.
Lemma safe_adjust_counts ie b e : nzi ie -> safe KP (adjust_counts ie b e) nzi.
Proof using.
  intros H. unfold adjust_counts. eapply safe_bind; [apply safe_read|]. intros blk Hblk. cbv beta in Hblk.
  eapply safe_bind; [apply safe_lift with (Q := any); intros; exact I|]. intros [bm x] _.
  eapply safe_bind; [apply safe_lift with (Q := any); intros; exact I|]. intros [es ff] _.
  u (apply safe_lift with (Q := any); intros; exact I). u (apply safe_lift with (Q := any); intros; exact I).
  u (apply safe_write; unfold nzb; cbn [b_loc]; rewrite Hblk; exact H). apply safe_ret. exact H.
Qed.
Lemma safe_adjust_range rs re ies : Forall nzi ies -> forall bm, safe KP (adjust_range rs re bm ies) (Forall nzi).
Proof using.
  induction 1 as [|ie ies Hie H IH]; intros bm; cbn [adjust_range]; [apply safe_ret; constructor|].
  eapply safe_bind with (Q := nzi). { apply safe_if; [apply safe_adjust_counts; auto|apply safe_ret; auto]. }
  intros ie' Hie'. eapply safe_bind; [apply IH|]. intros r Hr. apply safe_ret. constructor; auto.
Qed.
Lemma safe_adjust_ranges rs : forall ies, Forall nzi ies -> safe KP (adjust_ranges rs ies) (Forall nzi).
Proof using.
  induction rs as [|[s e] rs IH]; intros ies H; cbn [adjust_ranges]; [apply safe_ret; auto|].
  eapply safe_bind; [apply safe_adjust_range; auto|]. intros ies' H'. apply IH. exact H'.
Qed.
Lemma safe_write_metadata_sm : safe KP write_metadata_sm any.
Proof using.
  unfold write_metadata_sm. eapply safe_bind; [apply safe_metadata_common|]. intros [ies rc_root] Hi. cbn [fst] in Hi.
  eapply safe_bind; [apply safe_alloc_zeroed|]. intros b Hb. u (apply safe_clear).
  eapply safe_bind; [apply safe_adjust_ranges; auto|]. intros ies' Hi'.
  u (apply safe_lift with (Q := any); intros; exact I). u (apply safe_lift with (Q := any); intros; exact I).
  u (apply safe_write; exact Hb). u (apply safe_flush). intros w Hw. split; [auto|exact I].
Qed.
Lemma metadata_sm_flushed w w' r : write_metadata_sm w = (w', Ok r) -> wb_queue w' = [].
Proof using.
  unfold write_metadata_sm. unfold bindst at 1. destruct (write_metadata_common w) as [w1 [[ies rr]| |]]; try discriminate.
  unfold bindst at 1. destruct (wb_alloc_zeroed w1) as [w2 [b| |]]; try discriminate.
  unfold bindst at 1. destruct (wb_clear_allocations w2) as [w3 [al| |]]; try discriminate.
  unfold bindst at 1. destruct (adjust_ranges _ _ w3) as [w4 [ies'| |]]; try discriminate.
  unfold bindst at 1. destruct (lift (mi_pack _) w4) as [w5 [p| |]]; try discriminate.
  unfold bindst at 1. destruct (lift (overwrite _ _) w5) as [w6 [dt| |]]; try discriminate.
  unfold bindst at 1. destruct (wb_write _ _ w6) as [w7 [t| |]]; try discriminate.
  unfold bindst, wb_flush. intros H. injection H as <- _. reflexivity.
Qed.
End Trees.

(** ** The restorer *)
Section Restorer.
Variable pre : list block.
Definition KR (s : rstate) : Prop :=
  K pre (r_w s) /\ Forall (Forall nz) (map snd (r_subs s)) /\
  match r_cur s with Some (_, b) => Forall nz (nb_nodes b) | None => True end.
Lemma safe_modify f : (forall s, KR s -> KR (f s)) -> safe KR (modify f) any.
Proof using. intros H s Hs. unfold modify. split; [auto|exact I]. Qed.
Lemma safe_get {A} (f : rstate -> A) (Q : A -> Prop) : (forall s, KR s -> Q (f s)) -> safe KR (get f) Q.
Proof using. intros H s Hs. unfold get. auto. Qed.
Lemma safe_on_w {A} (m : st wb A) Q : safe (K pre) m Q -> safe KR (on_w m) Q.
Proof using.
  intros H s (H1 & H2 & H3). unfold on_w. specialize (H (r_w s) H1). destruct (m (r_w s)) as [w [a| |]]; unfold KR; cbn.
  - destruct H. auto. - auto. - auto.
Qed.
Lemma safe_on_builder {A} b (m : st (wb * nbuilder block_time core_sm) A) Q : Forall nz (nb_nodes b) -> safe (KB pre) m Q ->
  safe KR (on_builder b m) (fun p => Q (fst p) /\ Forall nz (nb_nodes (snd p))).
Proof using.
  intros Hb H s (H1 & H2 & H3). unfold on_builder. destruct (r_dsm s) as [dsm|]; [|unfold KR; auto].
  specialize (H (r_w s, mknb (nb_values b) (nb_nodes b) (nb_last b) dsm) (conj H1 Hb)).
  destruct (m _) as [[w b'] [a| |]].
  - destruct H as [[A1 A2] A3]. unfold KR. cbn in *. auto.
  - destruct H as [A1 A2]. unfold KR. cbn in *. auto.
  - destruct H as [A1 A2]. unfold KR. cbn in *. auto.
Qed.
Lemma safe_begin sec : safe KR (begin_section sec) any.
Proof using.
  unfold begin_section. eapply safe_bind; [apply safe_get with (Q := any); intros; exact I|]. intros [x|] _; [apply safe_fail|].
  eapply safe_bind; [apply safe_get with (Q := any); intros; exact I|]. intros [d|] _; [|apply safe_lift; discriminate].
  apply safe_modify. intros s (H1 & H2 & H3). unfold KR. cbn. auto.
Qed.
Lemma safe_end : safe KR end_section (fun p => Forall nz (snd p)).
Proof using.
  unfold end_section. eapply safe_bind; [apply safe_get with (Q := fun cur => match cur with Some (_, b) => Forall nz (nb_nodes b) | None => True end); intros s Hs; apply Hs|].
  intros cur Hcur. u (apply safe_modify; intros s (H1 & H2 & H3); unfold KR; cbn; auto).
  destruct cur as [[sec b]|]; [|apply safe_fail].
  eapply safe_bind; [apply safe_on_builder; [exact Hcur|apply safe_nb_complete]|]. intros [ns b'] [Hns _]. apply safe_ret. exact Hns.
Qed.
Definition KD (s : dst) : Prop := KB pre (fst s) /\ Forall nz (nb_nodes (snd s)).
Lemma safe_on_details {A} (m : st (wb * nbuilder device_detail unit) A) Q : safe (KB pre) m Q -> safe KD (on_details m) Q.
Proof using.
  intros H [s1 b2] [H1 H2]. cbn [fst snd] in *. unfold on_details. specialize (H s1 H1). destruct (m s1) as [s1' [a| |]]; unfold KD; cbn [fst snd].
  - destruct H; auto. - auto. - auto.
Qed.
Lemma safe_on_mapping {A} (m : st (wb * nbuilder N unit) A) Q : safe (KB pre) m Q -> safe KD (on_mapping m) Q.
Proof using.
  intros H [[w b1] b2] [[H1 H2] H3]. cbn [fst snd] in *. unfold on_mapping. specialize (H (w, b2) (conj H1 H3)).
  destruct (m (w, b2)) as [[w' b2'] [a| |]]; unfold KD, KB in *; cbn [fst snd] in *; tauto.
Qed.
Lemma safe_push_devices devs : safe KD (push_devices devs) any.
Proof using.
  induction devs as [|[id [dd root]] devs IH]; cbn [push_devices]; [apply safe_ret; exact I|].
  u (apply safe_on_details, safe_push_value). u (apply safe_on_mapping, safe_push_value). exact IH.
Qed.
Lemma safe_device_details devs : safe (K pre) (build_device_details devs) any.
Proof using.
  intros w Hw. unfold build_device_details.
  assert (H : safe KD (_ <~ push_devices devs ;;
     details <~ on_details (complete_tree dd_codec) ;;
     mapping <~ on_mapping (complete_tree u64_codec) ;;
     ret (details, mapping)) any).
  { u (apply safe_push_devices). eapply safe_bind; [apply safe_on_details, safe_complete_tree|]. intros dr _.
    eapply safe_bind; [apply safe_on_mapping, safe_complete_tree|]. intros mr _. apply safe_ret. exact I. }
  specialize (H ((w, nb_new tt), nb_new tt) (conj (conj Hw (Forall_nil _)) (Forall_nil _))).
  destruct (bindst _ _ _) as [[[w' b1] b2] [a| |]]; unfold KD, KB in H; cbn [fst snd] in H; tauto.
Qed.
Lemma safe_release : safe KR release_subtrees any.
Proof using.
  intros s (H1 & H2 & H3). unfold release_subtrees. destruct (r_dsm s) as [dsm|]; [|unfold KR; auto].
  pose proof (safe_release_runs pre bt_codec mapping_dec (map snd (r_subs s)) H2 (r_w s, dsm) H1) as H.
  destruct (release_runs _ _ _ _) as [[w d'] [a| |]]; unfold KR, any; cbn in *; tauto.
Qed.
Lemma safe_check sec : safe KR (check_section sec) any.
Proof using.
  unfold check_section. eapply safe_bind; [apply safe_get with (Q := any); intros; exact I|]. intros x _.
  apply safe_if; [apply safe_ret; exact I|apply safe_fail].
Qed.
Ltac km := apply safe_modify; intros s (H1 & H2 & H3); unfold KR; cbn; auto.
Lemma safe_def_b name : safe KR (def_shared_b name) any.
Proof using. unfold def_shared_b. u (apply safe_check). u km. apply safe_begin. Qed.
Lemma insert_nz k ns : Forall nz ns -> forall m, Forall (Forall nz) (map snd m) -> Forall (Forall nz) (map snd (bmap_insert k ns m)).
Proof using.
  intros Hn. induction m as [|[k' v] m IH]; cbn [bmap_insert map snd]; intros H; [constructor; auto|].
  inversion H; subst. destruct (k <? k'); [|destruct (k =? k')]; cbn [map snd]; repeat constructor; auto.
Qed.
Lemma safe_def_e : safe KR def_shared_e any.
Proof using.
  unfold def_shared_e. eapply safe_bind; [apply safe_end|]. intros [sec ns] Hns. cbn [snd] in Hns. destruct sec; [|apply safe_fail].
  eapply safe_bind with (Q := any).
  - intros s (H1 & H2 & H3). split; [|exact I]. unfold KR. cbn. split; [auto|]. split; [|auto]. apply insert_nz; auto.
  - intros _ _. km.
Qed.
Lemma safe_dev_b d : safe KR (device_b d) any.
Proof using. unfold device_b. u (apply safe_check). u km. u km. apply safe_begin. Qed.
Lemma safe_dev_e : safe KR device_e any.
Proof using.
  unfold device_e. eapply safe_bind; [apply safe_get with (Q := any); intros; exact I|]. intros dev _. u km.
  destruct dev as [dd|]; [|apply safe_fail]. eapply safe_bind; [apply safe_end|]. intros [sec ns] Hns. cbn [snd] in Hns.
  destruct sec; [apply safe_fail|]. eapply safe_bind; [apply safe_on_w, safe_build_btree; auto|]. intros root _.
  eapply safe_bind with (Q := any).
  - intros s (H1 & H2 & H3). split; [|exact I]. unfold KR. cbn. auto.
  - intros _ _. km.
Qed.
Lemma safe_on_current os : Forall op_nz os -> safe KR (on_current os) any.
Proof using.
  intros Hos. unfold on_current. eapply safe_bind; [apply safe_get with (Q := fun cur => match cur with Some (_, b) => Forall nz (nb_nodes b) | None => True end); intros s Hs; apply Hs|].
  intros [[sec b]|] Hb; [|apply safe_fail]. eapply safe_bind; [apply safe_on_builder; [exact Hb|apply safe_do_ops; auto]|].
  intros [x b'] [_ Hb']. apply safe_modify. intros s (H1 & H2 & H3). unfold KR. cbn. auto.
Qed.
Lemma safe_map m : safe KR (restore_map m) any.
Proof using. apply safe_on_current, values_nz. eauto. Qed.
Lemma safe_ref name : safe KR (restore_ref name) any.
Proof using.
  unfold restore_ref. eapply safe_bind; [apply safe_get with (Q := any); intros; exact I|]. intros [dd|] _; [|apply safe_fail].
  eapply safe_bind; [apply safe_get with (Q := fun subs => Forall (Forall nz) (map snd subs)); intros s Hs; apply Hs|]. intros subs Hs.
  destruct (find _ subs) as [[k ns]|] eqn:E; [|apply safe_fail]. apply find_some in E as [E _]. apply safe_on_current.
  constructor; [|constructor]. cbn. rewrite Forall_forall in Hs. apply Hs. apply in_map_iff. exists (k, ns). auto.
Qed.
End Restorer.
