(** The batcher of a restore takes blocks in order (the hypothesis of C17): every operation
    of the builders and of write_disk_sm keeps [CI], provided reference counts are only
    raised for blocks in [U], which have been allocated. *)
From Verif Require Import Base Csum_Model Codec_Model Codec_Spec SpaceMap_Model SpaceMap_Spec SpaceMap_Proofs Batcher_Model Batcher_Proofs Builder_Model Session_Model
  ThinOut_Model Walker_Model SmWrite_Model Restore_Model RestoreSafe_Proofs SmAlloc_Proofs Props_SmWrite.

Section J.
Variables n max : N.
Hypothesis Hn : n < 2 ^ 64.
Variable U : list N.
Definition J (w : wb) : Prop := CI n max w /\ forall b, In b U -> In b (wb_allocs w).

Lemma J_same w w' : J w -> wb_sm w' = wb_sm w -> wb_allocs w' = wb_allocs w -> J w'.
Proof using. intros [A B] H1 H2. split; [eapply CI_same; eauto|rewrite H2; auto]. Qed.
Lemma j_alloc_loc : safe J wb_alloc_loc any.
Proof using Hn.
  intros w [A B]. destruct (wb_alloc_loc w) as [w' r] eqn:E.
  assert (J w').
  { split; [eapply CI_alloc; eauto|]. unfold wb_alloc_loc in E. destruct (sm_alloc (wb_sm w)) as [s [[b|]| |]]; injection E as <- _; cbn; auto. }
  destruct r; auto. split; [auto|exact I].
Qed.
Lemma j_alloc : safe J wb_alloc any.
Proof using Hn. unfold wb_alloc. eapply safe_bind; [apply j_alloc_loc|]. intros b Hb w Hw. split; [auto|exact I]. Qed.
Lemma j_alloc_zeroed : safe J wb_alloc_zeroed any.
Proof using Hn. unfold wb_alloc_zeroed. eapply safe_bind; [apply j_alloc_loc|]. intros b Hb. apply safe_ret. exact I. Qed.
Lemma j_flush : safe J wb_flush any.
Proof using. intros w H. cbn. split; [|exact I]. eapply J_same; eauto. Qed.
Lemma j_write b kind : safe J (wb_write b kind) any.
Proof using.
  intros w H. destruct (wb_write b kind w) as [w' r] eqn:E. apply wb_write_same in E as [E1 E2].
  assert (J w') by (eapply J_same; eauto). destruct r; auto. split; [auto|exact I].
Qed.
Lemma j_read loc : safe J (wb_read loc) any.
Proof using. intros w Hw. unfold wb_read. destruct (find_queued _ _); [split; [auto|exact I]|]. destruct (wb_good w loc); auto. split; [auto|exact I]. Qed.
Lemma CI_inc_ok w b : CI n max w -> In b (wb_allocs w) -> CI n max (fst (wb_inc b w)) /\ wb_allocs (fst (wb_inc b w)) = wb_allocs w.
Proof using Hn.
  intros (I & k & (Hk & Ha & Ho) & Hb) Hin. apply Ha in Hin. unfold wb_inc. destruct (sm_inc (wb_sm w) b 1) as [s r] eqn:Es. cbn [fst].
  split; [|reflexivity].
  unfold sm_inc in Es. rewrite N.mod_small in Es by (unfold W64; lia). rewrite (inv_nr _ _ _ I) in Es.
  destruct (N.ltb_spec n (b + 1)).
  { injection Es as <- <-. split; auto. exists k. split; auto. unfold contiguous; cbn; auto. }
  assert (Hbg : sm_begin s = sm_begin (wb_sm w)).
  { rewrite (range_cons b (b + 1)), (range_nil (b + 1) (b + 1)) in Es by lia. cbn [sm_inc_loop] in Es.
    destruct (sm_max (wb_sm w) <=? sm_counts (wb_sm w) b); injection Es as <- <-; auto. }
  apply (sm_inc_loop_spec n max) in Es; auto; try lia. destruct Es as [I' Hs].
  assert (Hcn : forall x, k <= x -> sm_counts s x = 0).
  { intros x Hx. destruct Hs as [(_ & _ & Hs)|(_ & sat & Hsat & _ & _ & Hs)]; rewrite Hs.
    - destruct (N.leb_spec b x), (N.ltb_spec x (b + 1)); cbn [andb]; auto; lia.
    - destruct (N.leb_spec b x), (N.ltb_spec x sat); cbn [andb]; auto; lia. }
  split; auto. exists k. unfold contiguous. cbn [set_sm wb_sm wb_allocs]. rewrite Hbg. conj; auto.
Qed.
Lemma j_inc b : In b U -> safe J (wb_inc b) any.
Proof using Hn.
  intros HU w [A B]. destruct (CI_inc_ok w b A (B b HU)) as [C D]. destruct (wb_inc b w) as [w' r]. cbn [fst] in *.
  assert (J w') by (split; [auto|rewrite D; auto]). destruct r; auto. split; [auto|exact I].
Qed.
Lemma CI_dec_ok w b : CI n max w -> CI n max (fst (wb_dec b w)) /\ wb_allocs (fst (wb_dec b w)) = wb_allocs w.
Proof using Hn.
  intros H0. destruct H0 as (I & k & (Hk & Ha & Ho) & Hb). unfold wb_dec. destruct (sm_dec (wb_sm w) b) as [s r] eqn:Es. cbn [fst].
  split; [|reflexivity].
  assert (HS : sm_inv n max s /\ sm_begin s = sm_begin (wb_sm w) /\ forall x, k <= x -> sm_counts s x = 0).
  { unfold sm_dec in Es. rewrite (sm_get_spec n max) in Es by auto. destruct (N.ltb_spec b n) as [Hbn|]; [|injection Es as <- <-; auto].
    destruct (N.eqb_spec (sm_counts (wb_sm w) b) 0) as [|E0]; [injection Es as <- <-; auto|].
    assert (Hb1 : forall s1 r1, sm_set (wb_sm w) b (sm_counts (wb_sm w) b - 1) = (s1, r1) -> sm_begin s1 = sm_begin (wb_sm w)).
    { unfold sm_set. intros s1 r1 H1. destruct (_ <=? _); [injection H1 as <- <-; auto|]. destruct (_ <? _); injection H1 as <- <-; auto. }
    destruct (sm_set (wb_sm w) b (sm_counts (wb_sm w) b - 1)) as [s1 r1] eqn:E1. pose proof (Hb1 _ _ eq_refl) as Hb2. clear Hb1.
    apply (sm_set_spec n max) in E1; auto. destruct E1 as [I' Hcs].
    assert (s = s1) as -> by (destruct r1; injection Es as <- <-; auto). conj; auto.
    intros x Hx. destruct Hcs as [(_ & _ & _ & Hcs)|(_ & _ & ->)]; [|auto]. rewrite Hcs, upd_spec.
    destruct (N.eqb_spec x b) as [->|]; auto. exfalso. auto. }
  destruct HS as (I' & Hbg & Hcn). split; auto. exists k. unfold contiguous. cbn [set_sm wb_sm wb_allocs]. rewrite Hbg. conj; auto.
Qed.
Lemma j_dec b : safe J (wb_dec b) any.
Proof using Hn.
  intros w [A B]. destruct (CI_dec_ok w b A) as [C D]. destruct (wb_dec b w) as [w' r]. cbn [fst] in *.
  assert (J w') by (split; [auto|rewrite D; auto]). destruct r; auto. split; [auto|exact I].
Qed.
Lemma j_lift {S A} (P : S -> Prop) (r : res A) : safe P (lift r) any.
Proof using. apply safe_lift. intros; exact I. Qed.
Lemma j_ret {S A} (P : S -> Prop) (a : A) : safe P (ret a) any.
Proof using. apply safe_ret. exact I. Qed.
Lemma j_fail {S A} (P : S -> Prop) : safe P (@fail S A) any.
Proof using. apply safe_fail. Qed.
Tactic Notation "u" tactic3(x) := eapply safe_bind with (Q := any); [x|intros ? _].
Lemma j_write_node {V} (c : codec V) io ks vs : safe J (write_node c io ks vs) any.
Proof using Hn. unfold write_node. u (apply j_alloc). u (apply j_lift). u (apply j_write). apply j_ret. Qed.
Lemma j_read_node {V} (c : codec V) io loc : safe J (read_node c io loc) any.
Proof using. unfold read_node. u (apply j_read). u (apply j_lift). apply j_lift. Qed.

Section Nb.
Context {V R : Type}.
Variable c : codec V.
Variable io : node_io V.
Variable shared : bool.
Variable rcinc : V -> st R unit.
Definition JB (s : wb * nbuilder V R) : Prop := J (fst s).
Lemma j_onw {A} (m : st wb A) : safe J m any -> safe JB (onw m) any.
Proof using.
  intros H [w b] H1. unfold onw. specialize (H w H1). destruct (m w) as [w' [a| |]]; [destruct H; split; [auto|exact I]|exact H|exact H].
Qed.
Lemma j_onrc {A} (m : st R A) : safe JB (onrc m) any.
Proof using. intros [w b] H. unfold onrc. destruct (m (nb_rc b)) as [rc [a| |]]; [split; [exact H|exact I]|exact H|exact H]. Qed.
Lemma j_onb f : safe JB (onb f) any.
Proof using. intros [w b] H. split; [exact H|exact I]. Qed.
Lemma j_getb : safe JB getb any.
Proof using. intros [w b] H. split; [exact H|exact I]. Qed.
Lemma j_emit_values nr : safe JB (emit_values c io shared nr) any.
Proof using Hn.
  unfold emit_values. u (apply j_getb). apply safe_if; [apply j_lift|]. u (apply j_onb). eapply safe_bind with (Q := any); [apply j_onw, j_write_node|].
  intros [key loc] _. apply j_onb.
Qed.
Lemma j_emit_all : safe JB (emit_all c io shared) any.
Proof using Hn.
  unfold emit_all. u (apply j_getb). apply safe_if; [apply j_ret|]. apply safe_if; [apply j_emit_values|].
  apply safe_if; [|apply j_lift]. u (apply j_emit_values). apply j_emit_values.
Qed.
Lemma j_inc_all vs : safe JB (inc_all rcinc vs) any.
Proof using. induction vs as [|v vs IH]; cbn [inc_all]; [apply j_ret|]. u (apply j_onrc). exact IH. Qed.
Lemma j_unshift : safe JB (unshift_node c io rcinc) any.
Proof using Hn.
  unfold unshift_node. eapply safe_bind with (Q := any); [apply j_getb|]. intros b _. destruct (rev (nb_nodes b)) as [|ls r]; [apply j_lift|].
  u (apply j_onb). eapply safe_bind with (Q := any); [apply j_onw, j_read_node|]. intros [keys values] _.
  u (apply j_onw, j_dec). u (apply safe_if; [apply j_inc_all|apply j_ret]). apply j_onb.
Qed.
Lemma j_check_ordered key : safe JB (check_ordered_key (V := V) (R := R) key) any.
Proof using. unfold check_ordered_key. eapply safe_bind with (Q := any); [apply j_getb|]. intros b _. destruct (nb_last b); [apply safe_if; [apply j_fail|]|]; apply j_onb. Qed.
Lemma j_push_value key v : safe JB (push_value c io shared rcinc key v) any.
Proof using Hn.
  unfold push_value. eapply safe_bind with (Q := any); [apply j_getb|]. intros b _. eapply safe_bind with (Q := any).
  - assert (forall t : bool, safe JB (if t then emit_node c io shared else ret tt) any) by (intros; apply safe_if; [apply j_emit_values|apply j_ret]).
    destruct (nb_nodes b) as [|x [|y l]]; auto. apply safe_if; auto. apply j_unshift.
  - intros _ _. u (apply j_check_ordered). u (apply j_onrc). apply j_onb.
Qed.
Lemma j_append_values s : safe JB (append_values c io rcinc s) any.
Proof using.
  unfold append_values. eapply safe_bind with (Q := any); [apply j_onw, j_read_node|]. intros [keys values] _. u (apply j_inc_all). apply j_onb.
Qed.
Lemma j_add_nodes ns : Forall (fun s => In (su_block s) U) ns -> safe JB (add_nodes (V := V) (R := R) ns) any.
Proof using Hn. induction 1 as [|x ns Hx H IH]; cbn [add_nodes]; [apply j_ret|]. u (apply j_onw, j_inc; auto). u (apply j_onb). exact IH. Qed.
Lemma j_push_nodes ns : Forall (fun s => In (su_block s) U) ns -> safe JB (push_nodes c io shared rcinc ns) any.
Proof using Hn.
  intros H. unfold push_nodes. destruct ns as [|n0 rest]; [apply j_lift|].
  pose proof H as Hall. inversion H as [|? ? Hn0 Hrest]; subst. eapply safe_bind with (Q := any); [apply j_getb|]. intros a _.
  assert (Hmain : safe JB
    (if negb (Nat.eqb (length rest) 0) && existsb (fun n => su_nr n <? half c) (n0 :: rest) then lift Panic else
          if match nb_last a with Some last => su_key n0 <=? last | None => false end then fail else
          _ <~ (match nb_nodes a with
                | [n] => if su_nr n <? half c then unshift_node c io rcinc else ret tt
                | _ => ret tt
                end) ;;
          b <~ getb ;;
          _ <~ (if negb (nlen (nb_values b) =? 0) && (nlen (nb_values b) <? half c) then
                  _ <~ append_values c io rcinc n0 ;;
                  match rest with
                  | [] => ret tt
                  | _ => _ <~ emit_all c io shared ;; add_nodes rest
                  end
                else
                  _ <~ emit_all c io shared ;;
                  if su_nr n0 <? half c then append_values c io rcinc n0 else add_nodes (n0 :: rest)) ;;
          onb (set_last (su_key (last (n0 :: rest) n0)))) any).
  { apply safe_if; [apply j_lift|]. apply safe_if; [apply j_fail|].
    eapply safe_bind with (Q := any).
    { destruct (nb_nodes a) as [|x [|y l]]; try apply j_ret. apply safe_if; [apply j_unshift|apply j_ret]. }
    intros _ _. eapply safe_bind with (Q := any); [apply j_getb|]. intros b' _. eapply safe_bind with (Q := any).
    { apply safe_if.
      - u (apply j_append_values). destruct rest; [apply j_ret|]. u (apply j_emit_all). apply j_add_nodes; auto.
      - u (apply j_emit_all). apply safe_if; [apply j_append_values|apply j_add_nodes; auto]. }
    intros _ _. apply j_onb. }
  destruct rest; [|exact Hmain]. destruct (nb_nodes a); [|exact Hmain]. destruct (nb_values a); [|exact Hmain].
  apply j_add_nodes; auto.
Qed.
Lemma j_nb_complete : safe JB (nb_complete c io shared rcinc) any.
Proof using Hn.
  unfold nb_complete. u (apply j_getb). u (apply safe_if; [apply j_unshift|apply j_ret]).
  u (apply j_emit_all). eapply safe_bind with (Q := any); [apply j_getb|]. intros b2 _.
  eapply safe_bind with (Q := any). { destruct (nb_nodes b2); [apply j_emit_values|apply j_ret]. }
  intros _ _. u (apply j_getb). apply j_ret.
Qed.
Definition op_in (o : @build_op V) : Prop := match o with PushValue _ _ => True | PushNodes ns => Forall (fun s => In (su_block s) U) ns end.
Lemma j_do_ops os : Forall op_in os -> safe JB (do_ops c io shared rcinc os) any.
Proof using Hn.
  induction 1 as [|o os Ho H IH]; cbn [do_ops]; [apply j_ret|].
  eapply safe_bind with (Q := any); [|intros; exact IH]. destruct o; cbn [do_op op_in] in *; [apply j_push_value|apply j_push_nodes; auto].
Qed.
Lemma j_build_nodes os rc : Forall op_in os -> safe J (build_nodes c io shared rcinc os rc) any.
Proof using Hn.
  intros Hos w Hw. unfold build_nodes.
  assert (H : safe JB (_ <~ do_ops c io shared rcinc os ;; nb_complete c io shared rcinc) any).
  { u (apply j_do_ops; auto). apply j_nb_complete. }
  specialize (H (w, nb_new rc) Hw). destruct (bindst _ _ _) as [[w' b'] [ns| |]]; [destruct H; split; [auto|exact I]|exact H|exact H].
Qed.
End Nb.

Lemma values_in {V A} (f : A -> @build_op V) l : (forall x, exists k v, f x = PushValue k v) -> Forall op_in (map f l).
Proof using. intros H. apply Forall_forall. intros o Ho. apply in_map_iff in Ho as (x & <- & _). destruct (H x) as (k & v & ->). exact I. Qed.
Lemma j_build_btree ns : safe J (build_btree ns) any.
Proof using Hn.
  unfold build_btree. generalize (length ns) as fuel. intros fuel. revert ns. induction fuel as [|f IH]; intros ns; destruct ns as [|a [|b r]]; cbn [build_levels]; try apply j_lift; try apply j_ret.
  eapply safe_bind with (Q := any); [apply j_build_nodes, values_in; eauto|]. intros [up u0] _. apply IH; auto.
Qed.
Lemma j_btree_build {V R} (c : codec V) (rcinc : V -> st R unit) os rc : Forall op_in os -> safe J (btree_build c rcinc os rc) any.
Proof using Hn.
  intros H. unfold btree_build. eapply safe_bind with (Q := any); [apply j_build_nodes; auto|]. intros [leaves rc'] _.
  u (apply j_build_btree). apply j_ret.
Qed.
Lemma j_release_leaves {V R} (c : codec V) (rcdec : V -> st R unit) ns : safe (fun s => J (fst s)) (release_leaves c rcdec ns) any.
Proof using Hn.
  induction ns as [|x ns IH]; cbn [release_leaves]; [apply j_ret|]. intros [w rc] Hw. cbn [fst snd] in *.
  pose proof (j_dec (su_block x) w Hw) as Hd. destruct (wb_dec (su_block x) w) as [w1 [[]| |]]; [| |exact Hd|exact Hd].
  - destruct Hd as [Hd _]. pose proof (j_read_node c (leaf_io V) (su_block x) w1 Hd) as Hr.
    destruct (read_node c (leaf_io V) (su_block x) w1) as [w2 [[ks vs]| |]]; [|exact Hr|exact Hr]. destruct Hr as [Hr _].
    destruct (dec_all rcdec vs rc) as [rc' [t| |]]; [|exact Hr|exact Hr]. apply (IH (w2, rc') Hr).
  - destruct Hd as [Hd _]. apply (IH (w1, rc) Hd).
Qed.
Lemma j_release_runs {V R} (c : codec V) (rcdec : V -> st R unit) runs : safe (fun s => J (fst s)) (release_runs c rcdec runs) any.
Proof using Hn. induction runs as [|x ns IH]; cbn [release_runs]; [apply j_ret|]. u (apply j_release_leaves). exact IH. Qed.
Lemma j_write_bitmap es : safe J (write_bitmap es) any.
Proof using Hn. unfold write_bitmap. u (apply j_alloc_zeroed). u (apply j_lift). u (apply j_lift). u (apply j_write). apply j_ret. Qed.
Lemma j_complete_tree {V} (c : codec V) : safe JB (complete_tree c) any.
Proof using Hn. unfold complete_tree. u (apply j_nb_complete). apply j_onw, j_build_btree. Qed.
Lemma j_write_disk_sm sm : safe J (write_disk_sm sm) any.
Proof using Hn.
  assert (He : forall begin is acc, safe JB (wc_entries sm begin is acc) any).
  { intros begin is. induction is as [|i is IH]; intros acc; cbn [wc_entries]; [apply j_ret|]. destruct acc as [[es ff] nf].
    u (apply j_lift). eapply safe_bind with (Q := any); [|intros; apply IH].
    repeat (apply safe_if; [apply j_ret|]). u (apply j_push_value). apply j_ret. }
  assert (Hb : forall bms, safe JB (wc_bitmaps sm bms) any).
  { intros bms. induction bms as [|bm bms IH]; cbn [wc_bitmaps]; [apply j_ret|]. eapply safe_bind with (Q := any).
    - unfold wc_bitmap. eapply safe_bind with (Q := any); [apply He|]. intros [[es ff] nf] _. u (apply j_onw, j_write_bitmap). apply j_ret.
    - intros ie _. u (exact IH). apply j_ret. }
  unfold write_disk_sm, write_common. eapply safe_bind with (Q := any).
  - intros w Hw. unfold with_overflow.
    assert (H : safe JB (ies <~ wc_bitmaps sm (range 0 (div_up (sm_nr sm) ENTRIES_PER_BITMAP)) ;; root <~ complete_overflow ;; ret (ies, root)) any).
    { u (apply Hb). u (exact (j_complete_tree u32_codec)). apply j_ret. }
    specialize (H (w, nb_new tt) Hw). destruct (bindst _ _ _) as [[w' b'] [a| |]]; [destruct H; split; [auto|exact I]|exact H|exact H].
  - intros [ies rc_root] _. eapply safe_bind with (Q := any); [apply j_btree_build, values_in; eauto|]. intros [root x] _.
    u (apply j_flush). apply j_ret.
Qed.
Definition JD (s : dst) : Prop := J (fst (fst s)).
Lemma j_on_details {A} (m : st (wb * nbuilder device_detail unit) A) : safe JB m any -> safe JD (on_details m) any.
Proof using.
  intros H [s1 b2] H1. unfold on_details. specialize (H s1 H1). destruct (m s1) as [s1' [a| |]]; [destruct H; split; [auto|exact I]|exact H|exact H].
Qed.
Lemma j_on_mapping {A} (m : st (wb * nbuilder N unit) A) : safe JB m any -> safe JD (on_mapping m) any.
Proof using.
  intros H [[w b1] b2] H1. unfold on_mapping. specialize (H (w, b2) H1). destruct (m (w, b2)) as [[w' b2'] [a| |]]; [destruct H; split; [auto|exact I]|exact H|exact H].
Qed.
Lemma j_device_details devs : safe J (build_device_details devs) any.
Proof using Hn.
  assert (Hp : safe JD (push_devices devs) any).
  { induction devs as [|[id [dd root]] devs IH]; cbn [push_devices]; [apply j_ret|].
    u (apply j_on_details, j_push_value). u (apply j_on_mapping, j_push_value). exact IH. }
  intros w Hw. unfold build_device_details.
  assert (H : safe JD (_ <~ push_devices devs ;;
     details <~ on_details (complete_tree dd_codec) ;;
     mapping <~ on_mapping (complete_tree u64_codec) ;;
     ret (details, mapping)) any).
  { u (apply Hp). u (apply j_on_details, j_complete_tree). u (apply j_on_mapping, j_complete_tree). apply j_ret. }
  specialize (H ((w, nb_new tt), nb_new tt) Hw).
  destruct (bindst _ _ _) as [[[w' b1] b2] [a| |]]; [destruct H; split; [auto|exact I]|exact H|exact H].
Qed.
End J.
