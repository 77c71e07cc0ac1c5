(** The restorer's calls for one section, in terms of the builder. *)
From Coq Require Import Permutation.
From Verif Require Import Base Csum_Model Codec_Model Codec_Spec SpaceMap_Model SpaceMap_Spec SpaceMap_Proofs Batcher_Model Batcher_Proofs
  Builder_Model Builder_Spec Builder_Proofs Utils_Proofs NodeBuilder_Proofs BtreeBuild_Proofs Session_Model ThinOut_Model Walker_Model SmWrite_Model Restore_Model
  RestoreDoc_Spec ThinOut_Proofs.

Lemma wp_bind_inv {S A B} (m : st S A) (f : A -> st S B) s Q E :
  wp (bindst m f) s Q E -> wp m s (fun s' a => wp (f a) s' Q E) E.
Proof. unfold wp, bindst. destruct (m s) as [s' [a| |]]; auto. Qed.
Lemma visits_app o a b s : visits o (a ++ b) s = (_ <~ visits o a ;; visits o b) s.
Proof.
  revert s. induction a as [|e a IH]; intros s; cbn [app visits]; auto.
  unfold bindst in *. destruct (visit o e s) as [s' [[]| |]]; auto.
Qed.
Lemma wp_eq {S A} (m m' : st S A) s Q E : m s = m' s -> wp m' s Q E -> wp m s Q E.
Proof. unfold wp. intros ->. auto. Qed.

Lemma wp_step {S A B} (m : st S A) (f : A -> st S B) s s' a Q E : m s = (s', Ok a) -> wp (f a) s' Q E -> wp (bindst m f) s Q E.
Proof. unfold wp, bindst. intros ->. auto. Qed.

(** map adds without wrapping when the entries are in range. *)
Lemma map_ops_entries m : Forall (fun kv : N * block_time => fst kv < 2 ^ 64 /\ bt_range (snd kv)) (map_entries m) ->
  map_ops m = map (fun kv => PushValue (fst kv) (snd kv)) (map_entries m).
Proof.
  intros H. unfold map_ops, map_entries in *. rewrite map_map. apply map_ext_in. intros i Hi. cbn [fst snd].
  rewrite Forall_forall in H. specialize (H (m_thin m + i, mkbt (m_data m + i) (m_time m))). destruct H as [A B].
  { apply in_map_iff. exists i. auto. }
  cbn [fst snd] in *. destruct B as [B _]. cbn [bt_block] in B. rewrite !wadd_small by (unfold W64; lia). reflexivity.
Qed.
Lemma maps_ops_entries ms : Forall (fun kv : N * block_time => fst kv < 2 ^ 64 /\ bt_range (snd kv)) (flat_map map_entries ms) ->
  flat_map map_ops ms = map (fun kv => PushValue (fst kv) (snd kv)) (flat_map map_entries ms).
Proof.
  induction ms as [|m ms IH]; intros H; cbn [flat_map map] in *; auto. apply Forall_app in H as [H1 H2].
  rewrite map_app, IH, map_ops_entries by auto. reflexivity.
Qed.

(** The pushes a device's content amounts to, given the runs by name. *)
Fixpoint content_ops (subs : list (N * list summary)) (its : list content) : option (list (@build_op block_time)) :=
  match its with
  | [] => Some []
  | CMap m :: r => match content_ops subs r with Some l => Some (map_ops m ++ l) | None => None end
  | CRef name :: r =>
      match find (fun p => fst p =? name) subs, content_ops subs r with
      | Some (_, ns), Some l => Some (PushNodes ns :: l) | _, _ => None end
  end.

Lemma do_ops_app {V R} (c : codec V) io sh (rcinc : V -> st R unit) a b s :
  do_ops c io sh rcinc (a ++ b) s = (_ <~ do_ops c io sh rcinc a ;; do_ops c io sh rcinc b) s.
Proof.
  revert s. induction a as [|o a IH]; intros s; cbn [app do_ops]; auto.
  unfold bindst in *. destruct (do_op c io sh rcinc o s) as [s' [[]| |]]; auto.
Qed.

Definition ops (sh : bool) := do_ops bt_codec (leaf_io block_time) sh mapping_inc.
Definition fin (sh : bool) := nb_complete bt_codec (leaf_io block_time) sh mapping_inc.

(** Inside a section the stored builder carries the data space map in force. *)
Definition inside (w : wb) subs sec (b : nbuilder block_time core_sm) dev sb devs k : rstate :=
  mkrs w subs (Some (sec, b)) dev sb devs (Some (nb_rc b)) k.
Lemma nb_eta {V R} (b : nbuilder V R) : mknb (nb_values b) (nb_nodes b) (nb_last b) (nb_rc b) = b.
Proof. destruct b; reflexivity. Qed.

Section Rules.
Variable o : overrides.
Variable Q : rstate -> unit -> Prop.
Variable E : wb -> Prop.
Notation E' := (fun s => E (r_w s)).

Lemma current_wp os w subs sec b dev sb devs k rest :
  wp (ops (is_def sec) os) (w, b)
     (fun s _ => wp rest (inside (fst s) subs sec (snd s) dev sb devs k) Q E') (fun s => E (fst s)) ->
  wp (_ <~ on_current os ;; rest) (inside w subs sec b dev sb devs k) Q E'.
Proof.
  intros H. unfold ops in H. unfold wp, on_current, get, on_builder, inside, modify, bindst in *. cbn [r_cur r_dsm r_w set_cur set_w set_dsm] in *.
  rewrite nb_eta. destruct (do_ops _ _ _ _ os (w, b)) as [[w' b'] [[]| |]]; cbn [fst snd] in *; auto.
Qed.
Lemma content_wp its : forall w subs sec b dev sb devs k rest os,
  content_ops subs its = Some os -> ((exists m, dev = Some m) \/ Forall (fun x => exists m, x = CMap m) its) ->
  wp (ops (is_def sec) os) (w, b)
     (fun s _ => wp (visits o rest) (inside (fst s) subs sec (snd s) dev sb devs k) Q E') (fun s => E (fst s)) ->
  wp (visits o (map content_event its ++ rest)) (inside w subs sec b dev sb devs k) Q E'.
Proof.
  induction its as [|[m|name] its IH]; intros w subs sec b dev sb devs k rest os Ho Hd H; cbn [map app content_ops] in *.
  - injection Ho as <-. exact H.
  - destruct (content_ops subs its) as [l|] eqn:El; [|discriminate]. injection Ho as <-.
    assert (Hd' : (exists m, dev = Some m) \/ Forall (fun x => exists m, x = CMap m) its).
    { destruct Hd as [Hd|Hd]; [left; auto|]. inversion Hd; subst. right; auto. }
    cbn [content_event visits visit]. unfold restore_map. apply current_wp.
    eapply wp_eq in H; [|symmetry; apply do_ops_app]. apply wp_bind_inv in H.
    eapply wp_mono; [exact H| |auto]. intros [w' b'] u Hu. cbn [fst snd] in *. eapply IH; eauto.
  - destruct (find _ subs) as [[nm ns]|] eqn:Ef; [|discriminate]. destruct (content_ops subs its) as [l|] eqn:El; [|discriminate]. injection Ho as <-.
    assert (Hd' : exists m, dev = Some m).
    { destruct Hd as [Hd|Hd]; auto. inversion Hd as [|? ? (m & Hm)]; subst. discriminate. }
    cbn [content_event visits visit].
    apply (wp_eq _ (_ <~ on_current [PushNodes ns] ;; visits o (map content_event its ++ rest))).
    { destruct Hd' as (m & ->). unfold restore_ref, bindst, get, inside. cbn [r_dev r_subs]. rewrite Ef. reflexivity. }
    apply current_wp. change (PushNodes ns :: l) with ([PushNodes ns] ++ l) in H.
    eapply wp_eq in H; [|symmetry; apply do_ops_app]. apply wp_bind_inv in H.
    eapply wp_mono; [exact H| |auto]. intros [w' b'] u Hu. cbn [fst snd] in *. eapply IH; eauto.
Qed.

Lemma build_nodes_inv sh os rc w (Q1 : wb -> list summary * core_sm -> Prop) (E1 : wb -> Prop) :
  wp (build_nodes bt_codec (leaf_io block_time) sh mapping_inc os rc) w Q1 E1 ->
  wp (ops sh os) (w, nb_new rc) (fun s _ => wp (fin sh) s (fun s ns => Q1 (fst s) (ns, nb_rc (snd s))) (fun s => E1 (fst s))) (fun s => E1 (fst s)).
Proof.
  intros H. apply (wp_bind_inv (ops sh os) (fun _ => fin sh)). unfold wp, build_nodes, ops, fin in *.
  destruct (bindst _ _ _) as [[w' b'] [a| |]]; auto.
Qed.

(** Between sections. *)
Definition between (w : wb) subs (sb : option ir_sb) devs (rc : core_sm) : rstate := mkrs w subs None None sb devs (Some rc) InSuperblock.

Lemma def_wp w subs sb devs rc name ms rest :
  wp (build_nodes bt_codec (leaf_io block_time) true mapping_inc (flat_map map_ops ms) rc) w
     (fun w' r => wp (visits o rest) (between w' (bmap_insert name (fst r) subs) sb devs (snd r)) Q E') E ->
  wp (visits o (sect_events (SDef name ms) ++ rest)) (between w subs sb devs rc) Q E'.
Proof.
  intros H. apply build_nodes_inv in H. cbn [sect_events app visits visit].
  eapply wp_step.
  { unfold def_shared_b, check_section, begin_section, bindst, get, modify, between, ret. cbn [r_sec sec_eqb r_cur r_dsm set_sec set_cur]. reflexivity. }
  rewrite <- app_assoc. cbn [app]. rewrite <- (map_map CMap content_event).
  change (set_cur _ _) with (inside w subs (SecDef name) (nb_new rc) None sb devs InDef).
  apply content_wp with (os := flat_map map_ops ms).
  - clear. induction ms as [|m ms IH]; cbn [map content_ops flat_map]; auto. rewrite IH. auto.
  - right. apply Forall_forall. intros x Hx. apply in_map_iff in Hx as (m & <- & _). eauto.
  - eapply wp_mono; [exact H| |auto]. intros [w' b'] u Hu. cbn [fst snd] in *.
    cbn [visits visit]. unfold def_shared_e, end_section, on_builder, bindst, get, modify, inside, wp, fin in *.
    cbn [r_cur r_dsm r_w set_cur set_w set_dsm is_def] in *. rewrite nb_eta.
    destruct (nb_complete _ _ _ _ (w', b')) as [[w2 b2] [ns| |]]; cbn [fst snd ret] in *; auto.
Qed.

Lemma dev_wp w subs sb devs rc d its os rest :
  content_ops subs its = Some os ->
  wp (btree_build bt_codec mapping_inc os rc) w
     (fun w' r => wp (visits o rest) (between w' subs sb (bmap_insert (id_dev d) (details_of d, fst r) devs) (snd r)) Q E') E ->
  wp (visits o (sect_events (SDev d its) ++ rest)) (between w subs sb devs rc) Q E'.
Proof.
  intros Ho H. unfold btree_build in H. apply wp_bind_inv in H. apply build_nodes_inv in H. cbn [sect_events app visits visit].
  eapply wp_step.
  { unfold device_b, check_section, begin_section, bindst, get, modify, between, ret. cbn [r_sec sec_eqb r_cur r_dsm set_sec set_cur set_dev]. reflexivity. }
  rewrite <- app_assoc. cbn [app].
  change (set_cur _ _) with (inside w subs (SecDev (id_dev d)) (nb_new rc) (Some (details_of d)) sb devs InDevice).
  apply content_wp with (os := os); [auto|left; eauto|].
  eapply wp_mono; [exact H| |auto]. intros [w' b'] u Hu. cbn [fst snd] in *.
  cbn [visits visit]. unfold device_e, end_section, on_builder, on_w, bindst, get, modify, inside, wp, fin in *.
  cbn [r_cur r_dsm r_w r_dev set_cur set_w set_dsm set_dev is_def] in *. rewrite nb_eta.
  destruct (nb_complete _ _ _ _ (w', b')) as [[w2 b2] [ns| |]]; cbn [fst snd ret] in *; auto.
  cbn [r_w set_w set_dsm]. destruct (build_btree ns w2) as [w3 [root| |]]; cbn [fst snd ret] in *; auto.
Qed.
End Rules.
