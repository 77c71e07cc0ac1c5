(** The NodeBuilder invariant. *)
From Coq Require Import Permutation.
From Verif Require Import Base Csum_Model Csum_Proofs Codec_Model Codec_Spec Codec_Proofs NodeCodec_Proofs
  SpaceMap_Model SpaceMap_Spec SpaceMap_Proofs Io_Proofs IoMany_Proofs Batcher_Model Batcher_Spec Batcher_Proofs
  Builder_Model Builder_Spec Builder_Proofs.

(** Permutations of concatenations. *)
Lemma perm_rot {A} (l r1 r2 : list A) : Permutation l (r2 ++ r1) -> Permutation l (r1 ++ r2).
Proof. intros H. rewrite H. apply Permutation_app_comm. Qed.
Ltac perm_step n :=
  lazymatch n with
  | O => fail
  | S ?m =>
    lazymatch goal with
    | |- Permutation (?a ++ _) (?a ++ _) => apply Permutation_app_head
    | |- _ => apply perm_rot; rewrite <- ?app_assoc; perm_step m
    end
  end.
Ltac perm := repeat rewrite <- app_assoc; cbn [app];
  match goal with |- Permutation ?l ?r => rewrite <- (app_nil_r l), <- (app_nil_r r) end; repeat rewrite <- app_assoc;
  repeat perm_step 10%nat; try apply Permutation_refl.

Section NB.
Variables n max : N.
Hypothesis Hn : n < 2 ^ 64.
Context {V R : Type}.
Variable c : codec V.
Variable range : V -> Prop.
Variable io : node_io V.
Variable shared : bool.
Variable rcinc : V -> st R unit.
Variable rep : R -> list V -> Prop.
Variable bad : list V -> V -> Prop.
Hypothesis L : lossless c range.
Hypothesis Hcs : N.of_nat (csize c) + 8 < 2 ^ 32.
Hypothesis Hio : io_ok c range io.
Hypothesis Hm : 4 <= calc_max_entries c.
Hypothesis Hrc : counter_ok range rcinc rep bad.
(** [vo]: only values are pushed. *)
Variable vo : bool.
Hypothesis Hvo : shared = true -> vo = true.
(** The state when the builder was made. *)
Variable w0 : wb.
Variable rcs0 : list V.
(** What is known of the pre-built nodes that are pushed. *)
Variable Pre : summary -> Prop.

Local Notation m := (calc_max_entries c).
Local Notation bst := (@Builder_Model.bst V R).
Local Notation env := (env n max).

Definition node_for (d : disk) (s : summary) (kvs : list (N * V)) : Prop :=
  su_block s < n /\ su_nr s = nlen kvs /\ su_key s = first_key kvs /\ nlen kvs <= m /\
  exists h, holds c d (su_block s) (io_make io h (map fst kvs) (map snd kvs)) /\
            nh_nr_entries h = nlen kvs /\ nh_max_entries h = m.

Definition own (s : summary) : bool := Bool.eqb (su_shared s) shared.
Fixpoint ownvals (ns : list summary) (kvss : list (list (N * V))) : list V :=
  match ns, kvss with
  | s :: ns, kvs :: kvss => (if own s then map snd kvs else []) ++ ownvals ns kvss
  | _, _ => []
  end.

(** A node is either made here, in a block that was free and is not used
    elsewhere, or was pushed. *)
Definition origin (ns : list summary) : Prop :=
  Forall (fun s => if own s then cnt w0 (su_block s) = 0 /\ occ (su_block s) (map su_block ns) = 1
                   else Pre s /\ 0 < cnt w0 (su_block s)) ns.

Record Core (cont : list (N * V)) (w : wb) (b : nbuilder V R) : Prop := {
  c_env : env w;
  c_nodes : exists kvss, Forall2 (node_for (wb_view w)) (nb_nodes b) kvss /\
              concat kvss ++ nb_values b = cont /\
              rep (nb_rc b) (map snd (nb_values b) ++ ownvals (nb_nodes b) kvss ++ rcs0);
  c_counts : forall x, cnt w x = cnt w0 x + occ x (map su_block (nb_nodes b));
  c_frame : forall x, 0 < cnt w0 x -> wb_view w x = wb_view w0 x;
  c_base : wb_base w = wb_base w0;
  c_own : origin (nb_nodes b) }.

Definition wfc (cont : list (N * V)) : Prop :=
  increasing (map fst cont) /\ Forall (fun kv => fst kv < 2 ^ 64 /\ range (snd kv)) cont.

Definition Efail (cont : list (N * V)) (s : bst) : Prop :=
  full n (fst s) \/ saturated n max (fst s) \/ exists v vs, bad vs v /\ within (v :: vs) (map snd cont ++ rcs0).

Lemma within_own ns : forall kvss, within (ownvals ns kvss) (map snd (concat kvss)).
Proof.
  induction ns as [|s ns IH]; intros [|k kvss]; cbn [ownvals concat]; try (eexists; cbn [app]; apply Permutation_refl).
  destruct (IH kvss) as (rest & H). rewrite map_app. destruct (own s).
  - exists rest. rewrite <- H. perm.
  - exists (map snd k ++ rest). rewrite <- H. cbn [app]. perm.
Qed.
Lemma within_unshift (kvs vals : list (N * V)) kf ns : 
  within (map snd kvs ++ map snd vals ++ (ownvals ns kf ++ []) ++ rcs0) (map snd ((concat kf ++ kvs) ++ vals) ++ rcs0).
Proof.
  destruct (within_own ns kf) as (rest & H). exists rest. rewrite !map_app, <- H, app_nil_r. perm.
Qed.
Lemma within_append (kvs vals : list (N * V)) kvss ns cont : concat kvss ++ vals = cont ->
  within (map snd kvs ++ map snd vals ++ ownvals ns kvss ++ rcs0) (map snd (cont ++ kvs) ++ rcs0).
Proof.
  intros <-. destruct (within_own ns kvss) as (rest & H). exists rest. rewrite !map_app, <- H. perm.
Qed.

Lemma perm_a {A} (a b k r : list A) : Permutation (a ++ (b ++ k) ++ r) ((k ++ a) ++ b ++ r).
Proof.
  rewrite <- !app_assoc. rewrite (app_assoc a b). rewrite (app_assoc a b r).
  rewrite (app_assoc (a ++ b)), (app_assoc k). apply Permutation_app_tail, Permutation_app_comm.
Qed.

(** ** Plumbing *)
Lemma wp_getb s (Q : bst -> nbuilder V R -> Prop) (E : bst -> Prop) : Q s (snd s) -> wp (getb (V:=V) (R:=R)) s Q E.
Proof. auto. Qed.
Lemma wp_onb f w b (Q : bst -> unit -> Prop) E : Q (w, f b) tt -> wp (onb f) (w, b) Q E.
Proof. auto. Qed.
Lemma wp_onw {A} (op : st wb A) w b (Q : bst -> A -> Prop) (E : bst -> Prop) :
  wp op w (fun w' a => Q (w', b) a) (fun w' => E (w', b)) -> wp (onw op) (w, b) Q E.
Proof. unfold wp, onw. destruct (op w) as [w' [a| |]]; auto. Qed.
Lemma wp_onrc {A} (op : st R A) w b (Q : bst -> A -> Prop) (E : bst -> Prop) :
  wp op (nb_rc b) (fun r a => Q (w, mknb (nb_values b) (nb_nodes b) (nb_last b) r) a)
     (fun r => E (w, mknb (nb_values b) (nb_nodes b) (nb_last b) r)) -> wp (onrc op) (w, b) Q E.
Proof. unfold wp, onrc. destruct (op (nb_rc b)) as [r [a| |]]; auto. Qed.

Lemma ownvals_app a b ka kb : length a = length ka -> ownvals (a ++ b) (ka ++ kb) = ownvals a ka ++ ownvals b kb.
Proof.
  revert ka. induction a as [|x a IH]; intros [|k ka] E; try discriminate; cbn [ownvals app]; auto.
  rewrite IH by (cbn in E; lia). rewrite app_assoc. auto.
Qed.

Lemma node_for_ext (d d' : disk) s kvs : d' (su_block s) = d (su_block s) -> node_for d s kvs -> node_for d' s kvs.
Proof.
  intros E (A & B & C & D & h & Hh & F). unfold node_for. conj; auto. exists h. split; auto.
  eapply holds_ext; eauto.
Qed.

Lemma Forall2_node_ext (d d' : disk) ns kvss : (forall s, In s ns -> d' (su_block s) = d (su_block s)) ->
  Forall2 (node_for d) ns kvss -> Forall2 (node_for d') ns kvss.
Proof.
  intros E F. induction F; constructor.
  - apply (node_for_ext d d'); [apply E; left; auto|auto].
  - apply IHF. intros; apply E; right; auto.
Qed.

Lemma wfc_app a b : wfc (a ++ b) -> wfc a /\ wfc b.
Proof.
  intros [A B]. rewrite map_app in A. apply increasing_split in A as (A1 & A2 & _).
  apply Forall_app in B as [B1 B2]. unfold wfc. tauto.
Qed.

Lemma wfc_range (kvs : list (N * V)) v : Forall (fun kv => fst kv < 2 ^ 64 /\ range (snd kv)) kvs -> In v (map snd kvs) -> range v.
Proof. rewrite Forall_forall. intros H Hi. apply in_map_iff in Hi as (kv & <- & Hi). apply H; auto. Qed.
Lemma first_key_map (kvs : list (N * V)) : match map fst kvs with k :: _ => k | [] => 0 end = first_key kvs.
Proof. destruct kvs as [|[k v] r]; auto. Qed.

Lemma rep_perm r vs vs' : rep r vs -> Permutation vs vs' -> rep r vs'.
Proof. apply (co_perm _ _ _ _ Hrc). Qed.

(** ** Origins *)
Lemma origin_snoc_own ns s : origin ns -> own s = true -> cnt w0 (su_block s) = 0 -> ~ In (su_block s) (map su_block ns) ->
  origin (ns ++ [s]).
Proof.
  unfold origin. intros H Hs H0 Hnin. apply Forall_app. split.
  - rewrite Forall_forall in *. intros x Hx. specialize (H x Hx). destruct (own x); auto. destruct H as [H1 H2]. split; auto.
    rewrite map_app, occ_app. cbn [map occ]. destruct (N.eqb_spec (su_block x) (su_block s)) as [E|E]; [|lia].
    exfalso. apply Hnin. rewrite <- E. apply in_map. auto.
  - constructor; auto. rewrite Hs. split; auto. rewrite map_app, occ_app, occ_not_in by auto. cbn [map occ]. rewrite N.eqb_refl. auto.
Qed.
Lemma origin_snoc_pre ns s : origin ns -> own s = false -> Pre s -> 0 < cnt w0 (su_block s) -> origin (ns ++ [s]).
Proof.
  unfold origin. intros H Hs H0 Hp. apply Forall_app. split.
  - rewrite Forall_forall in *. intros x Hx. specialize (H x Hx). destruct (own x); auto. destruct H as [H1 H2]. split; auto.
    rewrite map_app, occ_app. cbn [map occ]. destruct (N.eqb_spec (su_block x) (su_block s)) as [E|E]; [|lia].
    rewrite E in H1. lia.
  - constructor; auto. rewrite Hs. auto.
Qed.
Lemma origin_front ns s : origin (ns ++ [s]) -> origin ns.
Proof.
  unfold origin. intros H. apply Forall_app in H as [H _]. rewrite Forall_forall in *. intros x Hx. specialize (H x Hx).
  destruct (own x); auto. destruct H as [H1 H2]. split; auto.
  rewrite map_app, occ_app in H2. assert (0 < occ (su_block x) (map su_block ns)) by (apply occ_in, in_map; auto). lia.
Qed.

(** ** emit_values *)
Lemma emit_values_wp cont nr w b : Core cont w b -> wfc cont -> nr <= nlen (nb_values b) -> nr <= m ->
  wp (emit_values c io shared nr) (w, b)
     (fun s _ => Core cont (fst s) (snd s) /\
        nb_values (snd s) = skipn (N.to_nat nr) (nb_values b) /\
        nb_last (snd s) = nb_last b /\
        exists su, nb_nodes (snd s) = nb_nodes b ++ [su] /\ su_nr su = nr)
     (Efail cont).
Proof.
  intros [He (kvss & HF & Hc & Hr) Hcnt Hfr Hb Horg] Hw Hnr Hnm.
  unfold emit_values. apply wp_bind, wp_getb. cbn [snd].
  destruct (N.ltb_spec (nlen (nb_values b)) nr); [lia|].
  set (now := firstn (N.to_nat nr) (nb_values b)). set (later := skipn (N.to_nat nr) (nb_values b)).
  assert (Esplit : now ++ later = nb_values b) by apply firstn_skipn.
  assert (Hlen : nlen now = nr) by (unfold now, nlen in *; rewrite firstn_length; lia).
  assert (Hwn : wfc now).
  { rewrite <- Hc, <- Esplit in Hw. apply wfc_app in Hw as [_ Hw]. apply wfc_app in Hw. tauto. }
  destruct Hwn as [Hinc HFr].
  apply wp_bind, wp_onb. apply wp_bind, wp_onw.
  eapply wp_mono.
  - eapply (write_node_wp n max Hn c range io (map fst now) (map snd now) w
             (fun w' => Efail cont (w', set_values later b))); auto.
    + rewrite !map_length. auto.
    + unfold nlen in *. rewrite map_length. lia.
    + apply Forall_map. eapply Forall_impl; [|exact HFr]. cbn. tauto.
    + apply Forall_map. eapply Forall_impl; [|exact HFr]. cbn. tauto.
    + intros w' Hf. left. exact Hf.
  - intros w' [key loc] (He' & Hk & Hl & H0 & Hc' & Hv & Hb' & Hh). cbn [fst snd] in *.
    apply wp_onb. cbn [fst snd set_nodes set_values nb_values nb_nodes nb_last nb_rc].
    conj; auto.
    2:{ eexists. split; [reflexivity|]. auto. }
    assert (Hne : forall x, 0 < cnt w x -> x <> loc) by (intros x Hx ->; lia).
    constructor; unfold set_nodes, set_values; cbn [nb_nodes nb_values nb_rc]; auto.
    + exists (kvss ++ [now]). conj.
      * apply Forall2_app.
        -- eapply Forall2_node_ext; [|exact HF]. intros s Hs. apply Hv, Hne. rewrite Hcnt.
           assert (0 < occ (su_block s) (map su_block (nb_nodes b))); [|lia]. apply occ_in, in_map; auto.
        -- constructor; [|constructor]. unfold node_for. cbn [su_block su_nr su_key]. conj; auto.
           { rewrite Hk. apply first_key_map. } { lia. }
           eexists. split; [exact Hh|]. cbn [nh_nr_entries nh_max_entries]. unfold nlen. rewrite map_length. auto.
      * rewrite concat_app. cbn [concat]. rewrite app_nil_r. rewrite <- Hc, <- Esplit. symmetry. apply app_assoc.
      * eapply rep_perm; [exact Hr|]. rewrite <- Esplit, map_app.
        rewrite ownvals_app by (eapply Forall2_length; eauto). cbn [ownvals own su_shared].
        unfold own. cbn [su_shared]. rewrite Bool.eqb_reflx, app_nil_r.
        rewrite <- !app_assoc.
        rewrite (Permutation_app_comm (map snd now)). rewrite <- !app_assoc.
        apply Permutation_app_head. apply Permutation_app_head. apply Permutation_app_comm.
    + intros x. rewrite Hc', Hcnt, map_app, occ_app. cbn [map occ su_block].
      destruct (N.eqb_spec x loc); [|lia]. subst x. rewrite Hcnt in H0. lia.
    + intros x Hx. rewrite Hv; auto. apply Hne. rewrite Hcnt. lia.
    + congruence.
    + rewrite Hcnt in H0. apply origin_snoc_own; auto; unfold own; cbn [su_shared su_block].
      * apply Bool.eqb_reflx.
      * lia.
      * intros Hin. apply occ_in in Hin. lia.
  - auto.
Qed.

Lemma inc_all_wp vs w b vs0 cont : rep (nb_rc b) vs0 -> (forall v, In v vs -> range v) -> within (vs ++ vs0) (map snd cont ++ rcs0) ->
  wp (inc_all rcinc vs) (w, b)
    (fun s _ => exists rc, s = (w, mknb (nb_values b) (nb_nodes b) (nb_last b) rc) /\ rep rc (vs ++ vs0))
    (Efail cont).
Proof.
  revert b vs0. induction vs as [|v vs IH]; intros b vs0 Hr Hrg Hin; cbn [inc_all].
  - apply wp_ret. exists (nb_rc b). destruct b. auto.
  - apply wp_bind, wp_onrc. unfold wp. pose proof (co_inc _ _ _ _ Hrc (nb_rc b) vs0 v (Hrg v (or_introl eq_refl)) Hr) as Hi.
    destruct (rcinc v (nb_rc b)) as [r' [u| |]].
    + eapply wp_mono.
      * apply (IH (mknb (nb_values b) (nb_nodes b) (nb_last b) r')); [exact Hi|intros; apply Hrg; right; auto|].
        destruct Hin as (rest & Hin). exists rest. rewrite <- Hin. cbn [app]. rewrite <- !app_assoc. cbn [app]. symmetry. apply Permutation_middle.
      * intros s _ (rc & -> & Hrep). exists rc. split; auto. eapply rep_perm; [exact Hrep|].
        cbn [app]. symmetry. apply Permutation_middle.
      * auto.
    + right; right. exists v, vs0. split; [exact Hi|]. destruct Hin as (rest & Hin). exists (vs ++ rest). rewrite <- Hin.
      cbn [app]. constructor. rewrite !app_assoc. apply Permutation_app_tail, Permutation_app_comm.
    + exact Hi.
Qed.

(** ** unshift_node *)
Lemma unshift_wp cont w b front ls : Core cont w b -> wfc cont -> shared = false -> nb_nodes b = front ++ [ls] ->
  wp (unshift_node c io rcinc) (w, b)
     (fun s _ => Core cont (fst s) (snd s) /\ nb_nodes (snd s) = front /\ nb_last (snd s) = nb_last b /\
        exists kvs, nlen kvs = su_nr ls /\ nlen kvs <= m /\ nb_values (snd s) = kvs ++ nb_values b)
     (Efail cont).
Proof.
  intros [He (kvss & HF & Hc & Hr) Hcnt Hfr Hb Horg] Hw Hsh Hnd.
  unfold unshift_node. apply wp_bind, wp_getb. cbn [snd]. rewrite Hnd, rev_app_distr. cbn [rev app].
  rewrite rev_involutive.
  rewrite Hnd in HF. apply Forall2_app_inv_l in HF as (kf & kl & HF & Hl & ->).
  inversion Hl as [|? kvs ? ? Hls Hnil]; subst. inversion Hnil; subst. clear Hl Hnil.
  destruct Hls as (H1 & H2 & H3 & H4 & h & Hh & H5 & H6).
  apply wp_bind, wp_onb. apply wp_bind, wp_onw.
  eapply (read_node_wp n max c range io); eauto.
  apply wp_bind, wp_onw. eapply wp_mono.
  { apply (wb_dec_wp n max Hn (su_block ls) w (fun w' => False)); auto.
    rewrite Hcnt, Hnd, map_app, occ_app. cbn [map occ]. rewrite N.eqb_refl. lia. }
  2:{ intros ? []. }
  intros w' r (He' & Hc' & _ & Hb' & Hv). cbn beta.
  assert (HF' : Forall2 (node_for (wb_view w')) front kf).
  { eapply Forall2_node_ext; [|exact HF]. intros; apply Hv. }
  assert (Hcnt' : forall x, cnt w' x = cnt w0 x + occ x (map su_block front)).
  { intros x. specialize (Hc' x). rewrite Hcnt, Hnd, map_app, occ_app in Hc'. cbn [map occ] in Hc'.
    destruct (x =? su_block ls); lia. }
  assert (Hlenf : length front = length kf) by (eapply Forall2_length; eauto).
  rewrite concat_app in *. cbn [concat] in *. rewrite app_nil_r in *.
  rewrite Hnd, ownvals_app in Hr by auto. cbn [ownvals] in Hr. rewrite app_nil_r in Hr.
  unfold own in Hr. rewrite Hsh in Hr.
  apply wp_bind. destruct (su_shared ls) eqn:Es; cbn [Bool.eqb] in Hr.
  - eapply wp_mono.
    + apply (inc_all_wp (map snd kvs) w' (set_nodes front b) (map snd (nb_values b) ++ (ownvals front kf ++ []) ++ rcs0)
               ((concat kf ++ kvs) ++ nb_values b)); auto.
      { intros v Hin. apply wfc_app in Hw as [Hw _]. apply wfc_app in Hw as [_ [_ Hw]]. eapply wfc_range; eauto. }
      apply within_unshift; auto.
    + intros s _ (rc & -> & Hrep). apply wp_onb. cbn [fst snd set_values nb_values nb_nodes nb_last nb_rc set_nodes] in *.
      conj; auto.
      2:{ exists kvs. conj; auto. rewrite combine_fst_snd. auto. }
      constructor; unfold set_nodes, set_values; cbn [nb_nodes nb_values nb_rc]; auto.
      * exists kf. conj; auto.
        { rewrite combine_fst_snd, app_assoc. auto. }
        rewrite combine_fst_snd. rewrite app_nil_r in Hrep. eapply rep_perm; [exact Hrep|].
        rewrite map_app, <- app_assoc. auto.
      * intros x Hx. rewrite Hv. auto.
      * congruence.
      * rewrite Hnd in Horg. eapply origin_front; eauto.
    + auto.
  - apply wp_ret, wp_onb. cbn [fst snd set_values nb_values nb_nodes nb_last nb_rc set_nodes] in *.
    conj; auto.
    2:{ exists kvs. conj; auto. rewrite combine_fst_snd. auto. }
    constructor; unfold set_nodes, set_values; cbn [nb_nodes nb_values nb_rc]; auto.
    * exists kf. conj; auto.
      { rewrite combine_fst_snd, app_assoc. auto. }
      rewrite combine_fst_snd. eapply rep_perm; [exact Hr|].
      rewrite map_app. apply perm_a.
    * intros x Hx. rewrite Hv. auto.
    * congruence.
    * rewrite Hnd in Horg. eapply origin_front; eauto.
Qed.

(** ** Input nodes: pre-built, held by references taken before the builder was made *)
Definition in_node (s : summary) (kvs : list (N * V)) : Prop :=
  node_for (wb_view w0) s kvs /\ 0 < cnt w0 (su_block s) /\ su_shared s = true /\ Pre s.

Lemma append_wp cont w b s kvs : Core cont w b -> wfc (cont ++ kvs) -> in_node s kvs ->
  wp (append_values c io rcinc s) (w, b)
     (fun s' _ => Core (cont ++ kvs) (fst s') (snd s') /\ nb_nodes (snd s') = nb_nodes b /\
        nb_last (snd s') = nb_last b /\ nb_values (snd s') = nb_values b ++ kvs)
     (Efail (cont ++ kvs)).
Proof.
  intros [He (kvss & HF & Hc & Hr) Hcnt Hfr Hb Horg] Hw (Hs & H0 & Hsh & Hpre).
  apply (node_for_ext (wb_view w0) (wb_view w)) in Hs; [|auto].
  destruct Hs as (H1 & H2 & H3 & H4 & h & Hh & H5 & H6).
  unfold append_values. apply wp_bind, wp_onw. eapply (read_node_wp n max c range io); eauto.
  apply wp_bind. eapply wp_mono.
  - apply inc_all_wp with (cont := cont ++ kvs); [exact Hr| |]. { intros v Hin. apply wfc_app in Hw as [_ [_ Hw]]. eapply wfc_range; eauto. } eapply within_append; eauto.
  - intros s' _ (rc & -> & Hrep). apply wp_onb.
    cbn [fst snd set_values nb_values nb_nodes nb_last nb_rc] in *. rewrite combine_fst_snd. conj; auto.
    constructor; unfold set_nodes, set_values; cbn [nb_nodes nb_values nb_rc]; auto.
    exists kvss. conj; auto.
    + rewrite app_assoc, Hc. auto.
    + eapply rep_perm; [exact Hrep|]. rewrite map_app, <- app_assoc.
      rewrite (app_assoc _ (map snd kvs)). rewrite (app_assoc (map snd kvs)).
      apply Permutation_app_tail. apply Permutation_app_comm.
  - auto.
Qed.

Lemma add_nodes_wp ns : forall cont w b kvss0, Core cont w b -> shared = false -> nb_values b = [] ->
  Forall2 in_node ns kvss0 ->
  wp (add_nodes ns) (w, b)
     (fun s' _ => Core (cont ++ concat kvss0) (fst s') (snd s') /\ nb_nodes (snd s') = nb_nodes b ++ ns /\
        nb_last (snd s') = nb_last b /\ nb_values (snd s') = [])
     (Efail (cont ++ concat kvss0)).
Proof.
  induction ns as [|s ns IH]; intros cont w b kvss0 HC Hsh Hv HF0; cbn [add_nodes].
  - inversion HF0; subst. cbn [concat]. apply wp_ret. cbn [fst snd]. rewrite !app_nil_r. conj; auto.
  - inversion HF0 as [|? kvs ? kvss1 Hs HF1]; subst. destruct Hs as (Hs & H0 & Hss & Hpre).
    pose proof HC as [He (kvss & HF & Hc & Hr) Hcnt Hfr Hb Horg].
    apply wp_bind, wp_onw. eapply wp_mono.
    + eapply (wb_inc_wp n max Hn (su_block s) w (fun w' => Efail (cont ++ concat (kvs :: kvss1)) (w', b))); auto.
      * apply Hs.
      * intros w' Hsat. right; left. exact Hsat.
    + intros w' _ (He' & Hc' & Hb' & Hv'). apply wp_bind, wp_onb.
      eapply wp_mono.
      * apply (IH (cont ++ kvs) w' (set_nodes (nb_nodes b ++ [s]) b) kvss1); auto.
        constructor; cbn [set_nodes nb_nodes nb_values nb_rc]; auto.
        -- exists (kvss ++ [kvs]). conj.
           ++ apply Forall2_app.
              ** eapply Forall2_node_ext; [|exact HF]. intros; apply Hv'.
              ** constructor; [|constructor]. eapply node_for_ext; [|exact Hs]. rewrite Hv'. auto.
           ++ rewrite Hv in *. rewrite concat_app. cbn [concat]. rewrite !app_nil_r in *. congruence.
           ++ rewrite ownvals_app by (eapply Forall2_length; eauto). cbn [ownvals]. unfold own.
              rewrite Hss, Hsh. cbn [Bool.eqb app]. rewrite app_nil_r. auto.
        -- intros x. rewrite Hc', Hcnt, map_app, occ_app. cbn [map occ]. lia.
        -- intros x Hx. rewrite Hv'. auto.
        -- congruence.
        -- apply origin_snoc_pre; auto. unfold own. rewrite Hss, Hsh. auto.
      * intros s' _ (A & B & C & D). cbn [set_nodes nb_nodes nb_last] in *. cbn [concat].
        rewrite <- !app_assoc in *. auto.
      * cbn [concat]. intros s'. rewrite <- app_assoc. auto.
    + auto.
Qed.

(** ** emit_all *)
Definition half_full (b : nbuilder V R) : Prop := Forall (fun s => m / 2 <= su_nr s) (nb_nodes b).

Lemma emit_all_wp cont w b : Core cont w b -> wfc cont -> nlen (nb_values b) <= m * 2 -> half_full b ->
  (nb_values b = [] \/ m / 2 <= nlen (nb_values b) \/ nb_nodes b = []) ->
  wp (emit_all c io shared) (w, b)
     (fun s _ => Core cont (fst s) (snd s) /\ nb_values (snd s) = [] /\ nb_last (snd s) = nb_last b /\
        (half_full (snd s) \/ exists su, nb_nodes (snd s) = [su]) /\
        ((nb_values b = [] \/ m / 2 <= nlen (nb_values b)) -> half_full (snd s)) /\
        (nb_values b = [] -> snd s = b) /\ (nb_values b <> [] -> nb_nodes (snd s) <> []))
     (Efail cont).
Proof.
  intros HC Hw Hlen Hh Hcase. unfold emit_all, maxe. apply wp_bind, wp_getb. cbn [snd].
  destruct (N.eqb_spec (nlen (nb_values b)) 0) as [E0|E0].
  { apply wp_ret. cbn [fst snd]. destruct (nb_values b) eqn:E; [|unfold nlen in E0; cbn in E0; lia]. conj; auto; congruence. }
  assert (nb_values b <> []) as Hne by (intros E; rewrite E in E0; apply E0; auto).
  destruct (N.leb_spec (nlen (nb_values b)) m) as [Hm1|Hm1].
  { eapply wp_mono; [apply (emit_values_wp cont); eauto; lia| |auto].
    intros [w' b'] _ (A & B & C & su & D & F). cbn [fst snd] in *. unfold half_full in *. conj; auto.
    - rewrite B. apply skipn_all2. unfold nlen. lia.
    - destruct Hcase as [E|[E|E]]; [congruence| |].
      + left. rewrite D. apply Forall_app. split; auto. constructor; auto. lia.
      + right. rewrite D, E. exists su. auto.
    - intros [E|E]; [congruence|]. rewrite D. apply Forall_app. split; auto. constructor; auto. lia.
    - congruence.
    - rewrite D. intros _ E. destruct (nb_nodes b); discriminate. }
  destruct (N.leb_spec (nlen (nb_values b)) (m * 2)) as [Hm2|Hm2]; [|lia].
  set (k := nlen (nb_values b)) in *.
  assert (m / 2 <= k / 2 /\ k / 2 <= m /\ k - k / 2 <= m /\ m / 2 <= k - k / 2 /\ k / 2 <= k) as (D1 & D2 & D3 & D4 & D5) by dlia.
  apply wp_bind. eapply wp_mono; [apply (emit_values_wp cont); eauto| |auto].
  intros [w1 b1] _ (A & B & C & su & D & F). cbn [fst snd] in *.
  assert (Hl1 : nlen (nb_values b1) = k - k / 2).
  { rewrite B. unfold nlen. rewrite skipn_length. unfold k, nlen. lia. }
  eapply wp_mono; [apply (emit_values_wp cont); eauto; lia| |auto].
  intros [w2 b2] _ (A2 & B2 & C2 & su2 & F2 & G2). cbn [fst snd] in *. unfold half_full in *.
  assert (Forall (fun s => m / 2 <= su_nr s) (nb_nodes b2)) as Hh2.
  { rewrite F2, D. apply Forall_app. split; [apply Forall_app; split; auto|]; repeat constructor; lia. }
  conj; auto.
  - rewrite B2. apply skipn_all2. unfold nlen in Hl1. lia.
  - congruence.
  - congruence.
  - rewrite F2. intros _ E. destruct (nb_nodes b1); discriminate.
Qed.

(** ** The invariant between calls *)
Definition last_key (cont : list (N * V)) : option N :=
  match rev cont with [] => None | (k, _) :: _ => Some k end.

Record Inv (cont : list (N * V)) (w : wb) (b : nbuilder V R) : Prop := {
  v_core : Core cont w b;
  v_len : nlen (nb_values b) <= m * 2;
  v_shape : half_full b \/ (exists su, nb_nodes b = [su] /\ nb_values b = [] /\ vo = false);
  v_last : match nb_last b with Some k => In k (map fst cont) | None => True end;
  v_vo : vo = true -> (nb_nodes b = [] \/ m <= nlen (nb_values b)) /\ nb_last b = last_key cont }.

Lemma last_key_snoc cont k v : last_key (cont ++ [(k, v)]) = Some k.
Proof. unfold last_key. rewrite rev_app_distr. auto. Qed.

Lemma Efail_app cont more s : Efail cont s -> Efail (cont ++ more) s.
Proof.
  intros [H|[H|(v & vs & Hb & rest & Hw)]]; unfold Efail; auto. right; right. exists v, vs. split; auto.
  exists (rest ++ map snd more). rewrite app_assoc, Hw, map_app. perm.
Qed.

Lemma core_last cont w b k : Core cont w b -> Core cont w (set_last k b).
Proof. intros []. constructor; auto. Qed.

(** push_value: what it does when it succeeds, and that it succeeds on a larger key. *)
Lemma push_value_wp cont w b k v (lenient : bool) : Inv cont w b -> wfc cont -> k < 2 ^ 64 -> range v ->
  (lenient = false -> forall k', In k' (map fst cont) -> k' < k) -> (lenient = true -> vo = true) ->
  wp (push_value c io shared rcinc k v) (w, b)
     (fun s _ => Inv (cont ++ [(k, v)]) (fst s) (snd s) /\
                 match nb_last b with Some l => l < k | None => True end)
     (fun s => Efail (cont ++ [(k, v)]) s \/ (lenient = true /\ match nb_last b with Some l => k <= l | None => False end)).
Proof.
  intros [HC Hlen Hsh Hla Hv] Hw Hk Hr Hgt Hlen'. unfold push_value. apply wp_bind, wp_getb. cbn [snd].
  set (E := fun s : bst => _ \/ _).
  assert (forall s, Efail cont s -> E s) as HE1.
  { intros s He. left. apply Efail_app; auto. }
  apply wp_bind.
  assert (wp (match nb_nodes b with
          | [n0] => if su_nr n0 <? half c then unshift_node c io rcinc
                    else if nlen (nb_values b) =? maxe c * 2 then emit_node c io shared else ret tt
          | _ => if nlen (nb_values b) =? maxe c * 2 then emit_node c io shared else ret tt end) (w, b)
        (fun s _ => Core cont (fst s) (snd s) /\ nlen (nb_values (snd s)) < m * 2 /\ half_full (snd s) /\
             nb_last (snd s) = nb_last b /\
             (vo = true -> (nb_nodes (snd s) = [] \/ m <= nlen (nb_values (snd s))))) E) as Hstep.
  { assert (Hemit : half_full b -> wp (if nlen (nb_values b) =? maxe c * 2 then emit_node c io shared else ret tt) (w, b)
        (fun s _ => Core cont (fst s) (snd s) /\ nlen (nb_values (snd s)) < m * 2 /\ half_full (snd s) /\
             nb_last (snd s) = nb_last b /\
             (vo = true -> (nb_nodes (snd s) = [] \/ m <= nlen (nb_values (snd s))))) E).
    { intros Hhf. unfold maxe. destruct (N.eqb_spec (nlen (nb_values b)) (m * 2)) as [E2|E2].
      - unfold emit_node, maxe. eapply wp_mono; [apply (emit_values_wp cont); eauto; lia| |auto].
        intros [w' b'] _ (A & B & C & su & D & F). cbn [fst snd] in *.
        assert (nlen (nb_values b') = m).
        { rewrite B. unfold nlen in *. rewrite skipn_length. lia. }
        conj; auto.
        + lia.
        + unfold half_full in *. rewrite D. apply Forall_app. split; auto. constructor; auto. rewrite F. dlia.
        + intros. right. lia.
      - apply wp_ret. cbn [fst snd]. conj; auto; [lia|]. intros Ev. apply Hv in Ev. tauto. }
    destruct (nb_nodes b) as [|n0 [|n1 r]] eqn:En.
    - apply Hemit. unfold half_full. rewrite En. auto.
    - unfold half, maxe. destruct (N.ltb_spec (su_nr n0) (m / 2)) as [Hlt|Hge].
      + destruct Hsh as [Hsh|(su & Esu & Eva & Evo)].
        { unfold half_full in Hsh. rewrite En in Hsh. inversion Hsh; subst. lia. }
        assert (shared = false) as Hs0. { destruct shared; auto. specialize (Hvo eq_refl). congruence. }
        eapply wp_mono; [apply (unshift_wp cont w b [] n0); auto| |auto].
        intros [w' b'] _ (A & B & C & kvs & D & D2 & F). cbn [fst snd] in *. rewrite Eva, app_nil_r in F. conj; auto.
        * rewrite F, D. clear - Hlt. dlia.
        * unfold half_full. rewrite B. constructor.
      + apply Hemit. unfold half_full. rewrite En. constructor; auto.
    - apply Hemit. destruct Hsh as [Hsh|(su & Esu & _)]; auto. congruence. }
  eapply wp_mono; [exact Hstep| |auto].
  intros [w1 b1] _ (A & B & C & D & F). cbn [fst snd] in *.
  assert (Hgo : match nb_last b with Some l => l < k | None => True end ->
    wp (_ <~ onrc (rcinc v);; onb (fun b2 => set_values (nb_values b2 ++ [(k, v)]) b2)) (w1, set_last k b1)
     (fun s _ => Inv (cont ++ [(k, v)]) (fst s) (snd s) /\ match nb_last b with Some l => l < k | None => True end) E).
  { intros Hlk. apply wp_bind, wp_onrc. unfold wp. cbn [set_last nb_rc nb_values nb_nodes nb_last].
    destruct A as [He (kvss & HF & Hc & Hrep) Hcnt Hfr Hb Horg].
    pose proof (co_inc _ _ _ _ Hrc _ _ v Hr Hrep) as Hi.
    destruct (rcinc v (nb_rc b1)) as [r' [u| |]]; [| |exact Hi].
    - unfold onb, set_values. cbn [fst snd nb_rc nb_values nb_nodes nb_last].
      split; [|exact Hlk].
      constructor; cbn [nb_rc nb_values nb_nodes nb_last].
      + constructor; cbn [nb_rc nb_values nb_nodes nb_last]; auto. exists kvss. conj; auto.
        * rewrite app_assoc, Hc. auto.
        * eapply rep_perm; [exact Hi|]. rewrite map_app. cbn [map snd]. rewrite <- app_assoc. cbn [app].
          apply Permutation_middle.
      + unfold nlen in *. rewrite app_length. cbn. lia.
      + left. exact C.
      + rewrite map_app, in_app_iff. cbn. auto.
      + intros Ev. rewrite last_key_snoc. split; auto. destruct (F Ev) as [F1|F1]; [left; exact F1|].
        right. unfold nlen in *. rewrite app_length. lia.
    - left. right; right. exists v. eexists. split; [exact Hi|]. exact (within_append [(k, v)] _ _ _ _ Hc). }
  apply wp_bind. unfold check_ordered_key. apply wp_bind, wp_getb. cbn [snd]. rewrite D.
  destruct (nb_last b) as [l|] eqn:El.
  - destruct (N.leb_spec k l) as [Hle|Hgt'].
    + destruct lenient eqn:El2.
      * unfold wp, fail. right. auto.
      * specialize (Hgt eq_refl l Hla). lia.
    + apply wp_onb. apply Hgo; auto.
  - apply wp_onb. apply Hgo; auto.
Qed.

(** push_nodes, in a builder that also gets values *)
Lemma in_node_key s kvs : in_node s kvs -> kvs <> [] -> su_key s = first_key kvs /\ In (first_key kvs) (map fst kvs).
Proof. intros ((_ & _ & H & _) & _) Hne. split; auto. destruct kvs as [|[k v] r]; [congruence|left; auto]. Qed.

Lemma in_concat_last {A} (ls : list (list A)) l x : In x (last ls l) -> ls <> [] -> In x (concat ls).
Proof.
  intros Hx Hne. apply in_concat. exists (last ls l). split; auto.
  destruct (exists_last Hne) as (f & z & ->). rewrite last_last. apply in_or_app. right. left. auto.
Qed.

Lemma push_nodes_wp cont w b ns kvss0 : Inv cont w b -> shared = false -> vo = false ->
  Forall2 in_node ns kvss0 -> ns <> [] -> Forall (fun kvs => kvs <> []) kvss0 ->
  ((1 < length ns)%nat -> Forall (fun s => m / 2 <= su_nr s) ns) ->
  wfc (cont ++ concat kvss0) ->
  wp (push_nodes c io shared rcinc ns) (w, b)
     (fun s _ => Inv (cont ++ concat kvss0) (fst s) (snd s)) (Efail (cont ++ concat kvss0)).
Proof.
  intros [HC Hlen Hsh Hla Hv] Hs0 Hv0 HF0 Hne HneF Hhalf Hw.
  destruct ns as [|n0 rest]; [congruence|]. unfold push_nodes. apply wp_bind, wp_getb. cbn [snd].
  inversion HF0 as [|? kvs0 ? kvss1 Hn0 HF1]; subst.
  inversion HneF as [|? ? Hkv0 HneF1]; subst.
  assert (Hw' : wfc cont) by (apply wfc_app in Hw; tauto).
  set (cont' := cont ++ concat (kvs0 :: kvss1)) in *.
  assert (HE : forall s, Efail cont s -> Efail cont' s).
  { intros s. apply Efail_app. }
  (* the first comer *)
  assert (Hroot : rest = [] -> nb_nodes b = [] -> nb_values b = [] ->
     wp (add_nodes [n0]) (w, b) (fun s _ => Inv cont' (fst s) (snd s)) (Efail cont')).
  { intros -> En Ev. eapply wp_mono; [apply (add_nodes_wp [n0] cont w b (kvs0 :: kvss1)); auto| |auto].
    intros [w' b'] _ (A & B & C & D). cbn [fst snd] in *. rewrite En in B. cbn [app] in B. constructor; auto.
    - rewrite D. cbn. lia.
    - right. exists n0. auto.
    - rewrite C. destruct (nb_last b); auto. unfold cont'. rewrite map_app, in_app_iff. auto.
    - congruence. }
  assert (Hmain : wp (if negb (Nat.eqb (length rest) 0) && existsb (fun n1 => su_nr n1 <? half c) (n0 :: rest) then lift Panic
    else if match nb_last b with Some last0 => su_key n0 <=? last0 | None => false end then fail
    else _ <~ match nb_nodes b with
              | [n1] => if su_nr n1 <? half c then unshift_node c io rcinc else ret tt
              | _ => ret tt end;;
         b0 <~ getb;;
         _ <~ (if negb (nlen (nb_values b0) =? 0) && (nlen (nb_values b0) <? half c)
               then _ <~ append_values c io rcinc n0;;
                    match rest with [] => ret tt | _ :: _ => _ <~ emit_all c io shared;; add_nodes rest end
               else _ <~ emit_all c io shared;;
                    (if su_nr n0 <? half c then append_values c io rcinc n0 else add_nodes (n0 :: rest)));;
         onb (set_last (su_key (last (n0 :: rest) n0)))) (w, b)
     (fun s _ => Inv cont' (fst s) (snd s)) (Efail cont')).
  2:{ destruct rest as [|n1 r]; [|exact Hmain]. destruct (nb_nodes b) eqn:En; [|exact Hmain].
      destruct (nb_values b) eqn:Ev; [|exact Hmain]. apply Hroot; auto. }
  unfold half, maxe.
  assert (Hex : negb (Nat.eqb (length rest) 0) && existsb (fun n1 => su_nr n1 <? m / 2) (n0 :: rest) = false).
  { destruct (Nat.eqb_spec (length rest) 0); [auto|]. cbn [negb andb].
    specialize (Hhalf ltac:(cbn; lia)). apply not_true_is_false. intros Hx. apply existsb_exists in Hx as (x & Hx & Hlt).
    rewrite Forall_forall in Hhalf. specialize (Hhalf x Hx). apply N.ltb_lt in Hlt. lia. }
  rewrite Hex. clear Hex.
  assert (Hkey : match nb_last b with Some l => su_key n0 <=? l | None => false end = false).
  { destruct (nb_last b) as [l|] eqn:El; auto. apply N.leb_gt.
    destruct (in_node_key _ _ Hn0 Hkv0) as [-> Hin].
    destruct Hw as [Hw _]. unfold cont' in Hw. rewrite map_app in Hw. apply increasing_split in Hw as (_ & _ & Hw).
    apply Hw; auto. cbn [concat]. rewrite map_app, in_app_iff. auto. }
  rewrite Hkey. clear Hkey.
  (* the last key *)
  assert (Hlast : In (su_key (last (n0 :: rest) n0)) (map fst cont')).
  { unfold cont'. rewrite map_app, in_app_iff. right.
    assert (exists kvs, In kvs (kvs0 :: kvss1) /\ in_node (last (n0 :: rest) n0) kvs /\ kvs <> []) as (kvs & K1 & K2 & K3).
    { clear - HF0 HneF Hne. revert HneF. destruct (exists_last Hne) as (f & z & E). rewrite E in *. rewrite last_last.
      apply Forall2_app_inv_l in HF0 as (kf & kz & _ & Hz & ->). inversion Hz as [|? k ? ? Hk Hk2]; subst. inversion Hk2; subst.
      intros F. apply Forall_app in F as [_ F]. inversion F; subst. exists k. conj; auto. apply in_or_app; right; left; auto. }
    destruct (in_node_key _ _ K2 K3) as [-> K4].
    apply in_map_iff in K4 as (kv & <- & K4). apply in_map. apply in_concat. eauto. }
  apply wp_bind.
  assert (Hst : wp (match nb_nodes b with
              | [n1] => if su_nr n1 <? m / 2 then unshift_node c io rcinc else ret tt
              | _ => ret tt end) (w, b)
       (fun s _ => Core cont (fst s) (snd s) /\ nlen (nb_values (snd s)) <= m * 2 /\ half_full (snd s)) (Efail cont')).
  { assert (Hstay : half_full b -> wp (ret tt) (w, b)
       (fun s (_ : unit) => Core cont (fst s) (snd s) /\ nlen (nb_values (snd s)) <= m * 2 /\ half_full (snd s)) (Efail cont')).
    { intros Hhf. apply wp_ret. auto. }
    destruct (nb_nodes b) as [|n1 [|n2 r]] eqn:En.
    - apply Hstay. unfold half_full. rewrite En. auto.
    - destruct (N.ltb_spec (su_nr n1) (m / 2)) as [Hlt|Hge].
      + destruct Hsh as [Hsh|(su & Esu & Eva & Evo)].
        { unfold half_full in Hsh. rewrite En in Hsh. inversion Hsh; subst. lia. }
        eapply wp_mono; [apply (unshift_wp cont w b [] n1); auto| |auto].
        intros [w' b'] _ (A & B & C & kvs & D & D2 & F). cbn [fst snd] in *. rewrite Eva, app_nil_r in F. conj; auto.
        * rewrite F. lia.
        * unfold half_full. rewrite B. constructor.
      + apply Hstay. unfold half_full. rewrite En. constructor; auto.
    - apply Hstay. destruct Hsh as [Hsh|(su & Esu & _)]; auto. congruence. }
  eapply wp_mono; [exact Hst| |auto].
  intros [w1 b1] _ (A & B & C). cbn [fst snd] in *. apply wp_bind, wp_getb. cbn [snd].
  (* finishing *)
  assert (Hfin : forall w2 b2, Core cont' w2 b2 -> nlen (nb_values b2) <= m * 2 -> half_full b2 ->
     wp (onb (set_last (su_key (last (n0 :: rest) n0)))) (w2, b2) (fun s _ => Inv cont' (fst s) (snd s)) (Efail cont')).
  { intros w2 b2 K1 K2 K3. apply wp_onb. cbn [fst snd]. constructor; cbn [set_last nb_values nb_nodes nb_last]; auto.
    - apply core_last; auto.
    - congruence. }
  assert (Hn0len : nlen kvs0 = su_nr n0 /\ nlen kvs0 <= m).
  { destruct Hn0 as ((_ & K1 & _ & K2 & _) & _). auto. }
  destruct Hn0len as [Hn0l Hn0m].
  assert (Hw0 : wfc (cont ++ kvs0)).
  { unfold cont' in Hw. cbn [concat] in Hw. rewrite app_assoc in Hw. apply wfc_app in Hw. tauto. }
  apply wp_bind.
  destruct (negb (nlen (nb_values b1) =? 0) && (nlen (nb_values b1) <? m / 2)) eqn:Ecase.
  - apply andb_prop in Ecase as [E1 E2]. apply N.ltb_lt in E2.
    apply wp_bind. eapply wp_mono; [apply (append_wp cont w1 b1 n0 kvs0); auto| |].
    2:{ intros s. unfold cont'. cbn [concat]. rewrite app_assoc. apply Efail_app. }
    intros [w2 b2] _ (A2 & B2 & C2 & D2). cbn [fst snd] in *.
    assert (Hl2 : nlen (nb_values b2) = nlen (nb_values b1) + su_nr n0).
    { rewrite D2. unfold nlen in *. rewrite app_length. lia. }
    assert (Hh2 : half_full b2) by (unfold half_full in *; rewrite B2; auto).
    assert (Hdiv : m / 2 <= m) by dlia.
    destruct rest as [|n1 r].
    + inversion HF1; subst. apply wp_ret. apply Hfin; auto.
      * unfold cont'. cbn [concat]. rewrite app_nil_r. auto.
      * lia.
    + specialize (Hhalf ltac:(cbn; lia)). inversion Hhalf as [|? ? Hh0 Hhr]; subst.
      apply wp_bind. eapply wp_mono; [apply (emit_all_wp (cont ++ kvs0)); auto; try lia| |].
      * intros [w3 b3] _ (A3 & B3 & C3 & _ & D3 & _). cbn [fst snd] in *.
        assert (half_full b3) as Hh3 by (apply D3; right; lia).
        eapply wp_mono; [apply (add_nodes_wp (n1 :: r) (cont ++ kvs0) w3 b3 kvss1); auto| |].
        -- intros [w4 b4] _ (A4 & B4 & C4 & D4). cbn [fst snd] in *. apply Hfin.
           ++ unfold cont'. cbn [concat]. rewrite app_assoc. auto.
           ++ rewrite D4. cbn. lia.
           ++ unfold half_full in *. rewrite B4. apply Forall_app; auto.
        -- intros s. unfold cont'. cbn [concat]. rewrite app_assoc. auto.
      * intros s. unfold cont'. cbn [concat]. rewrite app_assoc. apply Efail_app.
  - assert (Hc2 : nb_values b1 = [] \/ m / 2 <= nlen (nb_values b1)).
    { apply andb_false_iff in Ecase as [E1|E1].
      - left. apply negb_false_iff, N.eqb_eq in E1. destruct (nb_values b1); auto. unfold nlen in E1; cbn in E1; lia.
      - right. apply N.ltb_ge in E1. auto. }
    apply wp_bind. eapply wp_mono; [apply (emit_all_wp cont); auto; tauto| |auto].
    intros [w3 b3] _ (A3 & B3 & C3 & _ & D3 & _). cbn [fst snd] in *. specialize (D3 Hc2).
    destruct (N.ltb_spec (su_nr n0) (m / 2)) as [Hlt|Hge].
    + assert (rest = []) as ->.
      { destruct rest; auto. specialize (Hhalf ltac:(cbn; lia)). inversion Hhalf; subst. lia. }
      inversion HF1; subst.
      eapply wp_mono; [apply (append_wp cont w3 b3 n0 kvs0); auto| |].
      * intros [w2 b2] _ (A2 & B2 & C2 & D2). cbn [fst snd] in *. apply Hfin.
        -- unfold cont'. cbn [concat]. rewrite app_nil_r. auto.
        -- rewrite D2, B3. cbn [app]. lia.
        -- unfold half_full in *. rewrite B2. auto.
      * intros s. unfold cont'. cbn [concat]. rewrite app_nil_r. auto.
    + eapply wp_mono; [apply (add_nodes_wp (n0 :: rest) cont w3 b3 (kvs0 :: kvss1)); auto| |auto].
      intros [w4 b4] _ (A4 & B4 & C4 & D4). cbn [fst snd] in *. apply Hfin; auto.
      * rewrite D4. cbn. lia.
      * unfold half_full in *. rewrite B4. apply Forall_app; split; auto.
        destruct rest; [constructor; auto|]. apply Hhalf. cbn; lia.
Qed.

(** An empty leaf pushed first *)
Lemma push_first_wp w b s : Inv [] w b -> shared = false -> vo = false -> in_node s [] -> nb_nodes b = [] -> nb_values b = [] ->
  wp (push_nodes c io shared rcinc [s]) (w, b) (fun s' _ => Inv [] (fst s') (snd s')) (Efail []).
Proof.
  intros [HC Hlen Hsh Hla Hv] Hs0 Hv0 Hs En Ev. unfold push_nodes. apply wp_bind, wp_getb. cbn [snd]. rewrite En, Ev.
  eapply wp_mono; [apply (add_nodes_wp [s] [] w b [[]]); auto| |auto].
  intros [w' b'] _ (A & B & C & D). cbn [fst snd] in *. rewrite En in B. cbn [app concat] in *. constructor; auto.
  - rewrite D. cbn. lia.
  - right. exists s. auto.
  - rewrite C. exact Hla.
  - congruence.
Qed.

(** complete *)
Definition nodes_done (cont : list (N * V)) (w : wb) (ns : list summary) (rc : R) : Prop :=
  exists kvss, Forall2 (node_for (wb_view w)) ns kvss /\ concat kvss = cont /\ rep rc (ownvals ns kvss ++ rcs0) /\
    ns <> [] /\ (Forall (fun s => m / 2 <= su_nr s) ns \/ exists s, ns = [s]).

Lemma complete_wp cont w b : Inv cont w b -> wfc cont ->
  wp (nb_complete c io shared rcinc) (w, b)
     (fun s ns => env (fst s) /\ nodes_done cont (fst s) ns (nb_rc (snd s)) /\
        (forall x, cnt (fst s) x = cnt w0 x + occ x (map su_block ns)) /\
        (forall x, 0 < cnt w0 x -> wb_view (fst s) x = wb_view w0 x) /\
        wb_base (fst s) = wb_base w0 /\ origin ns) (Efail cont).
Proof.
  intros [HC Hlen Hsh Hla Hv] Hw. unfold nb_complete. apply wp_bind, wp_getb. cbn [snd].
  assert (Hm2 : m / 2 <= m) by dlia.
  assert (Hm3 : 2 <= m / 2) by dlia.
  apply wp_bind. unfold half, maxe.
  assert (Hst : wp (if negb (nlen (nb_values b) =? 0) && (nlen (nb_values b) <? m / 2) && negb (Nat.eqb (length (nb_nodes b)) 0)
       then unshift_node c io rcinc else ret tt) (w, b)
     (fun s _ => Core cont (fst s) (snd s) /\ nlen (nb_values (snd s)) <= m * 2 /\
        (half_full (snd s) \/ exists su, nb_nodes (snd s) = [su] /\ nb_values (snd s) = []) /\
        (nb_values (snd s) = [] \/ m / 2 <= nlen (nb_values (snd s)) \/ nb_nodes (snd s) = [])) (Efail cont)).
  { destruct (negb _ && _ && _) eqn:Ec.
    - apply andb_prop in Ec as [Ec E3]. apply andb_prop in Ec as [E1 E2].
      apply N.ltb_lt in E2. apply negb_true_iff, N.eqb_neq in E1. apply negb_true_iff, Nat.eqb_neq in E3.
      assert (nb_nodes b <> []) as Hnn by (destruct (nb_nodes b); [cbn in E3; lia|discriminate]).
      destruct (exists_last Hnn) as (front & ls & En).
      assert (Hhf : half_full b).
      { destruct Hsh as [Hsh|(su & _ & Eva & _)]; auto. rewrite Eva in E1. exfalso; apply E1; auto. }
      assert (shared = false) as Hs0.
      { destruct shared; auto. specialize (Hv (Hvo eq_refl)). destruct Hv as [[Hv|Hv] _]; [congruence|lia]. }
      eapply wp_mono; [apply (unshift_wp cont w b front ls); auto| |auto].
      intros [w' b'] _ (A & B & C & kvs & D & D2 & F). cbn [fst snd] in *.
      unfold half_full in *. rewrite En in Hhf. apply Forall_app in Hhf as [Hh1 Hh2]. inversion Hh2; subst.
      assert (nlen (nb_values b') = su_nr ls + nlen (nb_values b)).
      { rewrite F. unfold nlen in *. rewrite app_length. lia. }
      conj; auto; lia.
    - apply wp_ret. cbn [fst snd]. conj; auto.
      + destruct Hsh as [Hsh|(su & E1 & E2 & _)]; eauto.
      + apply andb_false_iff in Ec as [Ec|Ec]; [apply andb_false_iff in Ec as [Ec|Ec]|].
        * left. apply negb_false_iff, N.eqb_eq in Ec. destruct (nb_values b); auto. unfold nlen in Ec; cbn in Ec; lia.
        * right; left. apply N.ltb_ge in Ec. auto.
        * right; right. apply negb_false_iff, Nat.eqb_eq in Ec. destruct (nb_nodes b); auto. cbn in Ec; lia. }
  eapply wp_mono; [exact Hst| |auto].
  intros [w1 b1] _ (A & B & C & D). cbn [fst snd] in *. apply wp_bind.
  assert (Hem : wp (emit_all c io shared) (w1, b1)
     (fun s _ => Core cont (fst s) (snd s) /\ nb_values (snd s) = [] /\
        (half_full (snd s) \/ exists su, nb_nodes (snd s) = [su])) (Efail cont)).
  { destruct C as [C|(su & C1 & C2)].
    - eapply wp_mono; [apply (emit_all_wp cont); auto| |auto].
      intros [w' b'] _ (K1 & K2 & K3 & K4 & _). auto.
    - unfold emit_all. apply wp_bind, wp_getb. cbn [snd]. rewrite C2. cbn [nlen length].
      change (N.of_nat 0 =? 0) with true. cbn iota. apply wp_ret. cbn [fst snd]. conj; eauto. }
  eapply wp_mono; [exact Hem| |auto].
  intros [w2 b2] _ (A2 & B2 & C2). cbn [fst snd] in *. apply wp_bind, wp_getb. cbn [snd]. apply wp_bind.
  assert (Hend : forall w3 b3, Core cont w3 b3 -> nb_values b3 = [] -> nb_nodes b3 <> [] ->
     (half_full b3 \/ exists su, nb_nodes b3 = [su]) ->
     wp (b <~ getb;; ret (nb_nodes b)) (w3, b3)
     (fun s ns => env (fst s) /\ nodes_done cont (fst s) ns (nb_rc (snd s)) /\
        (forall x, cnt (fst s) x = cnt w0 x + occ x (map su_block ns)) /\
        (forall x, 0 < cnt w0 x -> wb_view (fst s) x = wb_view w0 x) /\
        wb_base (fst s) = wb_base w0 /\ origin ns) (Efail cont)).
  { intros w3 b3 [He (kvss & HF & Hc & Hr) Hcnt Hfr Hb Horg] K1 K2 K3. apply wp_bind, wp_getb, wp_ret. cbn [fst snd]. conj; auto.
    exists kvss. rewrite K1 in *. rewrite app_nil_r in Hc. cbn [map app] in Hr. conj; auto. }
  destruct (nb_nodes b2) as [|s r] eqn:En.
  - eapply wp_mono; [apply (emit_values_wp cont 0); auto; lia| |auto].
    intros [w3 b3] _ (A3 & B3 & C3 & su & D3 & F3). cbn [fst snd] in *. apply Hend; auto.
    + rewrite B3, B2. auto.
    + rewrite D3, En. discriminate.
    + right. exists su. rewrite D3, En. auto.
  - apply wp_ret. apply Hend; auto; rewrite En; auto. discriminate.
Qed.

Lemma Inv_new w rc : w = w0 -> env w -> rep rc rcs0 -> Inv [] w (nb_new rc).
Proof.
  intros -> He Hr. constructor; cbn; auto.
  - constructor; cbn; auto; [|intros; lia|constructor]. exists []. cbn. auto.
  - lia.
  - left. constructor.
Qed.
End NB.
