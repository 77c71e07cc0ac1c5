(** The metadata map while the trees of mappings are read: only their blocks are counted. *)
From Verif Require Import Base Csum_Model Codec_Model Utils_Model Walker_Model Walker_Spec Walker_Proofs SpaceMap_Model Pack_Proofs ThinCheck_Model ThinCheck_Spec ThinRead_Proofs.

Section Keep.
Context (nr : N) (eng : N -> option (list N)) (inf : bool).
Hypothesis Hdev : device_of nr eng.
Hypothesis Hptr : small_pointers eng inf.
Context (P : N -> Prop).
Hypothesis Pdown : forall b ks cs c, P b -> inner_on eng inf b = Some (ks, cs) -> In c cs -> P c.

Definition kept (s s' : wsm) : Prop := wkind s s' /\ wcapped s' /\ forall b, ~ P b -> wcount s' b = wcount s b.
Lemma kept_refl s : wcapped s -> kept s s.
Proof using Hdev Hptr Pdown. intros H. unfold kept, wkind. conj; auto. Qed.
Lemma kept_trans a b c : kept a b -> kept b c -> kept a c.
Proof using Hdev Hptr Pdown.
  intros ((A1 & A2 & A3) & A4 & A5) ((B1 & B2 & B3) & B4 & B5). unfold kept, wkind. conj; auto; try congruence. intros x Hx. rewrite B5, A5; auto.
Qed.
Lemma inc_kind s x : wrestr (fst (wsm_inc s x 1)) = wrestr s.
Proof using Hdev Hptr Pdown.
  destruct s as [s|r]; cbn [wsm_inc]; [destruct (sm_inc s x 1)|destruct (rsm_inc r x 1)]; reflexivity.
Qed.
Lemma kept_inc s x : x < W32 -> P x -> wcapped s -> kept s (fst (wsm_inc s x 1)).
Proof using Hdev Hptr Pdown.
  intros Lx HP Hc. destruct (inc_one s x) as (A1 & A2 & A3 & A4); [unfold W32 in Lx; unfold W64; lia|auto|]. unfold kept, wkind. conj; auto; [apply inc_kind|].
  intros b Hb. rewrite A4. destruct (N.eqb_spec b x) as [E|E]; [subst; contradiction|reflexivity].
Qed.
Lemma kept_seen s x : x < W32 -> P x -> wcapped s -> kept s (fst (is_seen x s)).
Proof using Hdev Hptr Pdown.
  intros Lx HP Hc. pose proof (kept_inc s x Lx HP Hc) as H. unfold is_seen. destruct (wsm_inc s x 1) as [s' [u| |]]; exact H.
Qed.
Lemma mod_lt v : v mod W32 < W32.
Proof using Hdev Hptr Pdown. apply N.mod_lt. discriminate. Qed.
Lemma kept_ins (s : rst) r : match ins s r with Ok s' => fst s' = fst s | _ => True end.
Proof using Hdev Hptr Pdown. unfold ins. destruct r; auto. Qed.
Lemma kept_new_children last vs : forall s, (forall v, In v vs -> P (v mod W32)) -> wcapped (fst s) ->
  match new_children last vs s with Ok (s', l) => kept (fst s) (fst s') | _ => True end.
Proof using Hdev Hptr Pdown.
  induction vs as [|v vs IH]; intros s HP Hc; cbn [new_children]; [apply kept_refl; auto|].
  pose proof (kept_seen (fst s) (v mod W32) (mod_lt v) (HP v (or_introl eq_refl)) Hc) as H1. destruct (is_seen _ _) as [sm r]. cbn [fst] in H1.
  assert (Hc' : wcapped sm) by apply H1. specialize (IH (sm, snd s) (fun x Hx => HP x (or_intror Hx)) Hc'). cbn [fst] in IH.
  destruct r as [seen| |]; auto; cbv zeta; destruct (new_children _ vs _) as [[s' l]| |]; cbn [bind]; auto; eapply kept_trans; eauto.
Qed.
Lemma kept_insert_leaves vs : forall s, match insert_leaves vs s with Ok s' => fst s' = fst s | _ => True end.
Proof using Hdev Hptr Pdown.
  induction vs as [|v vs IH]; intros s; cbn [insert_leaves]; auto.
  pose proof (kept_ins s (nm_insert_leaf (snd s) (v mod W32))) as H. destruct (ins _ _) as [s'| |]; cbn [bind]; auto.
  specialize (IH s'). destruct (insert_leaves vs s'); congruence.
Qed.
Lemma kept_read_node depth : forall b data s, eng b = Some data -> P b -> wcapped (fst s) -> match read_node eng inf depth b data s with Ok s' => kept (fst s) (fst s') | _ => True end.
Proof using Hdev Hptr Pdown.
  induction depth as [|depth IH]; intros b data s Hb HPb Hc; cbn [read_node];
    (destruct (check_and_unpack_node u64_codec (mkblock b data) inf true) as [[h ks vs|h ks vs]| |] eqn:Ec; auto;
     [|apply kept_refl; auto
      |pose proof (kept_ins s (nm_insert_error (snd s) (b mod W32) tt)) as X; destruct (ins _ _); auto; rewrite X; apply kept_refl; auto]).
  all: assert (Hin : inner_on eng inf b = Some (ks, vs)) by (unfold inner_on; rewrite Hb, Ec; reflexivity).
  all: assert (Hch : forall v, In v vs -> P (v mod W32)) by
    (intros v Hv; rewrite N.mod_small by exact (Hptr b ks vs v Hin Hv); exact (Pdown b ks vs v HPb Hin Hv)).
  all: assert (Hch2 : forall v, In v vs -> P v) by (intros v Hv; exact (Pdown b ks vs v HPb Hin Hv)).
  all: match goal with |- context [ins ?s0 ?r] => pose proof (kept_ins s0 r) as H1; destruct (ins s0 r) as [s1| |]; cbn [bind]; auto end.
  all: assert (Hc1 : wcapped (fst s1)) by (rewrite H1; exact Hc).
  - pose proof (kept_new_children true vs s1 Hch Hc1) as H2. destruct (new_children _ _ _) as [[s2 l]| |]; cbn [bind]; auto.
    pose proof (kept_insert_leaves l s2) as H3. destruct (insert_leaves l s2) as [s3| |]; auto. rewrite H3, <- H1. exact H2.
  - pose proof (kept_new_children false vs s1 Hch Hc1) as H2. pose proof (NI_new_children nr eng inf Hdev Hptr P Pdown false vs s1) as H2'.
    destruct (new_children _ _ _) as [[s2 l]| |]; cbn [bind]; auto. rewrite <- H1. clear H1 Hc1. destruct H2' as [_ Hl].
    assert (H3 : kept (fst s1) (fst s2)) by exact H2. clear H2. revert s2 H3.
    induction l as [|v l IHl]; intros s2 H3; auto. specialize (IHl (fun x Hx => Hl x (or_intror Hx))). pose proof (Hl v (or_introl eq_refl)) as Hv.
    destruct (eng v) as [dv|] eqn:Ev.
    + pose proof (IH v dv s2 Ev (Hch2 v Hv) (proj1 (proj2 H3))) as H4. destruct (read_node _ _ _ _ _ _) as [s3| |]; cbn [bind]; auto. apply IHl. eapply kept_trans; eauto.
    + match goal with |- context [ins s2 ?r] => pose proof (kept_ins s2 r) as H4; destruct (ins s2 r) as [s3| |]; cbn [bind]; auto end. apply IHl. rewrite H4. exact H3.
Qed.
Lemma kept_read_roots roots : forall s, (forall r, In r roots -> P (r mod W32)) -> wcapped (fst s) -> match read_roots nr eng inf roots s with Ok s' => kept (fst s) (fst s') | _ => True end.
Proof using Hdev Hptr Pdown.
  induction roots as [|r roots IH]; intros s HR Hc; cbn [read_roots]; [apply kept_refl; auto|]. pose proof (HR r (or_introl eq_refl)) as Hr.
  assert (H1 : match read_internal_nodes nr eng inf (r mod W32) s with Ok s' => kept (fst s) (fst s') | _ => True end).
  { unfold read_internal_nodes. pose proof (kept_seen (fst s) (r mod W32) (mod_lt r) Hr Hc) as K. destruct (is_seen _ _) as [sm x]. cbn [fst] in K. cbv zeta.
    destruct x as [[|]| |]; auto.
    destruct (get_depth _ _ _ _ _) as [[|depth]|]; auto.
    - match goal with |- context [ins ?s2 ?r] => pose proof (kept_ins s2 r) as H4; destruct (ins s2 r) as [s3| |]; auto end. rewrite H4. exact K.
    - destruct (eng (r mod W32)) as [data|] eqn:E.
      + pose proof (kept_read_node depth (r mod W32) data (sm, snd s) E Hr (proj1 (proj2 K))) as H4. destruct (read_node _ _ _ _ _ _); auto. eapply kept_trans; eauto.
      + match goal with |- context [ins ?s2 ?r] => pose proof (kept_ins s2 r) as H4; destruct (ins s2 r) as [s3| |]; auto end. rewrite H4. exact K. }
  destruct (read_internal_nodes _ _ _ _ s) as [s1| |]; cbn [bind]; auto. specialize (IH s1 (fun x Hx => HR x (or_intror Hx)) (proj1 (proj2 H1))).
  destruct (read_roots _ _ _ roots s1); auto. eapply kept_trans; eauto.
Qed.
Lemma kept_bottom fuel order roots msm dsm msm' dsm' ss : (forall r, In r roots -> P (r mod W32)) -> wcapped msm ->
  check_mappings_bottom_level nr eng inf fuel order roots msm dsm = (msm', dsm', Ok ss) -> kept msm msm'.
Proof using Hdev Hptr Pdown.
  intros HR Hc H. unfold check_mappings_bottom_level, collect_nodes_in_use in H. pose proof (kept_read_roots roots (msm, nm_new (nr mod W32)) HR Hc) as K.
  cbn [fst] in K. destruct (read_roots _ _ _ _ _) as [[m nodes]| |]; try discriminate. cbn [fst] in K.
  destruct (read_leaves _ _ _ _) as [[[a b] c]| |]; try discriminate. assert (m = msm') by congruence. subst. exact K.
Qed.
End Keep.
