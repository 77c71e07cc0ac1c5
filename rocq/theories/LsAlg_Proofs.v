(** thin_ls: counting references. *)
From Coq Require Import Permutation.
From Verif Require Import Base Csum_Model Codec_Model Codec_Spec Utils_Proofs Builder_Spec Builder_Proofs BtreeRead_Proofs ThinCheck_Spec ThinRead_Proofs Dump_Spec Dump_Proofs Ls_Model Ls_Spec.
From Verif Require RestoreFin_Proofs.

(** ** Lists *)
Lemma occ_fm_in {A} (f : A -> list N) d : forall l x, In x l -> occ d (f x) <= occ d (flat_map f l).
Proof. induction l as [|y l IH]; intros x []; cbn [flat_map]; rewrite occ_app; [subst; lia|]. specialize (IH x H). lia. Qed.
Lemma occ_fm_times (f : N -> list N) d b : forall X, occ b X * occ d (f b) <= occ d (flat_map f X).
Proof.
  induction X as [|x X IH]; cbn [flat_map occ]; [lia|]. rewrite occ_app. destruct (N.eqb_spec b x) as [<-|]; lia.
Qed.
Lemma occ_fm_zero {A} (f : A -> list N) d l : (forall x, In x l -> occ d (f x) = 0) -> occ d (flat_map f l) = 0.
Proof. induction l as [|x l IH]; intros H; cbn [flat_map]; [reflexivity|]. rewrite occ_app, H, IH; [lia| |left; auto]. intros; apply H; right; auto. Qed.
Lemma occ_fm_sub (f : N -> list N) d : forall Y X, NoDup Y -> incl Y X -> occ d (flat_map f Y) <= occ d (flat_map f X).
Proof.
  induction Y as [|y Y IH]; intros X HN HI; cbn [flat_map]; [cbn; lia|]. apply NoDup_cons_iff in HN as [Hy HN].
  destruct (in_split y X) as (X1 & X2 & ->); [apply HI; left; auto|].
  assert (H : occ d (flat_map f Y) <= occ d (flat_map f (X1 ++ X2))).
  { apply IH; auto. intros z Hz. assert (In z (X1 ++ y :: X2)) as H by (apply HI; right; auto). apply in_app_or in H as [H|[H|H]]; [apply in_or_app; auto| |apply in_or_app; auto].
    subst z. contradiction. }
  rewrite !flat_map_app, !occ_app in *. cbn [flat_map]. rewrite occ_app. lia.
Qed.
(** when [d] is referred to once from the distinct nodes [Y] of [X], namely from [b], then as
    often from [X] as [b] occurs in it *)
Lemma occ_fm_once (f : N -> list N) d b Y X : NoDup Y -> incl Y X -> (forall x, In x X -> f x <> [] -> In x Y) ->
  In b Y -> In d (f b) -> occ d (flat_map f Y) <= 1 -> occ d (flat_map f X) = occ b X.
Proof.
  intros HN HI HY Hb Hd H1.
  assert (Eb : occ d (f b) = 1). { pose proof (occ_fm_in f d Y b Hb). apply occ_in in Hd. lia. }
  assert (E0 : forall y, In y X -> y <> b -> occ d (f y) = 0).
  { intros y Hy Ne. destruct (f y) as [|z r] eqn:Ef; [reflexivity|]. assert (HyY : In y Y) by (apply HY; [auto|rewrite Ef; discriminate]). rewrite <- Ef.
    destruct (in_split b Y Hb) as (Y1 & Y2 & ->). rewrite flat_map_app in H1. cbn [flat_map] in H1. rewrite !occ_app in H1.
    apply in_app_or in HyY as [H|[H|H]]; [pose proof (occ_fm_in f d Y1 y H); lia|congruence|pose proof (occ_fm_in f d Y2 y H); lia]. }
  clear - Eb E0. induction X as [|x X IH]; [reflexivity|]. cbn [flat_map occ]. rewrite occ_app, IH by (intros; apply E0; [right; auto|auto]).
  destruct (N.eqb_spec b x) as [<-|Ne]; [lia|]. rewrite E0; [lia|left; auto|auto].
Qed.

(** ** The nodes *)
Section Nodes.
Context (eng : N -> option (list N)).
Definition kids (b : N) : list N :=
  match eng b with Some data => match unpack_node_raw bt_codec data true true with Ok (Internal _ _ bs) => bs | _ => [] end | None => [] end.
Definition targ (b : N) : list N :=
  match eng b with Some data => match unpack_node_raw bt_codec data true true with Ok (Leaf _ _ vs) => map bt_block vs | _ => [] end | None => [] end.
Fixpoint nodes_in (depth : nat) (b : N) : list N :=
  match depth with O => [b] | S dp => b :: flat_map (nodes_in dp) (kids b) end.

Lemma thin_mapping : forall d r b kvs, thin_tree eng r d b kvs -> mapping_tree eng r d b kvs.
Proof.
  induction d as [|dp IH]; intros r b kvs H; cbn [thin_tree mapping_tree] in *.
  - destruct H as (h & ks & vs & (Hn & _) & E). eauto.
  - destruct H as (h & ks & bs & subs & (Hn & _) & Hne & Hc & E). exists h, ks, bs, subs. conj; auto. clear - IH Hc.
    revert bs subs Hc. induction ks as [|k ks IHk]; intros [|b bs] [|s subs] Hc; cbn [children_ok] in *; auto. destruct Hc as (A & B & C & D). conj; auto.
Qed.
Lemma kids_internal r b h ks bs : node_on bt_codec eng r b (Internal h ks bs) -> kids b = bs /\ targ b = [].
Proof. intros H. apply node_on_loose in H as (data & E & _ & U). unfold kids, targ. rewrite E, U. auto. Qed.
Lemma kids_leaf r b h ks vs : node_on bt_codec eng r b (Leaf h ks vs) -> kids b = [] /\ targ b = map bt_block vs.
Proof. intros H. apply node_on_loose in H as (data & E & _ & U). unfold kids, targ. rewrite E, U. auto. Qed.
Lemma thin_kids d r b kvs c : thin_tree eng r (S d) b kvs -> In c (kids b) -> exists s, thin_tree eng false d c s.
Proof.
  intros (h & ks & bs & subs & (Hn & _) & _ & Hc & _) Hi. rewrite (proj1 (kids_internal _ _ _ _ _ Hn)) in Hi. apply children_F2 in Hc.
  clear - Hc Hi. induction Hc as [|x s bs subs Hx Hc IH]; [destruct Hi|]. destruct Hi as [<-|Hi]; eauto.
Qed.
Lemma thin_root d r b kvs : thin_tree eng r d b kvs -> forall kvs' d', thin_tree eng true d' b kvs' -> d = d'.
Proof. intros H kvs' d' H'. eapply tree_depth; apply thin_mapping; eauto. Qed.

(** the maps of a tree, from its nodes *)
Definition refs_of (kvs : list (N * block_time)) : list N := map (fun kv => bt_block (snd kv)) kvs.
Lemma nodes_targ : forall d r b kvs, thin_tree eng r d b kvs -> flat_map targ (nodes_in d b) = refs_of kvs.
Proof.
  induction d as [|d IH]; intros r b kvs H; cbn [thin_tree nodes_in flat_map] in *.
  - destruct H as (h & ks & vs & (Hn & _) & ->). rewrite (proj2 (kids_leaf _ _ _ _ _ Hn)), app_nil_r. destruct Hn as (data & _ & _ & U).
    apply raw_facts in U as (_ & _ & HL). unfold refs_of. clear - HL. revert vs HL. induction ks as [|k ks IH]; intros [|v vs] HL; cbn in *; try lia; auto. f_equal. apply IH. lia.
  - destruct H as (h & ks & bs & subs & (Hn & _) & _ & Hc & ->). destruct (kids_internal _ _ _ _ _ Hn) as [-> ->]. cbn [app]. apply children_F2 in Hc.
    clear - Hc IH. induction Hc as [|x s bs subs Hx Hc IHc]; [reflexivity|]. cbn [flat_map concat]. unfold refs_of in *. rewrite flat_map_app, map_app. f_equal; eauto.
Qed.
Lemma nodes_perm : forall d r b kvs, thin_tree eng r d b kvs -> Permutation (nodes_in d b) (b :: flat_map kids (nodes_in d b)).
Proof.
  induction d as [|d IH]; intros r b kvs H; cbn [thin_tree nodes_in flat_map] in *.
  - destruct H as (h & ks & vs & (Hn & _) & ->). rewrite (proj1 (kids_leaf _ _ _ _ _ Hn)). cbn. auto.
  - constructor. destruct H as (h & ks & bs & subs & (Hn & _) & _ & Hc & ->). destruct (kids_internal _ _ _ _ _ Hn) as [-> _]. apply children_F2 in Hc.
    clear - Hc IH. induction Hc as [|x s bs subs Hx Hc IHc]; [constructor|]. cbn [flat_map]. rewrite flat_map_app. specialize (IH _ _ _ Hx).
    eapply perm_trans; [apply Permutation_app; [exact IH|exact IHc]|]. cbn [app]. constructor.
    rewrite !app_assoc. apply Permutation_app_tail. apply Permutation_app_comm.
Qed.
Lemma nodes_down : forall d r b kvs, thin_tree eng r d b kvs -> forall x, In x (nodes_in d b) -> exists r' d' kvs', thin_tree eng r' d' x kvs' /\ (d' <= d)%nat.
Proof.
  induction d as [|d IH]; intros r b kvs H x Hx; cbn [nodes_in] in Hx.
  - destruct Hx as [<-|[]]. exists r, 0%nat, kvs. auto.
  - destruct Hx as [<-|Hx]; [exists r, (S d), kvs; auto|]. apply in_flat_map in Hx as (c & Hc & Hx). destruct (thin_kids _ _ _ _ _ H Hc) as (s & Hs).
    destruct (IH _ _ _ Hs x Hx) as (r' & d' & kvs' & A & B). exists r', d', kvs'. split; auto.
Qed.
End Nodes.

(** ** All the trees *)
Section Pool.
Context (eng : N -> option (list N)) (pool : list pool_dev) (depth : N -> nat).
Hypothesis Hpool : Forall (fun p => thin_tree eng true (depth (pd_root p)) (pd_root p) (pd_maps p)) pool.
Definition roots : list N := map pd_root pool.
Definition unfolded : list N := flat_map (fun r => nodes_in eng (depth r) r) roots.

Lemma root_tree r : In r roots -> exists kvs, thin_tree eng true (depth r) r kvs.
Proof using Hpool. intros H. apply in_map_iff in H as (p & <- & Hp). rewrite Forall_forall in Hpool. eauto. Qed.
Lemma unfolded_perm : Permutation unfolded (roots ++ flat_map (kids eng) unfolded).
Proof using Hpool.
  unfold unfolded. assert (H : forall r, In r roots -> exists kvs, thin_tree eng true (depth r) r kvs) by (intros; apply root_tree; auto).
  revert H. generalize roots. intros l H. induction l as [|r l IH]; [constructor|]. cbn [flat_map]. rewrite flat_map_app.
  destruct (H r (or_introl eq_refl)) as (kvs & Hr). eapply perm_trans; [apply Permutation_app; [exact (nodes_perm eng _ _ _ _ Hr)|apply IH; intros; apply H; right; auto]|].
  cbn [app]. constructor. rewrite !app_assoc. apply Permutation_app_tail. apply Permutation_app_comm.
Qed.
Lemma unfolded_kids b c : In b unfolded -> In c (kids eng b) -> In c unfolded.
Proof using Hpool. intros Hb Hc. eapply Permutation_in; [symmetry; apply unfolded_perm|]. apply in_or_app. right. apply in_flat_map. eauto. Qed.
Lemma unfolded_roots b : In b roots -> In b unfolded.
Proof using Hpool. intros Hb. eapply Permutation_in; [symmetry; apply unfolded_perm|]. apply in_or_app. auto. Qed.
Lemma unfolded_tree b : In b unfolded -> exists r d kvs, thin_tree eng r d b kvs.
Proof using Hpool.
  intros H. apply in_flat_map in H as (r & Hr & H). destruct (root_tree r Hr) as (kvs & Ht). destruct (nodes_down eng _ _ _ _ Ht b H) as (r' & d' & k' & A & _). eauto.
Qed.
(** whatever contains the roots and the children of its nodes contains everything *)
Lemma unfolded_least (P : N -> Prop) : (forall r, In r roots -> P r) -> (forall b c, P b -> In b unfolded -> In c (kids eng b) -> P c) -> forall b, In b unfolded -> P b.
Proof using Hpool.
  intros Hr Hk b Hb. pose proof Hb as Hb0. apply in_flat_map in Hb as (r & Hr0 & Hb). destruct (root_tree r Hr0) as (kvs & Ht).
  assert (G : forall d b r kvs, thin_tree eng r d b kvs -> P b -> In b unfolded -> forall x, In x (nodes_in eng d b) -> P x).
  { clear - Hk Hpool. induction d as [|d IH]; intros b r kvs Ht HP HU x Hx; cbn [nodes_in] in Hx; (destruct Hx as [<-|Hx]; [auto|]); [destruct Hx|].
    apply in_flat_map in Hx as (c & Hc & Hx). destruct (thin_kids _ _ _ _ _ _ Ht Hc) as (s & Hs). eapply (IH c); eauto. eapply unfolded_kids; eauto. }
  eapply G; eauto. apply unfolded_roots; auto.
Qed.
Lemma uses_unfolded d : occ d (flat_map (targ eng) unfolded) = uses pool d.
Proof using Hpool.
  unfold unfolded, uses, roots. generalize Hpool. clear Hpool. intros HF. induction HF as [|p l Hp Hl IH]; [reflexivity|]. cbn [map flat_map]. rewrite flat_map_app, occ_app, IH, filter_app.
  rewrite (nodes_targ eng _ _ _ _ Hp). unfold nlen in *. rewrite app_length, Nat2N.inj_add. unfold refs_of.
  enough (A : occ d (map (fun kv => bt_block (snd kv)) (pd_maps p)) = N.of_nat (length (filter (fun kv => bt_block (snd kv) =? d) (pd_maps p)))) by lia. clear.
  induction (pd_maps p) as [|kv l IH]; [reflexivity|]. cbn [map occ filter]. rewrite IH. rewrite (N.eqb_sym d). destruct (bt_block (snd kv) =? d); cbn [length]; lia.
Qed.

(** ** How often a node is referred to *)
(** [E]: the distinct internal nodes; [L]: the distinct leaves *)
Context (E L : list N).
Hypothesis HE : NoDup E /\ incl E unfolded /\ forall b, In b unfolded -> kids eng b <> [] -> In b E.
Hypothesis HL : NoDup L /\ incl L unfolded /\ forall b, In b unfolded -> targ eng b <> [] -> In b L.
Definition links (b : N) : N := occ b (roots ++ flat_map (kids eng) E).
Definition ups (b : N) : N := occ b unfolded.

Lemma ups_eq b : ups b = occ b roots + occ b (flat_map (kids eng) unfolded).
Proof using Hpool. unfold ups. rewrite (RestoreFin_Proofs.occ_perm b _ _ unfolded_perm). apply occ_app. Qed.
Lemma links_ups b : links b <= ups b.
Proof using Hpool HE. rewrite ups_eq. unfold links. rewrite occ_app. destruct HE as (H1 & H2 & _). pose proof (occ_fm_sub (kids eng) b E unfolded H1 H2). lia. Qed.
Lemma links_pos b : In b unfolded -> 1 <= links b.
Proof using Hpool HE.
  intros H. assert (0 < ups b) by (apply occ_in; auto). unfold links. rewrite occ_app.
  destruct (N.eq_dec (occ b roots) 0) as [Z|]; [|lia].
  assert (Hk : 0 < occ b (flat_map (kids eng) unfolded)) by (rewrite ups_eq in *; lia). apply occ_in in Hk. apply in_flat_map in Hk as (p & Hp & Hk).
  assert (In p E) by (apply HE; auto; intros Z0; rewrite Z0 in Hk; destruct Hk). pose proof (occ_fm_in (kids eng) b E p H1) as H2. apply occ_in in Hk. lia.
Qed.
(** a root referred to once occurs once *)
Lemma root_once b : In b roots -> links b = 1 -> ups b = 1.
Proof using Hpool HE.
  intros Hb H. unfold links in H. rewrite occ_app in H. pose proof (proj2 (occ_in b roots) Hb). rewrite ups_eq.
  rewrite (occ_fm_zero (kids eng) b unfolded); [lia|]. intros x Hx. destruct (kids eng x) as [|z r] eqn:Ek; [reflexivity|]. rewrite <- Ek.
  assert (In x E) by (apply HE; auto; rewrite Ek; discriminate). pose proof (occ_fm_in (kids eng) b E x H1). lia.
Qed.
(** a child referred to once occurs as often as its parent *)
Lemma child_once p c : In p unfolded -> In c (kids eng p) -> links c = 1 -> ups c = ups p.
Proof using Hpool HE.
  intros Hp Hc H. assert (HpE : In p E) by (apply HE; auto; intros Z; rewrite Z in Hc; destruct Hc).
  unfold links in H. rewrite occ_app in H. pose proof (occ_fm_in (kids eng) c E p HpE) as H1. pose proof (proj2 (occ_in c _) Hc) as H2.
  rewrite ups_eq. replace (occ c roots) with 0 by lia. cbn [N.add]. destruct HE as (A & B & C). apply (occ_fm_once (kids eng) c p E unfolded); auto. lia.
Qed.
Lemma child_more p c : In c (kids eng p) -> ups p <= ups c.
Proof using Hpool HE.
  intros Hc. rewrite (ups_eq c). pose proof (occ_fm_times (kids eng) c p unfolded). apply occ_in in Hc. unfold ups. nia.
Qed.
(** everything below a node is used at least as often as the node occurs *)
Lemma below_used : forall d r b kvs, thin_tree eng r d b kvs -> forall kv, In kv kvs -> ups b <= uses pool (bt_block (snd kv)).
Proof using Hpool HE.
  induction d as [|d IH]; intros r b kvs H kv Hkv.
  - destruct H as (h & ks & vs & (Hn & _) & ->). rewrite <- uses_unfolded. pose proof (occ_fm_times (targ eng) (bt_block (snd kv)) b unfolded).
    assert (Hi : In (bt_block (snd kv)) (targ eng b)). { rewrite (proj2 (kids_leaf _ _ _ _ _ _ Hn)). destruct kv as [k v]. apply in_combine_r in Hkv. cbn. apply in_map. auto. }
    apply occ_in in Hi. unfold ups. nia.
  - destruct H as (h & ks & bs & subs & (Hn & _) & _ & Hc & ->). destruct (kids_internal _ _ _ _ _ _ Hn) as [Ek _]. apply children_F2 in Hc.
    assert (G : exists c s, In c bs /\ In kv s /\ thin_tree eng false d c s).
    { clear - Hc Hkv. induction Hc as [|x s bs subs Hx Hc IHc]; cbn [concat] in Hkv; [destruct Hkv|]. apply in_app_or in Hkv as [Hkv|Hkv]; [exists x, s; conj; auto; left; auto|].
      destruct (IHc Hkv) as (c & s' & A & B & C). exists c, s'. conj; auto. right; auto. }
    destruct G as (c & s & Hcb & Hs & Ht). rewrite <- Ek in Hcb. pose proof (child_more b c Hcb). pose proof (IH _ _ _ Ht kv Hs). lia.
Qed.
(** the leaves: a block referred to once from the distinct leaves is used as often as its leaf occurs *)
Definition dlinks (d : N) : N := occ d (flat_map (targ eng) L).
Lemma dlinks_uses d : dlinks d <= uses pool d.
Proof using Hpool HL. rewrite <- uses_unfolded. destruct HL as (A & B & _). apply occ_fm_sub; auto. Qed.
Lemma leaf_once b d : In b unfolded -> In d (targ eng b) -> dlinks d <= 1 -> uses pool d = ups b.
Proof using Hpool HL.
  intros Hb Hd H. rewrite <- uses_unfolded. destruct HL as (A & B & C). apply (occ_fm_once (targ eng) d b L unfolded); auto. apply C; auto. intros Z. rewrite Z in Hd. destruct Hd.
Qed.
End Pool.
