(** C43: what thin_check knows of a mapping tree it accepts. *)
From Coq Require Import Permutation.
From Verif Require Import Base Csum_Model Codec_Model Utils_Model Walker_Model SpaceMap_Model ThinCheck_Model ThinCheck_Spec IoMany_Proofs ThinSum_Proofs ThinRead_Proofs.

Lemma holds_unique leaf inner : forall b k1, holds leaf inner b k1 -> forall k2, holds leaf inner b k2 -> k1 = k2.
Proof.
  fix IH 3. intros b k1 [b0 ks H|b0 ks cs kss H1 H2 HF|b0 H1 H2] k2 H'; inversion H' as [? ? E1|? ks' cs' kss' E1 E2 HF'|? E1 E2]; subst; try congruence.
  assert (ks' = ks /\ cs' = cs) as [-> ->] by (split; congruence). f_equal. clear - IH HF HF'. revert kss' HF'.
  induction HF as [|c kk cs kss Hc HF IHF]; intros kss' HF'; inversion HF'; subst; [auto|]. f_equal; auto. exact (IH _ _ Hc _ H1).
Qed.
Lemma sound_holds leaf inner f : forall b keys, sound leaf inner f b keys -> holds leaf inner b keys.
Proof.
  fix IH 3. intros b keys [b0 ks H _|b0 ks cs kss H1 H2 _ HF _ _ _]; [constructor; auto|]. eapply holds_inner; eauto.
  clear - IH HF. induction HF; constructor; auto.
Qed.

(** The leaves that were read are leaves. *)
Section Part.
Context (leaf leaf' : N -> option (list N)) (inner : N -> option (list N * list N)).
Hypothesis Hsub : forall b ks, leaf' b = Some ks -> leaf b = Some ks.
Hypothesis Hdisj : forall b ks, leaf b = Some ks -> inner b = None.
Lemma part_holds : forall b keys, holds leaf inner b keys -> exists keys', holds leaf' inner b keys' /\ nlen keys' <= nlen keys.
Proof using Hsub Hdisj.
  fix IH 3. intros b keys [b0 ks H|b0 ks cs kss H1 H2 HF|b0 H1 H2].
  - destruct (leaf' b0) as [ks'|] eqn:E.
    + exists ks'. split; [constructor; auto|]. apply Hsub in E. assert (ks' = ks) by congruence. subst. lia.
    + exists []. split; [apply holds_none; [auto|]; exact (Hdisj _ _ H)|]. unfold nlen. cbn [length]. lia.
  - assert (exists kss', Forall2 (holds leaf' inner) cs kss' /\ nlen (concat kss') <= nlen (concat kss)) as (kss' & A & B).
    { clear - IH HF. induction HF as [|c kk cs kss Hc HF (kss' & A & B)]; [exists []; split; [constructor|lia]|].
      destruct (IH c kk Hc) as (kk' & C & D). exists (kk' :: kss'). split; [constructor; auto|]. unfold nlen in *. cbn [concat]. rewrite !app_length. lia. }
    exists (concat kss'). split; [|exact B]. eapply holds_inner; eauto. destruct (leaf' b0) as [x|] eqn:E; [|auto]. apply Hsub in E. congruence.
  - exists []. split; [|lia]. apply holds_none; auto. destruct (leaf' b0) as [x|] eqn:E; [|auto]. apply Hsub in E. congruence.
Qed.
Lemma part_node f b keys : sound leaf' inner f b keys -> leaf b = leaf' b.
Proof using Hsub Hdisj.
  intros [b0 ks H _|b0 ks cs kss H1 H2 _ _ _ _ _]; [rewrite H; apply Hsub; auto|]. rewrite H1. destruct (leaf b0) as [x|] eqn:E; [|auto].
  apply Hdisj in E. congruence.
Qed.
Lemma part_sound f : forall b keys, sound leaf' inner f b keys -> sound leaf inner f b keys.
Proof using Hsub Hdisj.
  fix IH 3. intros b keys H0. destruct H0 as [b0 ks H Hi|b0 ks cs kss H1 H2 Hinc HF Hinc2 Hp Hf]; [apply sound_leaf; auto|].
  assert (E0 : leaf b0 = None) by (destruct (leaf b0) as [x|] eqn:E; [apply Hdisj in E; congruence|auto]).
  assert (HE : forall c, In c cs -> leaf c = leaf' c).
  { intros c Hc. clear - Hsub Hdisj HF Hc. induction HF as [|c0 kk cs kss S1 HF IHF]; [destruct Hc|]. destruct Hc as [<-|Hc]; [exact (part_node _ _ _ S1)|auto]. }
  eapply sound_inner; eauto.
  - clear - IH HF. induction HF; constructor; auto.
  - clear - Hp HE. revert ks kss Hp. induction cs as [|c cs IHc]; intros [|k ks] [|kk kss] Hp; cbn [placed] in *; auto.
    rewrite (HE c (or_introl eq_refl)). destruct Hp as (P1 & P2 & P3). conj; auto. apply IHc; auto. intros x Hx. apply HE. right. auto.
  - intros Hfl c Hc. unfold entries. rewrite (HE c Hc). apply Hf; auto.
Qed.
Lemma sound_under f : forall root keys, sound leaf' inner f root keys -> forall b, under inner root b -> leaf b <> None -> leaf' b <> None.
Proof using Hsub Hdisj.
  fix IH 3. intros root keys H0 b Hu. destruct H0 as [b0 ks H Hi|b0 ks cs kss H1 H2 Hinc HF Hinc2 Hp Hf].
  - destruct Hu as [b0|b0 ks' cs' c b E]; [congruence|]. apply Hsub, Hdisj in H. congruence.
  - destruct Hu as [b0|b0 ks' cs' c b E Hc Hu].
    + intros Hl. destruct (leaf b0) eqn:E; [|congruence]. apply Hdisj in E. congruence.
    + assert (ks' = ks /\ cs' = cs) as [-> ->] by (split; congruence). clear - IH HF Hc Hu.
      induction HF as [|c0 kk cs kss S1 HF IHF]; [destruct Hc|]. destruct Hc as [<-|Hc]; [exact (IH _ _ S1 b Hu)|auto].
Qed.
End Part.

(** What the check of the mappings has done when it succeeds: it has read a set of distinct
    leaves of the trees, counted their data blocks, and ... *)
Lemma accepted nr eng inf fuel order roots msm dsm msm' dsm' ss :
  device_of nr eng -> small_pointers eng inf -> (forall l, Permutation (order l) l) ->
  check_mappings_bottom_level nr eng inf fuel order roots msm dsm = (msm', dsm', Ok ss) ->
  exists L, NoDup L /\ (forall b, In b L -> b < nr /\ exists r, In r roots /\ under (inner_on eng inf) (r mod W32) b) /\
    dsm' = fold_left (fun s v => fst (wsm_inc s v 1)) (flat_map (tgt eng inf) (order L)) dsm /\
    forall id root details keys, mapped_ok ss (id, (root, details)) = true ->
      holds (leaf_on eng inf) (inner_on eng inf) (root mod W32) keys ->
      dd_mapped details <= nlen keys /\
      (dd_mapped details = nlen keys -> sound (leaf_on eng inf) (inner_on eng inf) (negb inf) (root mod W32) keys /\
         forall b, under (inner_on eng inf) (root mod W32) b -> leaf_on eng inf b <> None -> In b L).
Proof.
  intros Hd Hp Ho H.
  assert (Pd : forall b ks cs c, (exists r, In r roots /\ under (inner_on eng inf) (r mod W32) b) -> inner_on eng inf b = Some (ks, cs) -> In c cs ->
    exists r, In r roots /\ under (inner_on eng inf) (r mod W32) c).
  { intros b ks cs c (r & Hr & Hu) E Hc. exists r. split; [auto|]. clear - Hu E Hc. induction Hu as [b|b ks' cs' c' b' E' Hc' Hu IH]; [|econstructor; eauto].
    eapply under_child; eauto. constructor. }
  destruct (bottom_level nr eng inf Hd Hp _ Pd fuel order roots Ho) with (2 := H) as (L & HN & HL & HI & HD).
  { intros r Hr. exists r. split; [auto|constructor]. }
  exists L. conj; auto. intros id root details keys Hm Hk.
  assert (Hsub : forall b ks, leaf_in eng inf L b = Some ks -> leaf_on eng inf b = Some ks) by (intros b ks; unfold leaf_in; destruct (has L b); congruence).
  destruct (part_holds _ _ _ Hsub (disjoint_nodes eng inf) _ _ Hk) as (keys' & Hk' & Hle).
  unfold mapped_ok in Hm. destruct (ss (root mod W32)) as [s|] eqn:Es; [|discriminate].
  apply Bool.andb_true_iff in Hm. destruct Hm as [H1 H2]. apply N.eqb_eq in H1, H2. rewrite <- H2. clear H2.
  assert (S1 : s_nr s <= nlen keys' /\ (s_nr s = nlen keys' -> sound (leaf_in eng inf L) (inner_on eng inf) (negb inf) (root mod W32) keys')).
  { destruct (HI (root mod W32) s Es) as [(ks & El & ->)|[_ J]].
    - assert (Hlf : forall b ks, leaf_in eng inf L b = Some ks -> increasing ks /\ nlen ks < 256) by (intros b0 ks0 E0; apply (leaf_facts nr eng inf Hd b0), Hsub, E0).
      destruct (leaf_justified inf (leaf_in eng inf L) (inner_on eng inf) Hlf (root mod W32) ks El keys' Hk') as (-> & S1 & _ & S2 & _).
      rewrite S2. split; [lia|auto].
    - destruct (J keys' Hk') as [J1 J2]. split; [exact J1|]. intros E. apply (J2 H1 E). }
  destruct S1 as [S1 S2]. split; [lia|]. intros E. specialize (S2 ltac:(lia)). split.
  - pose proof (part_sound _ _ _ Hsub (disjoint_nodes eng inf) _ _ _ S2) as S3.
    pose proof (holds_unique _ _ _ _ (sound_holds _ _ _ _ _ S3) _ Hk) as E'. subst keys'. exact S3.
  - intros b Hu Hl. pose proof (sound_under _ _ _ Hsub (disjoint_nodes eng inf) _ _ _ S2 b Hu Hl) as H3. unfold leaf_in in H3.
    destruct (has L b) eqn:Eh; [apply has_in, Eh|congruence].
Qed.

(** [mapped_ok] is the verdict on one device: its tree has no errors and as many mappings as
    the device details say.  Whatever is on the device, and in whatever order the threads
    deliver the leaves, the mappings of an accepted device are at least that many; when they
    are exactly that many, the tree is sound: every block of it is a node, the keys strictly
    increase from the first leaf to the last, they lie where the keys of the internal nodes
    say, and, unless non-fatal errors are ignored, no node but the root has fewer than 84
    entries.  Missing from the full statement: the two gaps below. *)
Theorem C43_accepted_partial : forall nr eng inf fuel order roots msm dsm msm' dsm' ss id root details keys,
  device_of nr eng -> small_pointers eng inf -> root < 4294967296 -> (forall l, Permutation (order l) l) ->
  check_mappings_bottom_level nr eng inf fuel order roots msm dsm = (msm', dsm', Ok ss) ->
  mapped_ok ss (id, (root, details)) = true ->
  holds (leaf_on eng inf) (inner_on eng inf) root keys ->
  dd_mapped details <= nlen keys /\
  (dd_mapped details = nlen keys -> sound (leaf_on eng inf) (inner_on eng inf) (negb inf) root keys).
Proof.
  intros nr eng inf fuel order roots msm dsm msm' dsm' ss id root details keys Hd Hp Hr Ho H Hm Hk.
  destruct (accepted nr eng inf fuel order roots msm dsm msm' dsm' ss Hd Hp Ho H) as (L & _ & _ & _ & HA).
  specialize (HA id root details keys Hm). rewrite N.mod_small in HA by exact Hr. specialize (HA Hk). destruct HA as [A B]. split; [exact A|].
  intros E. apply (B E).
Qed.

(** In a searchable tree exactly the keys of the tree are found by following the keys. *)
Theorem C43_searchable : forall leaf inner root keys k, searchable leaf inner root keys -> (In k keys <-> finds leaf inner root k).
Proof.
  intros leaf inner. fix IH 4. intros root keys k H. destruct H as [b ks Hb|b ks cs kss Hb Hi Hinc HF Hs].
  - split; [intros Hk; econstructor; eauto|]. intros Hf. inversion Hf; subst; congruence.
  - assert (IHs : Forall2 (fun c kk => In k kk <-> finds leaf inner c k) cs kss).
    { clear - IH HF. induction HF; constructor; auto. }
    assert (P : forall ks cs kss, increasing ks -> separated ks kss -> Forall2 (fun c kk => In k kk <-> finds leaf inner c k) cs kss ->
      (In k (concat kss) <-> exists c, pick ks cs k = Some c /\ finds leaf inner c k)).
    { clear. induction ks as [|k0 ks IH]; intros cs kss Hinc Hs HF; destruct kss as [|kk kss]; cbn [separated] in Hs; try (exfalso; exact Hs).
      - inversion HF; subst. cbn [concat pick]. split; [intros []|]. intros (c & E & _). discriminate.
      - inversion HF as [|c ? cs' ? Hc HF']; subst cs. subst. destruct Hs as [Hkk Hs]. cbn [concat pick].
        assert (Hinc' : increasing ks) by (apply (increasing_app [k0] ks) in Hinc; apply Hinc).
        specialize (IH cs' kss Hinc' Hs HF'). rewrite in_app_iff, IH, Hc. clear IH.
        assert (Hlt : forall c', pick ks cs' k = Some c' -> exists k1, hd_error ks = Some k1 /\ k1 <= k).
        { intros c' E. destruct ks as [|k1 ks], cs'; cbn [pick] in E; try discriminate. exists k1. split; [auto|]. destruct (N.leb_spec k1 k); [auto|discriminate]. }
        destruct (N.leb_spec k0 k) as [L|L].
        + destruct (pick ks cs' k) as [c'|] eqn:Ep.
          * destruct (Hlt c' eq_refl) as (k1 & E1 & L1). split.
            -- intros [Hf|(c2 & E2 & Hf)]; [|exists c'; split; [auto|]; congruence].
               apply Hc in Hf. apply Hkk in Hf. destruct ks; [discriminate|]. cbn [hd_error] in E1. assert (n = k1) by congruence. subst. lia.
            -- intros (c2 & E2 & Hf). right. exists c2. auto.
          * split.
            -- intros [Hf|(c2 & E2 & _)]; [|discriminate]. exists c. auto.
            -- intros (c2 & E2 & Hf). left. congruence.
        + split.
          * intros [Hf|(c2 & E2 & Hf)].
            -- apply Hc in Hf. apply Hkk in Hf. lia.
            -- destruct (Hlt c2 E2) as (k1 & E1 & L1). destruct ks as [|? ks]; [discriminate|]. cbn [hd_error] in E1. assert (n = k1) by congruence. subst.
               pose proof (increasing_head_lt _ _ _ Hinc (or_introl eq_refl : In k1 (k1 :: ks))). lia.
          * intros (c2 & E2 & _). discriminate. }
    rewrite (P ks cs kss Hinc Hs IHs). split.
    + intros (c & E & Hf). eapply finds_inner; eauto.
    + intros Hf. inversion Hf as [|? ks' cs' c ? _ E1 E2 E3]; subst; [congruence|]. assert (ks' = ks /\ cs' = cs) as [-> ->] by (split; congruence). eauto.
Qed.

(** A sound tree without the two gaps is searchable. *)
Theorem C43_gaps : forall leaf inner filled root keys, sound leaf inner filled root keys -> aligned leaf inner root ->
  searchable leaf inner root keys.
Proof.
  intros leaf inner filled.
  assert (M : forall b keys, sound leaf inner filled b keys -> aligned leaf inner b -> searchable leaf inner b keys /\
     (leaf b = None -> forall ks cs, inner b = Some (ks, cs) -> forall x, In x keys -> hd 0 ks <= x)).
  { fix IH 3. intros b keys [b0 ks H _|b0 ks cs kss H1 H2 Hinc HF Hinc2 Hp _] HA.
    - split; [constructor; auto|]. intros; congruence.
    - inversion HA as [|? ks' cs' _ E HK Hap Hal]; subst; [congruence|]. assert (ks' = ks /\ cs' = cs) as [-> ->] by (split; congruence). clear E.
      assert (HH : Forall2 (holds leaf inner) cs kss). { clear - HF. induction HF; constructor; auto. eapply sound_holds; eauto. }
      specialize (Hap kss HH).
      assert (HF2 : Forall2 (fun c kk => searchable leaf inner c kk /\
         (leaf c = None -> forall ks cs, inner c = Some (ks, cs) -> forall x, In x kk -> hd 0 ks <= x)) cs kss).
      { clear - IH HF Hal. induction HF; constructor; auto. - apply IH; [auto|]. apply Hal. left. auto. - apply IHHF. intros c Hc. apply Hal. right. auto. }
      assert (S : separated ks kss).
      { clear - HF2 HK Hp Hap HF. revert ks Hp HK Hap. induction HF2 as [|c kk cs kss [_ Hlow] HF2 IH]; intros [|k ks] Hp HK Hap; cbn [placed] in Hp; try (exfalso; exact Hp).
        - exact I.
        - destruct Hp as (P1 & P2 & P3). inversion HK as [|? ? ? ? K1 K2]; subst. cbn [apart] in Hap. destruct Hap as [A1 A2].
          inversion HF as [|? ? ? ? Hsc HF']; subst. cbn [separated]. split; [|apply (IH HF' ks P3 K2 A2)]. intros x Hx. split.
          + destruct (leaf c) as [lk|] eqn:El; [apply P2; [discriminate|auto]|].
            unfold first_key_ok in K1. rewrite El in K1. inversion Hsc as [|? ks1 cs1 kss1 _ E1 _ _ _ Hpl _]; subst; [congruence|]. rewrite E1 in K1.
            pose proof (Hlow eq_refl ks1 cs1 E1 x Hx) as L. destruct ks1 as [|k' ks1]; [|cbn [hd] in L; lia].
            exfalso. destruct cs1, kss1; cbn [placed] in Hpl; try exact Hpl. destruct Hx.
          + specialize (P1 x Hx). destruct ks as [|k' ks]; [auto|]. assert (x <> k') by (intros ->; auto). lia. }
      split; [eapply searchable_inner; eauto; clear - HF2; induction HF2; constructor; tauto|].
      intros _ ks' cs' E x Hx. assert (ks' = ks) by congruence. subst ks'. clear - S Hinc Hx. revert kss S Hx.
      induction ks as [|k ks IHk]; intros [|kk kss] S Hx; cbn [separated] in S; try (exfalso; exact S); [destruct Hx|].
      destruct S as [S1 S2]. cbn [hd]. cbn [concat] in Hx. apply in_app_iff in Hx. destruct Hx as [Hx|Hx]; [apply S1; auto|].
      assert (Hinc' : increasing ks) by (apply (increasing_app [k] ks) in Hinc; apply Hinc).
      specialize (IHk Hinc' kss S2 Hx). destruct ks as [|k1 ks]; [destruct kss; [destruct Hx|destruct S2]|].
      pose proof (increasing_head_lt _ _ _ Hinc (or_introl eq_refl : In k1 (k1 :: ks))). cbn [hd] in IHk. lia. }
  intros root keys H HA. apply (M root keys H HA).
Qed.
