(** Trees made by the builder are trees a dump accepts; lists in order of their keys. *)
From Coq Require Import Permutation.
From Verif Require Import Base Csum_Model Codec_Model Codec_Spec SpaceMap_Model Builder_Model Builder_Spec Builder_Proofs BtreeRead_Proofs Walker_Model ThinOut_Model Restore_Model
  Repair_Model RestoreDoc_Spec Dump_Model Dump_Spec ThinCheck_Spec Dump_Proofs DumpDoc_Proofs.

Lemma holds_node_on {V} (c : codec V) (D : disk) eng r b (n : node V) : Builder_Spec.holds c D b n -> eng b = Some (D b) ->
  (r = false -> nh_max_entries (get_header n) / 3 <= nh_nr_entries (get_header n)) -> node_on c eng r b n.
Proof.
  intros (_ & _ & H) E Hr. specialize (H false r ltac:(auto)). exists (D b). unfold check_and_unpack_node in H. cbn [b_data b_loc] in H.
  destruct (metadata_block_type (D b)) eqn:Et; try discriminate H.
  destruct (unpack_node_raw c (D b) false r) as [m| |] eqn:Eu; cbn [bind] in H; try discriminate H.
  destruct (negb _); [discriminate H|]. injection H as ->. conj; auto.
Qed.

Lemma tree_mapping (D : disk) eng depth : forall r b kvs foot, tree bt_codec D r depth b kvs foot -> increasing (map fst kvs) ->
  (forall x, In x foot -> eng x = Some (D x)) -> mapping_tree eng r depth b kvs.
Proof.
  induction depth as [|dp IH]; intros r b kvs foot H Hi He; cbn [tree mapping_tree] in *.
  - destruct H as (h & ks & vs & Hh & _ & E & H1 & H2 & H3 & H4 & ->). exists h, ks, vs. split; auto. eapply holds_node_on; eauto.
    + apply He. left; auto.
    + intros Hr. specialize (H4 Hr). cbn [get_header]. rewrite H1, H2. clear - H4. dlia.
  - destruct H as (h & ch & subs & Hh & H1 & H2 & H3 & H4 & HF & -> & ->).
    exists h, (map fst ch), (map snd ch), (map fst subs). conj; auto.
    + eapply holds_node_on; eauto; [apply He; left; auto|]. intros Hr. specialize (H4 Hr). cbn [get_header]. rewrite H1, H2. clear - H4. dlia.
    + destruct ch; [unfold nlen in H3; cbn in H3; lia|discriminate].
    + assert (He' : forall x, In x (flat_map snd subs) -> eng x = Some (D x)) by (intros x Hx; apply He; right; rewrite <- flat_map_concat_map; exact Hx).
      clear H1 H2 H3 H4 Hh He. induction HF as [|kb sub ch subs (A & B & C) HF IHF]; cbn [map children_ok]; auto.
      cbn [map concat] in Hi. rewrite map_app in Hi. apply increasing_split in Hi as (I1 & I2 & I3). cbn [flat_map] in He'.
      specialize (IHF I2 ltac:(intros x Hx; apply He'; apply in_or_app; auto)). conj; auto.
      * eapply IH; [exact C|exact I1|]. intros x Hx. apply He'. apply in_or_app. auto.
      * intros k' Hk'. split.
        { rewrite B. destruct (fst sub) as [|[k v] s]; [destruct Hk'|]. cbn [first_key map fst] in *.
          apply increasing_strong in I1 as [I1 _]. destruct Hk' as [<-|Hk']; [lia|]. apply I1 in Hk'. lia. }
        { destruct HF as [|kb2 sub2 ch2 subs2 (A2 & B2 & C2) HF]; cbn [map]; auto. rewrite B2. apply I3; auto.
          cbn [map concat]. rewrite map_app. apply in_or_app. left. destruct (fst sub2) as [|[k v] s]; [congruence|]. left; auto. }
Qed.

Lemma sorted_perm {A} (f : A -> N) : forall l l' : list A, Permutation l l' -> increasing (map f l) -> increasing (map f l') -> l = l'.
Proof.
  induction l as [|x l IH]; intros l' HP H1 H2; [apply Permutation_nil in HP; auto|]. destruct l' as [|y l']; [symmetry in HP; apply Permutation_nil in HP; discriminate|].
  cbn [map] in H1, H2. apply increasing_strong in H1 as [A1 B1]. apply increasing_strong in H2 as [A2 B2].
  assert (x = y).
  { assert (Hx : In x (y :: l')) by (eapply Permutation_in; [exact HP|left; auto]). assert (Hy : In y (x :: l)) by (eapply Permutation_in; [symmetry; exact HP|left; auto]).
    destruct Hx as [->|Hx]; auto. destruct Hy as [->|Hy]; auto. apply (in_map f) in Hx, Hy. apply A2 in Hx. apply A1 in Hy. lia. }
  subst y. f_equal. apply IH; auto. eapply Permutation_cons_inv. exact HP.
Qed.
