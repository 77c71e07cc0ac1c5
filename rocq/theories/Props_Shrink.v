(** Property C28: thin_shrink's plan, and the mappings rewritten with it. *)
From Verif Require Import Base Codec_Model Builder_Spec BtreeRead_Proofs Utils_Proofs ThinOut_Model ThinOut_Proofs ThinOut_Spec Shrink_Model Shrink_Spec Shrink_Proofs.

Lemma moves_pairs plan b b' : plan_ok plan -> (moves plan b b' <-> In (b, b') (flat_map pairs plan)).
Proof.
  intros Hok. rewrite in_flat_map. split.
  - intros (s & e & t & A & B & ->). exists ((s, e), t). split; auto.
    pose proof (assoc_pairs s e t b B) as E. revert E. generalize (pairs ((s, e), t)). induction l as [|[k v] l IH]; cbn [assoc]; [discriminate|].
    destruct (N.eqb_spec b k) as [->|]; [intros [= ->]; left; auto|right; auto].
  - intros ([[s e] t] & A & B). assert (Hb : In b (cell (s, e))) by (apply (in_map fst) in B; rewrite pairs_fst in B; exact B).
    apply in_cell in Hb. cbn [fst snd] in Hb. exists s, e, t. conj; auto; try lia.
    assert (Hinc : increasing (map fst (pairs ((s, e), t)))) by (rewrite pairs_fst; apply range_increasing).
    pose proof (assoc_pairs s e t b Hb) as E. revert B E Hinc.
    enough (G : forall (l : list (N * N)) w, In (b, b') l -> assoc l b = Some w -> increasing (map fst l) -> b' = w) by apply G.
    clear. intros l w. induction l as [|[k v] l IH]; cbn [assoc map In]; [intros []|].
    intros [B|B] E Hi.
    + injection B as -> ->. rewrite N.eqb_refl in E. injection E as E. exact E.
    + apply increasing_strong in Hi as [H1 H2]. destruct (N.eqb_spec b k) as [->|Hne]; [|apply IH; auto].
      apply (in_map fst) in B. specialize (H1 _ B). cbn in H1. lia.
Qed.

Lemma combine_inj {A B} : forall (a : list A) (b : list B) x y v, NoDup b -> In (x, v) (combine a b) -> In (y, v) (combine a b) -> x = y.
Proof.
  induction a as [|p a IH]; intros [|q b] x y v Hn Hx Hy; cbn [combine] in *; try contradiction. inversion Hn as [|? ? N1 N2]; subst.
  destruct Hx as [Hx|Hx], Hy as [Hy|Hy].
  - congruence.
  - injection Hx as -> ->. apply in_combine_r in Hy. contradiction.
  - injection Hy as -> ->. apply in_combine_r in Hx. contradiction.
  - eapply IH; eauto.
Qed.
Lemma combine_has {A B} : forall (a : list A) (b : list B) x, (length a <= length b)%nat -> In x a -> exists y, In (x, y) (combine a b).
Proof.
  induction a as [|p a IH]; intros [|q b] x Hl Hx; cbn in *; try contradiction; try lia. destruct Hx as [->|Hx]; [eauto|].
  destruct (IH b x ltac:(lia) Hx) as (y & Hy). eauto.
Qed.
Lemma plan_is_ok plan above free : flat_map (fun p => cell (fst p)) plan = above -> increasing above -> solid (map fst plan) ->
  flat_map pairs plan = combine above free -> plan_ok plan.
Proof. intros H1 H2 H3 _. split; auto. rewrite <- cells_map, H1. exact H2. Qed.

(** For every document and every new size, in blocks: if a plan is made, it moves exactly
    the used blocks at or above the new end, each to a block below it that was not in use,
    no two to the same; a plan is refused exactly when there are too few such blocks. *)
Theorem C28_plan : forall nr es, runs_fit es ->
  match shrink_plan nr es with
  | Ok plan =>
      (forall b, (exists b', moves plan b b') <-> used_by es b /\ nr <= b) /\
      (forall b b', moves plan b b' -> b' < nr /\ ~ used_by es b') /\
      (forall b c x, moves plan b x -> moves plan c x -> b = c) /\
      (forall b x y, moves plan b x -> moves plan b y -> x = y) /\
      (forall A F, lists A (fun b => used_by es b /\ nr <= b) -> lists F (fun b => b < nr /\ ~ used_by es b) -> nlen A <= nlen F)
  | Err => forall A F, lists A (fun b => used_by es b /\ nr <= b) -> lists F (fun b => b < nr /\ ~ used_by es b) -> nlen F < nlen A
  | Panic => False
  end.
Proof.
  intros nr es Hfit. destruct (plan_spec nr es Hfit) as (above & free & I1 & I2 & HA & HF & H).
  assert (Hlen : forall A F, lists A (fun b => used_by es b /\ nr <= b) -> lists F (fun b => b < nr /\ ~ used_by es b) ->
    length A = length above /\ length F = length free).
  { intros A F [NA EA] [NF EF]. split; apply same_members_length; auto; try (apply increasing_NoDup; auto); intros x; [rewrite EA, HA|rewrite EF, HF]; reflexivity. }
  destruct (shrink_plan nr es) as [plan| |]; [|intros A F H1 H2; destruct (Hlen A F H1 H2); unfold nlen; lia|exact H].
  destruct H as (H1 & H2 & H3 & H4). pose proof (plan_is_ok plan above free H2 I1 H4 H1) as Hok.
  assert (Hm : forall b b', moves plan b b' <-> In (b, b') (combine above free)) by (intros; rewrite moves_pairs, H1 by auto; reflexivity).
  conj.
  - intros b. rewrite <- HA. split; [intros (x & Hx); apply Hm in Hx; eapply in_combine_l; eauto|].
    intros Hb. destruct (combine_has above free b H3 Hb) as (y & Hy). exists y. apply Hm. exact Hy.
  - intros b b' Hb. apply Hm in Hb. apply in_combine_r in Hb. apply HF in Hb. exact Hb.
  - intros b c x Hb Hc. apply Hm in Hb, Hc. eapply combine_inj; [apply increasing_NoDup; exact I2|exact Hb|exact Hc].
  - intros b x y Hx Hy. pose proof (proj1 (moves_reloc plan b x Hok) (or_introl Hx)). pose proof (proj1 (moves_reloc plan b y Hok) (or_introl Hy)). congruence.
  - intros A F HA' HF'. destruct (Hlen A F HA' HF'). unfold nlen. lia.
Qed.

(** With a plan, the document is rewritten event by event: everything but the mapping runs
    stays, and a run becomes runs for the same thin blocks in the same order, with the same
    time, each data block replaced by where it went, all below the new end. *)
Theorem C28_rewrite : forall nr es plan, runs_fit es -> shrink_plan nr es = Ok plan ->
  exists f, remap_events nr plan es = flat_map f es /\
  forall e, In e es -> match e with
    | EvMap m => exists ms, f e = map EvMap ms /\ Forall2 (relocated plan) (expand m) (flat_map expand ms) /\
                   Forall (fun kv => bt_block (snd kv) < nr) (flat_map expand ms)
    | _ => f e = [e]
    end.
Proof.
  intros nr es plan Hfit E. destruct (plan_spec nr es Hfit) as (above & free & I1 & I2 & HA & HF & H).
  rewrite E in H. destruct H as (H1 & H2 & H3 & H4). pose proof (plan_is_ok plan above free H2 I1 H4 H1) as Hok.
  exists (fun e => match e with EvMap m => map EvMap (remap_map nr plan m) | _ => [e] end). split; [reflexivity|].
  intros e He. destruct e as [| | | | | |m| |]; auto. exists (remap_map nr plan m). split; auto.
  destruct (Hfit m He) as (F1 & F2 & F3).
  assert (Hge : forall x, In x (cells (map fst plan)) -> nr <= x) by (intros x Hx; rewrite <- cells_map, H2 in Hx; apply HA in Hx; tauto).
  rewrite (remap_map_spec nr plan m Hok Hge F1 F2 F3).
  assert (Hused : forall kv, In kv (expand m) -> used_by es (bt_block (snd kv))).
  { intros kv Hkv. unfold expand in Hkv. apply in_map_iff in Hkv as (i & <- & Hi). apply in_range in Hi. exists m. split; auto. cbn. lia. }
  split.
  - clear - Hok. induction (expand m) as [|kv l IH]; cbn [map]; constructor; auto. unfold relocated, moved. cbn [fst snd bt_block bt_time].
    conj; auto. apply moves_reloc; auto.
  - apply Forall_forall. intros kv Hkv. apply in_map_iff in Hkv as (kv0 & <- & Hkv). cbn [moved snd bt_block].
    specialize (Hused _ Hkv). destruct (N.lt_ge_cases (bt_block (snd kv0)) nr) as [Hlt|Hge'].
    + rewrite reloc_out; auto. intros Hc. apply Hge in Hc. lia.
    + destruct (combine_has above free (bt_block (snd kv0)) H3) as (y & Hy); [apply HA; auto|].
      rewrite <- H1, <- moves_pairs in Hy by auto. pose proof (proj1 (moves_reloc plan _ y Hok) (or_introl Hy)) as <-.
      apply moves_pairs in Hy; auto. rewrite H1 in Hy. apply in_combine_r in Hy. apply HF in Hy. tauto.
Qed.

(** A device of 10 blocks shrunk to 6: blocks 1, 2, 6, 7 and 9 are in use; 6 and 7 move to 0
    and 3, 9 to 4. *)
Definition ex_shrink : list event := [EvMap (mkmap 0 1 0 2); EvMap (mkmap 5 6 1 2); EvMap (mkmap 9 9 2 1)].
Example C28_example : runs_fit ex_shrink /\ shrink_plan 6 ex_shrink = Ok [((6, 7), 0); ((7, 8), 3); ((9, 10), 4)] /\
  remap_events 6 [((6, 7), 0); ((7, 8), 3); ((9, 10), 4)] ex_shrink =
    [EvMap (mkmap 0 1 0 2); EvMap (mkmap 5 0 1 1); EvMap (mkmap 6 3 1 1); EvMap (mkmap 9 4 2 1)] /\
  shrink_plan 4 ex_shrink = Err.
Proof.
  split; [|conj; vm_compute; reflexivity]. intros m Hm. unfold ex_shrink in Hm. cbn in Hm.
  repeat destruct Hm as [Hm|Hm]; try contradiction; injection Hm as <-; cbn; lia.
Qed.
(** The superblock is passed on unchanged, so the rewritten metadata still says that the data
    device has its old size. *)
Theorem C28_size_not_updated : forall nr plan sb es, remap_events nr plan (EvSbB sb :: es) = EvSbB sb :: remap_events nr plan es.
Proof. reflexivity. Qed.
(** A run of no blocks ends the tool with a panic. *)
Example C28_empty_run : shrink_plan 6 [EvMap (mkmap 0 1 0 0)] = Panic.
Proof. reflexivity. Qed.

Print Assumptions C28_plan.
Print Assumptions C28_rewrite.
Print Assumptions C28_size_not_updated.
