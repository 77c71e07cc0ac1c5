(** Writing the space map of the metadata device, which lives on that device. *)
From Coq Require Import Permutation.
From Verif Require Import Base Csum_Model Csum_Proofs Codec_Model Codec_Spec Codec_Proofs NodeCodec_Proofs SbCodec_Proofs
  SpaceMap_Model SpaceMap_Spec SpaceMap_Proofs IoMany_Proofs Utils_Proofs Batcher_Model Batcher_Proofs
  Builder_Model Builder_Spec Builder_Proofs NodeBuilder_Proofs BtreeBuild_Proofs Array_Proofs SmWrite_Model SmWrite_Spec SmWrite_Proofs SmAlloc_Proofs.
Arguments write_checksum : simpl never.

(** ** The set of allocated blocks *)
Lemma insert_block_in b l x : In x (insert_block b l) <-> x = b \/ In x l.
Proof.
  induction l as [|y r IH]; cbn [insert_block].
  - cbn. intuition.
  - destruct (N.ltb_spec b y); [cbn [In]; intuition|]. destruct (N.eqb_spec b y) as [->|]; cbn [In]; [intuition|]. rewrite IH. intuition.
Qed.
Lemma insert_block_inc b l : increasing l -> increasing (insert_block b l).
Proof.
  induction l as [|y r IH]; intros H; cbn [insert_block]; [cbn; auto|].
  destruct (N.ltb_spec b y).
  - apply increasing_strong. split; auto. intros z [<-|Hz]; auto. apply increasing_strong in H as [H _]. apply H in Hz. lia.
  - destruct (N.eqb_spec b y) as [->|]; auto. apply increasing_strong in H as [H1 H2]. apply increasing_strong. split; auto.
    intros z Hz. apply insert_block_in in Hz as [->|Hz]; [lia|auto].
Qed.
Lemma sorted_in l x : In x (sorted_blocks l) <-> In x l.
Proof. induction l as [|y r IH]; cbn [sorted_blocks fold_right]; [tauto|]. fold (sorted_blocks r). rewrite insert_block_in, IH. cbn. intuition. Qed.
Lemma sorted_inc l : increasing (sorted_blocks l).
Proof. induction l as [|y r IH]; cbn [sorted_blocks fold_right]; [cbn; auto|]. apply insert_block_inc. auto. Qed.
Lemma increasing_unique l : forall m, increasing l -> increasing m -> (forall x, In x l <-> In x m) -> l = m.
Proof.
  induction l as [|a l IH]; intros [|b m] Hl Hm H; auto.
  - destruct (proj2 (H b) (or_introl eq_refl)).
  - destruct (proj1 (H a) (or_introl eq_refl)).
  - apply increasing_strong in Hl as [L1 L2]. apply increasing_strong in Hm as [M1 M2].
    assert (a = b) as ->.
    { destruct (proj1 (H a) (or_introl eq_refl)) as [->|Ha]; auto. destruct (proj2 (H b) (or_introl eq_refl)) as [->|Hb]; auto.
      apply M1 in Ha. apply L1 in Hb. lia. }
    f_equal. apply IH; auto. intros x. split; intros Hx.
    + destruct (proj1 (H x) (or_intror Hx)) as [->|]; auto. apply L1 in Hx. lia.
    + destruct (proj2 (H x) (or_intror Hx)) as [->|]; auto. apply M1 in Hx. lia.
Qed.
Definition in_ranges (rs : list (N * N)) (x : N) : Prop := exists r, In r rs /\ fst r <= x < snd r.
Lemma merge_spec l : increasing l ->
  flat_map (fun r => range (fst r) (snd r)) (merge_blocks l) = l /\ Forall (fun r => fst r < snd r) (merge_blocks l).
Proof.
  induction l as [|b r IH]; intros H; cbn [merge_blocks]; auto. apply increasing_strong in H as [H1 H2]. destruct (IH H2) as [A B].
  destruct (merge_blocks r) as [|[s e] rs].
  - cbn in A. subst r. cbn [flat_map fst snd]. rewrite range_cons, range_nil by lia. split; auto. constructor; auto. cbn; lia.
  - cbn [flat_map fst snd] in *. inversion B; subst. cbn [fst snd] in *. destruct (N.eqb_spec (b + 1) s) as [<-|].
    + cbn [flat_map fst snd]. split; [|constructor; auto; cbn; lia].
      rewrite (range_cons b) by lia. reflexivity.
    + cbn [flat_map fst snd]. split; [|constructor; [cbn; lia|auto]].
      rewrite (range_cons b) by lia. rewrite (range_nil (b + 1) (b + 1)) by lia. auto.
Qed.
Lemma alloc_ranges_in l x : in_ranges (alloc_ranges l) x <-> In x l.
Proof.
  destruct (merge_spec _ (sorted_inc l)) as [A B]. rewrite <- (sorted_in l x), <- A. unfold in_ranges. rewrite in_flat_map.
  split; intros (r & H1 & H2); exists r; split; auto; apply in_range; auto; apply in_range in H2; auto.
Qed.
(** Disjoint ranges in order. *)
Fixpoint apart (lo : N) (rs : list (N * N)) : Prop :=
  match rs with [] => True | (s, e) :: r => lo <= s /\ s < e /\ apart e r end.
Lemma merge_apart l : increasing l -> apart (match l with b :: _ => b | [] => 0 end) (merge_blocks l).
Proof.
  induction l as [|b r IH]; intros H; cbn [merge_blocks]; [cbn; auto|]. pose proof H as H'. apply increasing_strong in H as [H1 H2].
  specialize (IH H2). destruct r as [|b2 r].
  - cbn. lia.
  - assert (b < b2) by (apply H1; cbn; auto).
    destruct (merge_blocks (b2 :: r)) as [|[s e] rs]; [cbn; lia|]. cbn [apart] in IH.
    destruct (N.eqb_spec (b + 1) s); cbn [apart]; conj; try lia; tauto.
Qed.

Section SM.
Variables n max : N.
Hypothesis Hn : n < 2 ^ 64.
Hypothesis Hmax32 : max < 2 ^ 32.

Lemma wp_al {A} (m : st wb A) w Q E : al n max m -> sm_inv n max (wb_sm w) -> wp m w Q E ->
  wp m w (fun w' a => Q w' a /\ AL n max w w') E.
Proof. intros Ha Hs Hw. unfold wp, al in *. specialize (Ha w). destruct (m w) as [w' [a| |]]; auto. split; auto. eapply Ha; eauto. Qed.

Lemma env_si w : env n max w -> sm_inv n max (wb_sm w).
Proof. intros []. apply e_inv. Qed.

Lemma OB_VO w0 l cont w b : OB n max w0 l cont w b -> VO u32_codec b.
Proof.
  intros (w1 & [HC Hlen Hsh Hla Hv] & _). unfold VO. conj; auto.
  - destruct Hsh as [Hsh|(? & _ & _ & ?)]; [exact Hsh|discriminate].
  - destruct (Hv eq_refl) as [H _]. auto.
Qed.
Lemma OB_cnt w0 l cont w b x : OB n max w0 l cont w b ->
  (0 < cnt w0 x -> cnt w x = cnt w0 x) /\ (cnt w0 x = 0 -> cnt w x <= 1).
Proof.
  intros (w1 & HI & H1 & _ & _ & H4 & H5 & _).
  pose proof (v_core _ _ _ _ _ _ _ _ _ _ _ _ _ HI) as HC.
  rewrite (c_counts _ _ _ _ _ _ _ _ _ _ _ _ HC), H1.
  pose proof (c_own _ _ _ _ _ _ _ _ _ _ _ _ HC) as Ho. unfold origin in Ho. rewrite Forall_forall in Ho.
  assert (Hnode : In x (map su_block (nb_nodes b)) -> cnt w1 x = 0 /\ occ x (map su_block (nb_nodes b)) = 1).
  { intros Hx. apply in_map_iff in Hx as (s & <- & Hs). specialize (Ho s Hs). destruct (own false s); [auto|destruct Ho as [[] _]]. }
  assert (Hl : occ x l <= 1).
  { clear - H5. induction H5 as [|y l Hy Hn IH]; cbn [occ]; [lia|]. destruct (N.eqb_spec x y) as [->|]; [rewrite occ_not_in by auto; lia|lia]. }
  destruct (in_dec N.eq_dec x (map su_block (nb_nodes b))) as [Hi|Hi].
  - destruct (Hnode Hi) as [A B]. rewrite B. rewrite H1 in A. split; lia.
  - rewrite (occ_not_in x (map su_block _)) by auto. destruct (in_dec N.eq_dec x l) as [Hi2|Hi2].
    + destruct (H4 x Hi2). split; lia.
    + rewrite (occ_not_in x l) by auto. split; lia.
Qed.

Lemma push_al w0 l cont w b k v : OB n max w0 l cont w b -> k < 2 ^ 64 -> v < 2 ^ 32 ->
  (forall k', In k' (map fst cont) -> k' < k) ->
  wp (push_overflow k v) (w, b)
     (fun s _ => OB n max w0 l (cont ++ [(k, v)]) (fst s) (snd s) /\ kept w0 l w (fst s) /\ AL n max w (fst s))
     (fun s => exhausted n max (fst s)).
Proof.
  intros HO Hk Hv Hlt. pose proof (OB_push n max Hn w0 l cont w b k v HO Hk Hv Hlt) as Hw.
  unfold wp in *. destruct (push_overflow k v (w, b)) as [[w' b'] [u| |]] eqn:E; auto. destruct Hw as [A B]. conj; auto.
  apply (al_push n max u32_codec (leaf_io N) false noop_inc) in E; [apply E|rewrite m_u32; lia| |].
  - apply env_si. eapply OB_env; eauto.
  - eapply OB_VO; eauto.
Qed.
Lemma complete_al w0 l cont w b : OB n max w0 l cont w b ->
  wp complete_overflow (w, b)
     (fun s root => (exists depth foot, grew n max w0 (fst s) (l ++ foot) /\ kept w0 l w (fst s) /\
        tree u32_codec (wb_view (fst s)) true depth root cont foot /\ root < n) /\ AL n max w (fst s))
     (fun s => exhausted n max (fst s)).
Proof.
  intros HO. pose proof (OB_complete n max Hn w0 l cont w b HO) as Hw.
  unfold wp in *. destruct (complete_overflow (w, b)) as [[w' b'] [u| |]] eqn:E; auto. split; [exact Hw|]. clear Hw.
  unfold complete_overflow in E. apply bind_inv in E as ([w1 b1] & ns & E1 & E).
  apply (al_complete n max u32_codec (leaf_io N) false noop_inc) in E1; [|rewrite m_u32; lia|apply env_si; eapply OB_env; eauto|eapply OB_VO; eauto].
  unfold onw in E. destruct (build_btree ns w1) as [w2 r2] eqn:E2. injection E as <- _ ->.
  apply (al_build_btree n max) in E2; [|apply E1]. eapply AL_trans; eauto.
Qed.

(** ** The bitmaps of the blocks allocated so far *)
(** Index entry [ie] describes bitmap [i] of the counts [p], all 16320 of them. *)
Definition DB (d : disk) (p : N -> N) (i : N) (ie : index_entry) : Prop :=
  bitmap_at d (ie_blocknr ie) (map (fun x => entry_for (p (i * 16320 + x))) (range 0 16320)) /\
  ie_none_free_before ie <= 16320 /\
  forall x, x < ie_none_free_before ie -> p (i * 16320 + x) <> 0.
Definition DF (p : N -> N) (i : N) (ie : index_entry) : Prop := ie_nr_free ie + used_in p (i * 16320) 16320 = 16320.

Lemma used_in_ext c c' b len : (forall x, x < len -> c' (b + x) = c (b + x)) -> used_in c' b len = used_in c b len.
Proof using. clear.
  intros H. unfold used_in. f_equal. apply filter_ext_in'. intros x Hx. apply in_range in Hx. rewrite H; auto. lia.
Qed.
Lemma DB_ext d d' p p' i ie : d' (ie_blocknr ie) = d (ie_blocknr ie) -> (forall x, x < 16320 -> p' (i * 16320 + x) = p (i * 16320 + x)) ->
  DB d p i ie -> DB d' p' i ie.
Proof using. clear.
  intros Hd Hp (A & B & C). unfold DB. conj; auto.
  - eapply bitmap_at_ext; [exact Hd|]. erewrite map_ext_in; [exact A|]. intros x Hx. apply in_range in Hx. cbn beta. rewrite Hp; auto. lia.
  - intros x Hx. rewrite Hp by lia. auto.
Qed.
Lemma DF_ext p p' i ie : (forall x, x < 16320 -> p' (i * 16320 + x) = p (i * 16320 + x)) -> DF p i ie -> DF p' i ie.
Proof using. clear. unfold DF. intros H. rewrite (used_in_ext p p'); auto. Qed.

Variable wc : wb.
Hypothesis Hwc : env n max wc.

Definition pre_ok (j : N) (p : N -> N) (w : wb) : Prop :=
  (forall x, x < j -> (0 < cnt wc x -> p x = cnt wc x) /\ (cnt wc x = 0 -> p x <= 1 /\ p x <= cnt w x)) /\
  (forall x, j <= x -> p x = 0).
Lemma pre_ok_mono j p w w' : AL n max w w' -> pre_ok j p w -> pre_ok j p w'.
Proof.
  intros (_ & A & _) (B & C). split; auto. intros x Hx. destruct (B x Hx) as [B1 B2]. split; auto. intros H0. specialize (B2 H0). specialize (A x). lia.
Qed.

Record MC (j : N) (p : N -> N) (w : wb) (b : nbuilder N unit) (s : mcst) : Prop := {
  m_ob : OB n max wc (map ie_blocknr (rev (mc_out s))) (big_counts p 0 j) w b;
  m_al : AL n max wc w;
  m_p : pre_ok j p w;
  m_pos : mc_bm s * 16320 <= j <= (mc_bm s + 1) * 16320 /\ (mc_bm s = 0 \/ mc_bm s * 16320 < n);
  m_n : nlen (mc_out s) = mc_bm s;
  m_outs : forall i ie, nth_error (rev (mc_out s)) i = Some ie -> DB (wb_view w) p (N.of_nat i) ie /\ DF p (N.of_nat i) ie;
  m_cur : forall i, i < 16320 -> mc_es s i = entry_for (p (mc_bm s * 16320 + i));
  m_free : mc_free s + used_in p (mc_bm s * 16320) 16320 = 16320;
  m_nfb : mc_nfb s <= 16320 /\ forall i, i < mc_nfb s -> p (mc_bm s * 16320 + i) <> 0 }.

Lemma nth_rev_snoc {A} (l : list A) x i y : nth_error (rev (x :: l)) i = Some y ->
  (i < length l)%nat /\ nth_error (rev l) i = Some y \/ i = length l /\ y = x.
Proof using. clear.
  cbn [rev]. intros H. destruct (Nat.lt_ge_cases i (length l)).
  - rewrite nth_error_app1 in H by (rewrite rev_length; auto). auto.
  - rewrite nth_error_app2 in H by (rewrite rev_length; auto). rewrite rev_length in H.
    destruct (i - length l)%nat as [|k] eqn:E; [|destruct k; discriminate]. cbn in H. injection H as <-. right. split; auto. lia.
Qed.

Lemma used_in_zero c b len : (forall x, x < len -> c (b + x) = 0) -> used_in c b len = 0.
Proof using. clear.
  intros H. unfold used_in, nlen. assert (filter (fun i => negb (c (b + i) =? 0)) (range 0 len) = []) as ->; auto.
  assert (forall l, (forall i, In i l -> i < len) -> filter (fun i => negb (c (b + i) =? 0)) l = []) as Hl.
  { induction l as [|y l IH]; intros Hi; cbn [filter]; auto. rewrite H by (apply Hi; cbn; auto). cbn. apply IH. intros; apply Hi; cbn; auto. }
  apply Hl. intros i Hi. apply in_range in Hi. lia.
Qed.

(** Writing out the current bitmap *)
Lemma mc_write_wp j p w b s : MC j p w b s ->
  wp (mc_write s) (w, b)
     (fun st out => exists ie, out = ie :: mc_out s /\ OB n max wc (map ie_blocknr (rev out)) (big_counts p 0 j) (fst st) (snd st) /\
        AL n max wc (fst st) /\ pre_ok j p (fst st) /\
        forall i ie, nth_error (rev out) i = Some ie -> DB (wb_view (fst st)) p (N.of_nat i) ie /\ DF p (N.of_nat i) ie)
     (fun st => exhausted n max (fst st)).
Proof.
  intros [HO HA HP Hpos HN HOuts Hcur Hfree Hnfb]. unfold mc_write. apply wp_bind, wp_onw. eapply wp_mono.
  - apply wp_al; [apply al_write_bitmap|apply HA|].
    apply (write_bitmap_wp n max Hn (map (mc_es s) (range 0 ENTRIES_PER_BITMAP)) w (OB_env _ _ _ _ _ _ _ HO)).
    + unfold nlen. rewrite map_length, range_length. change ENTRIES_PER_BITMAP with 16320. lia.
    + apply Forall_map, Forall_forall. intros i Hi. apply in_range in Hi. change ENTRIES_PER_BITMAP with 16320 in Hi. rewrite Hcur by lia. apply entry_for_ok.
  - intros w' loc [[G Hat] HA']. cbn [fst snd]. apply wp_ret. cbn [fst snd]. exists (mkie loc (mc_free s) (mc_nfb s)). split; [auto|].
    destruct (OB_grow n max Hn _ _ _ _ _ _ _ HO G) as [HO' Hk]. conj.
    + cbn [rev]. rewrite map_app. cbn [map ie_blocknr]. exact HO'.
    + eapply AL_trans; eauto.
    + eapply pre_ok_mono; eauto.
    + intros i ie Hi. apply nth_rev_snoc in Hi as [[Hlt Hi]|[-> ->]].
      * destruct (HOuts i ie Hi) as [A B]. split; auto. eapply DB_ext; [|auto|exact A]. apply Hk. right.
        apply in_map. eapply nth_error_In; eauto.
      * assert (N.of_nat (length (mc_out s)) = mc_bm s) as -> by exact HN. split.
        -- unfold DB. cbn [ie_blocknr ie_none_free_before]. conj; try tauto.
           erewrite map_ext_in; [exact Hat|]. intros x Hx. apply in_range in Hx. cbn beta. rewrite Hcur; auto. lia.
        -- exact Hfree.
  - intros w' H. left. exact H.
Qed.

Lemma big_counts_ext c c' lo hi : (forall x, lo <= x < hi -> (3 <=? c' x) = (3 <=? c x) /\ (3 <= c x -> c' x = c x)) ->
  big_counts c' lo hi = big_counts c lo hi.
Proof using. clear.
  intros H. unfold big_counts. assert (filter (fun b => 3 <=? c' b) (range lo hi) = filter (fun b => 3 <=? c b) (range lo hi)) as ->.
  { apply filter_ext_in'. intros x Hx. apply in_range in Hx. apply H. auto. }
  apply map_ext_in. intros x Hx. apply filter_In in Hx as [Hx H3]. apply in_range in Hx. apply N.leb_le in H3. f_equal. apply H; auto.
Qed.

Lemma used_in_upd c b i len v : i < len ->
  used_in (upd c (b + i) v) b len + (if c (b + i) =? 0 then 0 else 1) = used_in c b len + (if v =? 0 then 0 else 1).
Proof using.
  clear. intros Hi. unfold used_in. rewrite (range_app 0 i len) by lia. rewrite !filter_app. unfold nlen. rewrite !app_length.
  rewrite (range_cons i len) by lia. cbn [filter]. rewrite upd_same.
  assert (forall a e, (forall x, In x (range a e) -> x <> i) ->
     filter (fun y => negb (upd c (b + i) v (b + y) =? 0)) (range a e) = filter (fun y => negb (c (b + y) =? 0)) (range a e)) as Hf.
  { intros a e Hx. apply filter_ext_in'. intros x Hin. rewrite upd_other; auto. specialize (Hx x Hin). lia. }
  rewrite !Hf by (intros x Hx; apply in_range in Hx; lia). destruct (v =? 0), (c (b + i) =? 0); cbn [negb length]; lia.
Qed.
(** One block *)
Lemma mc_block_wp j p w b s : MC j p w b s -> j < n ->
  wp (mc_block j s) (w, b)
     (fun st s' => exists p', MC (j + 1) p' (fst st) (snd st) s')
     (fun st => exhausted n max (fst st)).
Proof.
  intros HM Hj. unfold mc_block. apply wp_bind. change ENTRIES_PER_BITMAP with 16320.
  assert (Hfirst : wp (if negb (j / 16320 =? mc_bm s)
        then out <~ mc_write s ;; ret (mkmc (j / 16320) 16320 0 no_entries out)
        else ret s) (w, b)
     (fun st s' => MC j p (fst st) (snd st) s' /\ j / 16320 = mc_bm s') (fun st => exhausted n max (fst st))).
  { destruct (N.eqb_spec (j / 16320) (mc_bm s)) as [E|E]; cbn [negb].
    - apply wp_ret. auto.
    - apply wp_bind. eapply wp_mono; [apply (mc_write_wp _ _ _ _ _ HM)| |auto].
      intros [w' b'] out (ie & -> & HO & HA & HP & HD). cbn [fst snd] in *. apply wp_ret. cbn [fst snd mc_bm].
      split; [|auto]. destruct HM as [_ _ _ Hpos HN _ _ _ _].
      assert (j = (mc_bm s + 1) * 16320 /\ j / 16320 = mc_bm s + 1) as [Ej E2] by (clear - E Hpos; dlia).
      assert (Hz : forall i, p (j / 16320 * 16320 + i) = 0). { intros i. apply HP. rewrite E2, <- Ej. lia. }
      constructor; cbn [mc_bm mc_free mc_nfb mc_es mc_out]; auto.
      + rewrite E2. lia.
      + unfold nlen in *. cbn [length]. lia.
      + intros i Hi. rewrite Hz. reflexivity.
      + rewrite used_in_zero; auto.
      + split; [lia|]. intros i Hi. lia. }
  eapply wp_mono; [exact Hfirst| |auto]. clear Hfirst HM s w b.
  intros [w b] s [[HO HA HP Hpos HN HOuts Hcur Hfree Hnfb] Ebm]. cbn [fst snd] in *.
  apply wp_bind, wp_onw. unfold wp at 1. unfold sm_get. rewrite (inv_nr _ _ _ (proj1 HA)).
  destruct (N.leb_spec n j) as [?|_]; [lia|].
  change (sm_counts (wb_sm w) j) with (cnt w j). set (rc := cnt w j).
  assert (Hrc : rc < 2 ^ 32). { unfold rc, cnt. pose proof (inv_le _ _ _ (proj1 HA) j Hj). lia. }
  set (i := j mod 16320). assert (Hi : i < 16320 /\ mc_bm s * 16320 + i = j) by (unfold i; clear - Ebm; dlia).
  set (p' := upd p j rc).
  assert (Hp'j : p' j = rc) by apply upd_same.
  assert (Hp'o : forall x, x <> j -> p' x = p x) by (intros; apply upd_other; auto).
  assert (Hpj : p j = 0) by (apply HP; lia).
  assert (Hpre : forall w', AL n max w w' -> pre_ok (j + 1) p' w').
  { intros w' HA'. destruct HP as [P1 P2]. split.
    - intros x Hx. destruct (N.eq_dec x j) as [->|Hne].
      + rewrite Hp'j. destruct (OB_cnt _ _ _ _ _ j HO) as [C1 C2]. split; [intros; apply C1; auto|]. intros H0. split; [apply C2; auto|].
        specialize (C2 H0). destruct HA' as (_ & M & _). specialize (M j). fold rc in C2, M. unfold rc in *. lia.
      + rewrite Hp'o by auto. destruct (P1 x) as [Q1 Q2]; [lia|]. split; auto. intros H0. specialize (Q2 H0). destruct HA' as (_ & M & _). specialize (M x). lia.
    - intros x Hx. rewrite Hp'o by lia. apply P2. lia. }
  assert (Hbig : big_counts p' 0 (j + 1) = big_counts p 0 j ++ if 3 <=? rc then [(j, rc)] else []).
  { rewrite (big_counts_app _ 0 j) by lia. rewrite big_counts_one, Hp'j. f_equal. apply big_counts_ext. intros x Hx. rewrite Hp'o by lia. auto. }
  assert (Hused : used_in p' (mc_bm s * 16320) 16320 = used_in p (mc_bm s * 16320) 16320 + if rc =? 0 then 0 else 1).
  { destruct Hi as [Hi Ej]. pose proof (used_in_upd p (mc_bm s * 16320) i 16320 rc Hi) as H. rewrite Ej, Hpj in H. unfold p'. rewrite <- H. cbn. lia. }
  assert (Hfin : forall w' b' fr nfb e, OB n max wc (map ie_blocknr (rev (mc_out s))) (big_counts p' 0 (j + 1)) w' b' ->
     kept wc (map ie_blocknr (rev (mc_out s))) w w' -> AL n max w w' -> e = entry_for rc ->
     fr + used_in p' (mc_bm s * 16320) 16320 = 16320 ->
     (nfb = mc_nfb s \/ (rc <> 0 /\ mc_nfb s = i /\ nfb = i + 1)) ->
     exists p'', MC (j + 1) p'' w' b' (mkmc (mc_bm s) fr nfb (upd (mc_es s) i e) (mc_out s))).
  { intros w' b' fr nfb e HO' Hk HA' -> Hfr Hnf. exists p'. constructor; cbn [mc_bm mc_free mc_nfb mc_es mc_out]; auto.
    - eapply AL_trans; eauto.
    - lia.
    - intros i0 ie Hi0. destruct (HOuts i0 ie Hi0) as [A B].
      assert (N.of_nat i0 < mc_bm s). { rewrite <- HN. unfold nlen. apply nth_error_Some in Hi0 as Hx || idtac. assert (i0 < length (rev (mc_out s)))%nat by (apply nth_error_Some; congruence). rewrite rev_length in *. lia. }
      assert (forall x, x < 16320 -> p' (N.of_nat i0 * 16320 + x) = p (N.of_nat i0 * 16320 + x)) as Hsame by (intros; apply Hp'o; lia).
      split; [|eapply DF_ext; eauto]. eapply DB_ext; [|exact Hsame|exact A]. apply Hk. right. apply in_map. eapply nth_error_In; eauto.
    - intros i0 Hi0. rewrite upd_spec. destruct (N.eqb_spec i0 i) as [->|].
      + destruct Hi as [_ ->]. rewrite Hp'j. auto.
      + rewrite Hcur by auto. rewrite Hp'o by lia. auto.
    - destruct Hnfb as [N1 N2]. split.
      + destruct Hnf as [->|(_ & _ & ->)]; lia.
      + intros x Hx. destruct (N.eq_dec (mc_bm s * 16320 + x) j) as [Ex|Ex].
        * rewrite Ex, Hp'j. destruct Hnf as [->|(Hr & _)]; auto. exfalso. apply (N2 x Hx). rewrite Ex. auto.
        * rewrite Hp'o by auto. apply N2. destruct Hnf as [->|(_ & -> & ->)]; lia. }
  assert (Hnf : forall x, let nfb := if i =? mc_nfb s then i + 1 else mc_nfb s in rc = x -> x <> 0 -> nfb = mc_nfb s \/ (rc <> 0 /\ mc_nfb s = i /\ nfb = i + 1)).
  { intros x nfb Ex Hx. unfold nfb. destruct (N.eqb_spec i (mc_nfb s)); [right|left; auto]. conj; auto; congruence. }
  assert (HAr : AL n max w w) by (apply AL_refl; apply HA).
  assert (Hkr : kept wc (map ie_blocknr (rev (mc_out s))) w w) by (intros x _; auto).
  assert (Hu1 : used_in p (mc_bm s * 16320) 16320 <= 16320 - 1).
  { destruct Hi as [Hi Ej]. pose proof (used_in_upd p (mc_bm s * 16320) i 16320 1 Hi) as H. rewrite Ej, Hpj in H.
    pose proof (used_in_le (upd p j 1) (mc_bm s * 16320) 16320). cbn in H. lia. }
  destruct (N.eqb_spec rc 0) as [E0|E0].
  { apply wp_ret. cbn [fst snd]. apply Hfin; auto.
    - rewrite Hbig, E0. change (3 <=? 0) with false. rewrite app_nil_r. auto.
    - rewrite E0. auto.
    - rewrite Hused. lia. }
  destruct ((rc =? 1) || (rc =? 2)) eqn:E12.
  { apply wp_ret. cbn [fst snd]. apply Hfin; auto.
    - rewrite Hbig. apply orb_prop in E12 as [E|E]; apply N.eqb_eq in E; rewrite E; cbn [N.leb N.compare Pos.compare Pos.compare_cont]; rewrite app_nil_r; auto.
    - unfold entry_for. destruct (N.ltb_spec rc 3); auto. apply orb_prop in E12 as [E|E]; apply N.eqb_eq in E; lia.
    - rewrite Hused. lia.
    - eapply Hnf; eauto. }
  apply orb_false_iff in E12 as [E1 E2]. apply N.eqb_neq in E1, E2.
  assert (3 <=? rc = true) as E3 by (apply N.leb_le; lia). rewrite E3 in Hbig.
  apply wp_bind. eapply wp_mono.
  - apply (push_al _ _ _ _ _ j rc HO); [lia|auto|]. intros k' Hk'. apply big_counts_keys in Hk'. lia.
  - intros [w' b'] _ (A & B & C). cbn [fst snd] in *. apply wp_ret. cbn [fst snd]. apply Hfin; auto.
    + rewrite Hbig. auto.
    + unfold entry_for. destruct (N.ltb_spec rc 3); [lia|auto].
    + rewrite Hused. lia.
    + eapply Hnf; eauto.
  - auto.
Qed.

Lemma mc_blocks_wp k : k <= n -> forall m j p w b s, k = j + N.of_nat m -> MC j p w b s ->
  wp (mc_blocks (range j k) s) (w, b)
     (fun st s' => exists p', MC k p' (fst st) (snd st) s')
     (fun st => exhausted n max (fst st)).
Proof.
  intros Hk. induction m as [|m IH]; intros j p w b s Ek HM.
  - rewrite range_nil by lia. cbn [mc_blocks]. apply wp_ret. cbn [fst snd]. assert (k = j) as -> by lia. eauto.
  - rewrite range_cons by lia. cbn [mc_blocks]. apply wp_bind. eapply wp_mono; [apply (mc_block_wp _ _ _ _ _ HM); lia| |auto].
    intros [w' b'] s' (p' & HM'). cbn [fst snd] in *. eapply IH; [|exact HM']. lia.
Qed.

(** The empty bitmaps at the end *)
Lemma mc_rest_wp p cont m : forall w b l, OB n max wc l cont w b -> AL n max wc w ->
  wp (mc_rest m) (w, b)
     (fun st ies => length ies = m /\ OB n max wc (l ++ map ie_blocknr ies) cont (fst st) (snd st) /\ kept wc l w (fst st) /\
        AL n max w (fst st) /\
        forall i ie bm, nth_error ies i = Some ie -> (forall x, x < 16320 -> p (bm * 16320 + x) = 0) ->
          DB (wb_view (fst st)) p bm ie /\ DF p bm ie)
     (fun st => exhausted n max (fst st)).
Proof.
  induction m as [|m IH]; intros w b l HO HA; cbn [mc_rest].
  - apply wp_ret. cbn [fst snd map]. rewrite app_nil_r. conj; auto.
    + intros x _. auto.
    + apply AL_refl. apply HA.
    + intros [|i]; discriminate.
  - apply wp_bind, wp_onw. change ENTRIES_PER_BITMAP with 16320. eapply wp_mono.
    + apply wp_al; [apply al_write_bitmap|apply HA|].
      apply (write_bitmap_wp n max Hn (repeat (Small 0) (N.to_nat 16320)) w (OB_env _ _ _ _ _ _ _ HO)).
      * unfold nlen. rewrite repeat_length. lia.
      * apply Forall_forall. intros e He. apply repeat_spec in He as ->. cbn. lia.
    + intros w1 loc [[G Hat] HA1]. cbn [fst snd]. destruct (OB_grow n max Hn _ _ _ _ _ _ _ HO G) as [HO1 Hk1].
      apply wp_bind. eapply wp_mono; [apply (IH w1 b _ HO1); eapply AL_trans; eauto| |auto].
      intros [w2 b2] ies (L & HO2 & Hk2 & HA2 & HD). cbn [fst snd] in *. apply wp_ret. cbn [fst snd map length].
      rewrite <- app_assoc in HO2. conj; auto.
      * intros x Hx. rewrite Hk2, Hk1; auto. rewrite in_app_iff. tauto.
      * eapply AL_trans; eauto.
      * intros [|i] ie bm Hi Hz; [|eapply HD; eauto]. cbn in Hi. injection Hi as <-. split.
        -- unfold DB. cbn [ie_blocknr ie_none_free_before]. conj; [|lia|intros; lia].
           eapply bitmap_at_ext; [apply Hk2; right; rewrite in_app_iff; cbn; auto|].
           erewrite map_ext_in; [|intros x Hx; apply in_range in Hx; rewrite Hz by lia; reflexivity].
           rewrite map_const_repeat, range_length. rewrite N.sub_0_r. exact Hat.
        -- unfold DF. cbn [ie_nr_free]. rewrite used_in_zero; auto.
    + intros w1 H. left. exact H.
Qed.

Lemma div_up_bounds a b : 0 < b -> a <= div_up a b * b /\ (0 < a -> (div_up a b - 1) * b < a).
Proof using. clear. intros Hb. unfold div_up. pose proof (N.div_mod (a + (b - 1)) b ltac:(lia)) as H. pose proof (N.mod_lt (a + (b - 1)) b ltac:(lia)) as H2.
  set (q := (a + (b - 1)) / b) in *. split; [nia|]. intros Ha. nia. Qed.

Lemma metadata_common_wp w0 k : wc = fst (wb_clear_allocations w0) -> 0 < n -> k <= n ->
  (forall x, In x (wb_allocs w0) <-> x < k) ->
  wp write_metadata_common w0
     (fun w r => exists p depth foot, nlen (fst r) = div_up n 16320 /\ pre_ok k p w /\ AL n max wc w /\
        grew n max wc w (map ie_blocknr (fst r) ++ foot) /\
        tree u32_codec (wb_view w) true depth (snd r) (big_counts p 0 k) foot /\ snd r < n /\
        forall i ie, nth_error (fst r) i = Some ie -> DB (wb_view w) p (N.of_nat i) ie /\ DF p (N.of_nat i) ie)
     (exhausted n max).
Proof.
  intros Ewc Hn0 Hk Hal. unfold write_metadata_common, with_overflow.
  assert (Hb : flat_map (fun r => range (fst r) (snd r)) (alloc_ranges (wb_allocs w0)) = range 0 k).
  { unfold alloc_ranges. rewrite (proj1 (merge_spec _ (sorted_inc _))). apply increasing_unique; auto using sorted_inc, range_increasing.
    intros x. rewrite sorted_in, Hal, in_range. lia. }
  set (m := al <~ onw wb_clear_allocations ;; _).
  assert (Hwp : wp m (w0, nb_new tt)
     (fun st r => exists p depth foot, nlen (fst r) = div_up n 16320 /\ pre_ok k p (fst st) /\ AL n max wc (fst st) /\
        grew n max wc (fst st) (map ie_blocknr (fst r) ++ foot) /\
        tree u32_codec (wb_view (fst st)) true depth (snd r) (big_counts p 0 k) foot /\ snd r < n /\
        forall i ie, nth_error (fst r) i = Some ie -> DB (wb_view (fst st)) p (N.of_nat i) ie /\ DF p (N.of_nat i) ie)
     (fun st => exhausted n max (fst st))).
  { unfold m. clear m. apply wp_bind, wp_onw. unfold wp at 1. unfold wb_clear_allocations at 1. cbn [fst snd].
    change (mkwb _ _ _ _ _ _ _ _) with (fst (wb_clear_allocations w0)). rewrite <- Ewc. rewrite Hb.
    apply wp_bind. eapply wp_mono.
    - eapply (mc_blocks_wp k Hk (N.to_nat k) 0 (fun _ => 0) wc (nb_new tt)); [lia|].
      constructor; cbn [mc_bm mc_free mc_nfb mc_es mc_out rev map].
      + unfold big_counts. rewrite range_nil by lia. cbn [filter map]. apply OB_new; auto.
      + apply AL_refl. apply env_si. auto.
      + split; [intros; lia|auto].
      + lia.
      + reflexivity.
      + intros [|i]; discriminate.
      + intros. reflexivity.
      + rewrite used_in_zero by auto. reflexivity.
      + split; [lia|]. intros; lia.
    - intros [w1 b1] s (p & HM). cbn [fst snd] in *. apply wp_bind.
      assert (Hbm : mc_bm s < div_up n 16320). { destruct HM as [_ _ _ [_ Hpos] _ _ _ _ _]. apply lt_div_up; [lia|]. destruct Hpos as [->|]; lia. }
      assert (Hkb : k <= (mc_bm s + 1) * 16320) by apply (m_pos _ _ _ _ _ HM).
      pose proof (m_n _ _ _ _ _ HM) as Hlen.
      eapply wp_mono; [apply (mc_write_wp _ _ _ _ _ HM)| |auto]. clear HM.
      intros [w2 b2] out (ie0 & -> & HO2 & HA2 & HP2 & HD2). cbn [fst snd] in *.
      apply wp_bind, wp_onw. unfold wp at 1. rewrite (inv_nr _ _ _ (proj1 HA2)). cbn [fst snd].
      change ENTRIES_PER_BITMAP with 16320. apply wp_bind. eapply wp_mono; [apply (mc_rest_wp p _ _ _ _ _ HO2 HA2)| |auto].
      intros [w3 b3] more (L3 & HO3 & Hk3 & HA3 & HD3). cbn [fst snd] in *. apply wp_bind.
      rewrite <- map_app in HO3. eapply wp_mono; [apply (complete_al _ _ _ _ _ HO3)| |auto].
      intros [w4 b4] root ((depth & foot & G & Hk4 & T & R) & HA4). cbn [fst snd] in *. apply wp_ret. cbn [fst snd].
      assert (Hlo : nlen (ie0 :: mc_out s) = mc_bm s + 1) by (unfold nlen in *; cbn [length]; lia).
      exists p, depth, foot. conj; auto.
      + unfold nlen in *. rewrite app_length, rev_length, L3. lia.
      + apply (pre_ok_mono k p w2); [eapply AL_trans; eauto|auto].
      + eapply AL_trans; [exact HA2|]. eapply AL_trans; eauto.
      + intros i ie Hi.
        assert (Hin : In (ie_blocknr ie) (map ie_blocknr (rev (ie0 :: mc_out s) ++ more))) by (apply in_map; eapply nth_error_In; eauto).
        assert (Hv4 : wb_view w4 (ie_blocknr ie) = wb_view w3 (ie_blocknr ie)) by (apply Hk4; auto).
        destruct (Nat.lt_ge_cases i (length (rev (ie0 :: mc_out s)))) as [Hlt|Hge].
        * rewrite nth_error_app1 in Hi by auto. destruct (HD2 i ie Hi) as [A B]. split; auto.
          eapply DB_ext; [|auto|exact A]. rewrite Hv4. apply Hk3. right. apply in_map. eapply nth_error_In; eauto.
        * rewrite nth_error_app2 in Hi by auto. destruct (HD3 _ ie (N.of_nat i) Hi) as [A B].
          -- intros x Hx. apply HP2. rewrite rev_length in Hge. unfold nlen in Hlo. lia.
          -- split; auto. eapply DB_ext; [|auto|exact A]. auto.
    - auto. }
  unfold wp in *. destruct (m (w0, nb_new tt)) as [[w' b'] r]. cbn [fst snd] in *. destruct r; auto.
Qed.
End SM.
