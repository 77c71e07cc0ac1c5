(** Proofs about the B-tree readers (C11, C12). *)
From Verif Require Import Base Csum_Model Codec_Model Codec_Spec Codec_Proofs NodeCodec_Proofs Pack_Proofs
  SpaceMap_Model IoMany_Proofs Batcher_Model Builder_Model Builder_Spec Builder_Proofs BtreeBuild_Proofs.

Lemma p_count_length {A} (p : list N -> res (A * list N)) n : forall i vs r, p_count p n i = Ok (vs, r) -> length vs = n.
Proof.
  induction n as [|n IH]; intros i vs r H; cbn [p_count] in H; [apply Ok_inj in H; inversion H; auto|].
  inv_bind H. destruct a as [v i']. inv_bind H. destruct a as [vs' i'']. apply Ok_inj in H. inversion H; subst.
  cbn [length]. f_equal. eauto.
Qed.

(** What the lenient reader guarantees about a node. *)
Lemma raw_facts {V} (c : codec V) data ig root n : unpack_node_raw c data ig root = Ok n ->
  increasing (get_keys n) /\ nlen (get_keys n) = nh_nr_entries (get_header n) /\
  match n with Internal _ ks vs => length ks = length vs | Leaf _ ks vs => length ks = length vs end.
Proof.
  unfold unpack_node_raw. intros H. inv_bind H. destruct a as [i h]. clear E.
  destruct (_ && _); [discriminate|]. destruct (4096 <? _); [discriminate|].
  destruct (_ <? _); [discriminate|]. destruct (_ && _); [discriminate|]. destruct (_ && _); [discriminate|].
  inv_bind H. destruct a as [ks i']. apply p_count_length in E.
  destruct (keys_ordered None ks) eqn:Ek; [|discriminate]. cbn [negb] in H.
  apply keys_ordered_spec in Ek. destruct Ek as [Ek _].
  inv_bind H. clear E0. destruct a as [z i''].
  destruct (nh_is_leaf h); inv_bind H; destruct a as [vs i3]; apply p_count_length in E0; apply Ok_inj in H; subst n;
    cbn [get_keys get_header]; conj; auto; unfold nlen; rewrite ?E, ?E0; auto; lia.
Qed.

(** ** Lookup *)
Lemma bsearch_in ks key i : bsearch ks key = inl i -> In key ks.
Proof.
  revert i. induction ks as [|k r IH]; cbn [bsearch]; intros i H; [discriminate|].
  destruct (N.eqb_spec k key); [left; auto|]. destruct (key <? k); [discriminate|].
  destruct (bsearch r key) eqn:E; [|discriminate]. right. eauto.
Qed.
Lemma bsearch_nth ks key i : bsearch ks key = inl i -> nth_error ks (N.to_nat i) = Some key.
Proof.
  revert i. induction ks as [|k r IH]; cbn [bsearch]; intros i H; [discriminate|].
  destruct (N.eqb_spec k key); [inversion H; subst; reflexivity|]. destruct (key <? k); [discriminate|].
  destruct (bsearch r key) as [j|] eqn:E; [|discriminate]. inversion H; subst.
  replace (N.to_nat (j + 1)) with (S (N.to_nat j)) by lia. cbn. auto.
Qed.
Lemma bsearch_gt ks key i : bsearch ks key = inr i -> increasing ks -> 0 < i ->
  match ks with k :: _ => k < key | [] => False end.
Proof.
  destruct ks as [|k r]; cbn [bsearch]; intros H Hi Hp; [inversion H; lia|].
  destruct (N.eqb_spec k key); [discriminate|]. destruct (N.ltb_spec key k); [inversion H; lia|]. lia.
Qed.

Lemma assoc_none {V} (kvs : list (N * V)) k : ~ In k (map fst kvs) -> assoc kvs k = None.
Proof.
  induction kvs as [|[a v] r IH]; cbn; auto. intros H. destruct (N.eqb_spec k a); [subst; tauto|]. tauto.
Qed.
Lemma assoc_app {V} (a b : list (N * V)) k : assoc (a ++ b) k = match assoc a k with Some v => Some v | None => assoc b k end.
Proof. induction a as [|[x v] r IH]; cbn; auto. destruct (k =? x); auto. Qed.

Lemma bsearch_leaf {V} ks (vs : list V) key : length ks = length vs -> increasing ks ->
  match bsearch ks key with
  | inl i => exists v, nth_error vs (N.to_nat i) = Some v /\ assoc (combine ks vs) key = Some v
  | inr _ => assoc (combine ks vs) key = None
  end.
Proof.
  revert vs. induction ks as [|k r IH]; intros [|v vs] Hl Hi; cbn in Hl; try lia; [reflexivity|].
  cbn [bsearch combine assoc]. rewrite N.eqb_sym. destruct (N.eqb_spec key k); [exists v; auto|].
  apply increasing_strong in Hi as [Hk Hi]. destruct (N.ltb_spec key k).
  - apply assoc_none. intros Hin. apply in_map_iff in Hin as ([a b] & <- & Hin). apply in_combine_l in Hin. apply Hk in Hin. cbn in *. lia.
  - specialize (IH vs ltac:(lia) Hi). destruct (bsearch r key) as [i|i]; auto.
    replace (N.to_nat (i + 1)) with (S (N.to_nat i)) by lia. auto.
Qed.

Lemma children_ge {X V} (P : N -> X -> list (N * V) -> Prop) ks : forall bs subs, increasing ks -> children_ok P ks bs subs ->
  match ks with [] => True | k :: _ => forall k', In k' (map fst (concat subs)) -> k <= k' end.
Proof.
  induction ks as [|k r IH]; intros bs subs Hi H; auto.
  destruct bs as [|b bs]; [destruct H|]. destruct subs as [|s subs]; [destruct H|]. cbn [children_ok] in H.
  destruct H as (_ & _ & Hr & Hc). intros k' Hk. cbn [concat] in Hk. rewrite map_app in Hk.
  apply in_app_or in Hk as [Hk|Hk]; [apply Hr in Hk; tauto|].
  specialize (IH bs subs (proj2 Hi) Hc). destruct r as [|k2 r].
  - destruct bs, subs; try destruct Hc. destruct Hk.
  - apply IH in Hk. destruct Hi as [Hi _]. lia.
Qed.

Definition idx_of (s : N + N) : option N := match s with inl i => Some i | inr 0 => None | inr i => Some (i - 1) end.

Lemma bsearch_child {X V} (P : N -> X -> list (N * V) -> Prop) key ks : forall bs subs, increasing ks -> children_ok P ks bs subs ->
  match idx_of (bsearch ks key) with
  | None => assoc (concat subs) key = None
  | Some i => exists k b s, nth_error bs (N.to_nat i) = Some b /\ P k b s /\ assoc (concat subs) key = assoc s key
  end.
Proof.
  induction ks as [|k r IH]; intros bs subs Hi H.
  - destruct bs, subs; try destruct H. reflexivity.
  - pose proof (children_ge P (k :: r) bs subs Hi H) as Hge. cbn iota beta in Hge.
    destruct bs as [|b bs]; [destruct H|]. destruct subs as [|s subs]; [destruct H|]. cbn [children_ok] in H.
    destruct H as (HP & _ & Hr & Hc). cbn [concat] in *. cbn [bsearch].
    pose proof (children_ge P r bs subs (proj2 Hi) Hc) as Hge2.
    destruct (N.eqb_spec k key) as [->|Ne]; [|destruct (N.ltb_spec key k)].
    + cbn [idx_of]. exists key, b, s. conj; auto. rewrite assoc_app. destruct (assoc s key); auto.
      apply assoc_none. intros Hin. destruct r as [|k2 r].
      * destruct bs, subs; try destruct Hc. destruct Hin.
      * apply Hge2 in Hin. destruct Hi as [Hi _]. lia.
    + cbn [idx_of]. apply assoc_none. intros Hin. apply Hge in Hin. lia.
    + specialize (IH bs subs (proj2 Hi) Hc).
      assert (Hs0 : match r with k2 :: _ => k2 <= key | [] => False end -> assoc s key = None).
      { intros Hk. apply assoc_none. intros Hin. apply Hr in Hin. destruct r; [auto|]. lia. }
      destruct (bsearch r key) as [i|i] eqn:Eb.
      * cbn [idx_of] in *. destruct IH as (k' & b' & s' & H1 & H2 & H3). exists k', b', s'.
        replace (N.to_nat (i + 1)) with (S (N.to_nat i)) by lia. conj; auto. rewrite assoc_app, Hs0; auto.
        apply bsearch_in in Eb. destruct r as [|k2 r]; [destruct Eb|]. destruct Eb as [->|Eb]; [lia|].
        destruct Hi as [_ Hi]. apply increasing_strong in Hi as [Hi _]. apply Hi in Eb. lia.
      * assert (i = 0 \/ 0 < i) as [->|Hp] by lia.
        -- change (0 + 1) with 1. cbn [idx_of] in *. exists k, b, s. conj; auto. rewrite assoc_app, IH. destruct (assoc s key); auto.
        -- assert (Hx : idx_of (inr i : N + N) = Some (i - 1)) by (destruct i; [lia|reflexivity]).
           assert (Hy : idx_of (inr (i + 1) : N + N) = Some i) by (destruct i; [lia|]; unfold idx_of; cbn [N.add]; f_equal; lia).
           rewrite Hx in IH. rewrite Hy. destruct IH as (k' & b' & s' & H1 & H2 & H3). exists k', b', s'.
           replace (N.to_nat i) with (S (N.to_nat (i - 1))) by lia. conj; auto.
           rewrite assoc_app, Hs0; auto. pose proof (bsearch_gt _ _ _ Eb (proj2 Hi) Hp) as Hb. destruct r; auto. lia.
Qed.

Lemma lookup_spec {V} (c : codec V) d key depth : forall b kvs fuel root, wf_tree c d depth b kvs -> (depth < fuel)%nat ->
  btree_lookup fuel c d root b key = Ok (assoc kvs key).
Proof.
  induction depth as [|dp IH]; intros b kvs [|f] root H Hf; try lia; cbn [wf_tree] in H; cbn [btree_lookup].
  - destruct H as (h & ks & vs & Hn & ->). rewrite Hn. cbn [bind].
    pose proof (raw_facts _ _ _ _ _ (Hn true)) as (Hi & _ & Hl). cbn [get_keys] in *.
    pose proof (bsearch_leaf ks vs key Hl Hi) as Hb. destruct (bsearch ks key).
    + destruct Hb as (v & -> & ->). auto.
    + rewrite Hb. auto.
  - destruct H as (h & ks & bs & subs & Hn & Hne & Hc & ->). rewrite Hn. cbn [bind].
    pose proof (raw_facts _ _ _ _ _ (Hn true)) as (Hi & _ & Hl). cbn [get_keys] in *.
    pose proof (bsearch_child _ key ks bs subs Hi Hc) as Hb. destruct (bsearch ks key) as [i|[|p]]; cbn [idx_of] in Hb.
    + destruct Hb as (k & b' & s & -> & Hw & ->). apply IH; auto; lia.
    + rewrite Hb. auto.
    + destruct Hb as (k & b' & s & -> & Hw & ->). apply IH; auto; lia.
Qed.

(** ** Iterator *)
Lemma children_forall {X V} (P : N -> X -> list (N * V) -> Prop) ks : forall bs subs, children_ok P ks bs subs ->
  length ks = length bs /\ Forall2 (fun b s => s <> [] /\ exists k, P k b s) bs subs.
Proof.
  induction ks as [|k r IH]; intros [|b bs] [|s subs] H; try destruct H; cbn [children_ok] in *; auto.
  destruct H0 as (B & C & D). apply IH in D as [D1 D2]. cbn. split; [lia|]. constructor; eauto.
Qed.

Lemma Forall2_imp {A B} (P Q : A -> B -> Prop) l l' : (forall a b, P a b -> Q a b) -> Forall2 P l l' -> Forall2 Q l l'.
Proof. intros H. induction 1; constructor; auto. Qed.

Section Iter.
Context {V : Type}.
Variable c : codec V.
Variable d : disk.

(** [rem h s l]: [s] is a stack of internal frames, innermost first, whose
    children are subtrees of height [h]; [l] is what follows the current child. *)
Inductive rem : nat -> iter V -> list (N * V) -> Prop :=
| rem_nil h : rem h [] []
| rem_cons h i hd ks bs subs r l :
    nh_nr_entries hd = nlen bs -> i < nlen bs ->
    Forall2 (fun b s => s <> [] /\ wf_tree c d h b s) bs subs ->
    rem (S h) r l ->
    rem h ((i, Internal hd ks bs) :: r) (concat (skipn (S (N.to_nat i)) subs) ++ l).

(** The node [n] is the root of a subtree of height [h] with entries [s]. *)
Definition node_at (h : nat) (n : node V) (s : list (N * V)) : Prop :=
  exists b, wf_tree c d h b s /\ forall root, unpack_node_raw c (d b) true root = Ok n.

Lemma Forall2_nth {A B} (P : A -> B -> Prop) l l' i a : Forall2 P l l' -> nth_error l i = Some a ->
  exists b, nth_error l' i = Some b /\ P a b /\ skipn i l' = b :: skipn (S i) l'.
Proof.
  intros H. revert i. induction H; intros [|i] E; cbn in E; try discriminate.
  - inversion E; subst. exists y. cbn. auto.
  - apply IHForall2 in E. cbn. auto.
Qed.

Lemma wf_node h b s : wf_tree c d h b s -> exists n, node_at h n s /\ forall root, unpack_node_raw c (d b) true root = Ok n.
Proof.
  intros H. destruct h as [|h]; cbn [wf_tree] in H.
  - destruct H as (hd & ks & vs & Hn & E). exists (Leaf hd ks vs). split; auto. exists b. cbn [wf_tree]. split; eauto.
  - destruct H as (hd & ks & bs & subs & Hn & E). exists (Internal hd ks bs). split; auto. exists b. cbn [wf_tree]. split; eauto 8.
Qed.

(** Advancing the innermost frame. *)
Lemma enter_child h i hd ks bs subs r l :
  nh_nr_entries hd = nlen bs -> i < nlen bs ->
  Forall2 (fun b s => s <> [] /\ wf_tree c d h b s) bs subs -> rem (S h) r l ->
  exists n s, node_at h n s /\ s <> [] /\
    (loc <- it_child (V:=V) (Internal hd ks bs) i ;; ' (s', _) <- it_push_loc c d loc ((i, Internal hd ks bs) :: r) ;; Ok s') =
      Ok ((0, n) :: (i, Internal hd ks bs) :: r) /\
    concat (skipn (N.to_nat i) subs) ++ l = s ++ concat (skipn (S (N.to_nat i)) subs) ++ l.
Proof.
  intros Hnr Hi HF Hr. cbn [it_child].
  destruct (nth_error bs (N.to_nat i)) as [b|] eqn:E.
  2:{ apply nth_error_None in E. unfold nlen in Hi. lia. }
  destruct (Forall2_nth _ _ _ _ _ HF E) as (s & Es & (Hne & Hw) & Hsk).
  destruct (wf_node _ _ _ Hw) as (n & Hn & Hu). exists n, s. conj; auto.
  - cbn [bind]. unfold it_push_loc. rewrite Hu. reflexivity.
  - rewrite Hsk. cbn [concat]. rewrite <- app_assoc. auto.
Qed.

Lemma next_node_spec h x : forall r l, rem h r l ->
  match l with
  | [] => it_next_node c d (x :: r) = Ok []
  | _ => exists n s r' l', it_next_node c d (x :: r) = Ok ((0, n) :: r') /\ node_at h n s /\ s <> [] /\ rem h r' l' /\ l = s ++ l'
  end.
Proof.
  intros r. revert h x. induction r as [|f r IH]; intros h x l Hr; [inversion Hr; subst; reflexivity|].
  inversion Hr as [|h0 i hd ks bs subs r0 l0 Hnr Hi HF Hr0]; subst. cbn [it_next_node get_header].
  rewrite Hnr. pose proof (Forall2_length _ _ _ HF) as Hlen.
  destruct (N.leb_spec (nlen bs) (i + 1)) as [Hle|Hlt].
  - assert (skipn (S (N.to_nat i)) subs = []) as -> by (apply skipn_all2; unfold nlen in *; lia). cbn [concat app].
    specialize (IH (S h) (i, Internal hd ks bs) l0 Hr0).
    cbn [it_next_node] in IH.
    destruct l0 as [|e l0].
    + rewrite IH. reflexivity.
    + destruct IH as (n & s & r' & l' & E & (b' & Hw & Hu) & Hne & Hr' & ->). rewrite E. cbn [bind].
      cbn [wf_tree] in Hw. destruct Hw as (hd' & ks' & bs' & subs' & Hn' & Hk' & Hc' & ->).
      specialize (Hn' true). rewrite Hu in Hn'. apply Ok_inj in Hn'. subst n.
      pose proof (raw_facts _ _ _ _ _ (Hu true)) as (_ & Hnr' & Hl'). cbn [get_keys get_header] in *.
      apply children_forall in Hc' as [Hc1 Hc2].
      assert (HF' : Forall2 (fun b s => s <> [] /\ wf_tree c d h b s) bs' subs').
      { eapply Forall2_imp; [|exact Hc2]. cbn. intros ? ? (? & ? & ?). auto. }
      assert (0 < nlen bs') by (unfold nlen; destruct bs', ks'; cbn in *; try congruence; lia).
      assert (Hnb : nh_nr_entries hd' = nlen bs') by (unfold nlen in *; lia).
      destruct (enter_child h 0 hd' ks' bs' subs' r' l' Hnb H HF' Hr') as (n2 & s2 & N1 & N2 & N3 & N4).
      exists n2, s2, ((0, Internal hd' ks' bs') :: r'), (concat (skipn (S (N.to_nat 0)) subs') ++ l'). conj; auto.
      * constructor; auto.
  - assert (Hi1 : i + 1 < nlen bs) by lia.
    destruct (enter_child h (i + 1) hd ks bs subs r l0 Hnr Hi1 HF Hr0) as (n2 & s2 & N1 & N2 & N3 & N4).
    replace (S (N.to_nat i)) with (N.to_nat (i + 1)) by lia. rewrite N4, N3.
    destruct s2 as [|e s2]; [congruence|]. cbn [app].
    exists n2, (e :: s2), ((i + 1, Internal hd ks bs) :: r), (concat (skipn (S (N.to_nat (i + 1))) subs) ++ l0).
    conj; auto. constructor; auto.
Qed.

(** Going down to the first leaf. *)
Lemma left_most_spec h : forall b s r l fuel, wf_tree c d h b s -> rem h r l -> (h < fuel)%nat ->
  exists n r' l', it_left_most fuel c d b r = Ok ((0, n) :: r') /\
    rem 0 r' l' /\ exists s0, node_at 0 n s0 /\ s ++ l = s0 ++ l' /\ (s <> [] -> s0 <> []) /\ (h = O -> r' = r) /\ (h <> O -> s0 <> []).
Proof.
  induction h as [|h IH]; intros b s r l [|f] Hw Hr Hf; try lia; cbn [it_left_most].
  - destruct (wf_node _ _ _ Hw) as (n & Hn & Hu). unfold it_push_loc. rewrite Hu. cbn [bind].
    destruct Hn as (b' & (hd & ks & vs & Hn & Es) & Hu'). pose proof (Hn true) as Hq. rewrite Hu' in Hq. apply Ok_inj in Hq. subst n.
    exists (Leaf hd ks vs), r, l. conj; auto. exists s. conj; auto; try lia. exists b'. cbn [wf_tree]. split; eauto.
  - cbn [wf_tree] in Hw. destruct Hw as (hd & ks & bs & subs & Hn & Hk & Hc & ->).
    unfold it_push_loc. rewrite Hn. cbn [bind].
    pose proof (raw_facts _ _ _ _ _ (Hn true)) as (_ & Hnr' & Hl'). cbn [get_keys get_header] in *.
    apply children_forall in Hc as [Hc1 Hc2].
    assert (HF' : Forall2 (fun b s => s <> [] /\ wf_tree c d h b s) bs subs).
    { eapply Forall2_imp; [|exact Hc2]. cbn. intros ? ? (? & ? & ?). auto. }
    assert (0 < nlen bs) by (unfold nlen; destruct bs, ks; cbn in *; try congruence; lia).
    assert (Hnb : nh_nr_entries hd = nlen bs) by (unfold nlen in *; lia).
    cbn [it_child]. destruct (nth_error bs (N.to_nat 0)) as [b0|] eqn:E.
    2:{ apply nth_error_None in E. unfold nlen in H. lia. }
    destruct (Forall2_nth _ _ _ _ _ HF' E) as (s & Es & (Hne & Hw) & Hsk). cbn [bind].
    destruct (IH b0 s ((0, Internal hd ks bs) :: r) (concat (skipn (S (N.to_nat 0)) subs) ++ l) f Hw) as (n & r' & l' & E1 & E2 & s0 & E3 & E4 & E5 & E6 & E7); [constructor; auto|lia|].
    exists n, r', l'. conj; auto. exists s0. conj; auto; try lia.
    rewrite <- E4. change (concat subs) with (concat (skipn (N.to_nat 0) subs)). rewrite Hsk. cbn [concat]. rewrite <- app_assoc. auto.
Qed.

Lemma leaf_node n s : node_at 0 n s -> exists hd ks vs, n = Leaf hd ks vs /\ s = combine ks vs /\ length ks = length vs /\ nh_nr_entries hd = nlen ks.
Proof.
  intros (b' & (hd & ks & vs & Hn & Es) & Hu'). pose proof (Hn true) as Hq. rewrite Hu' in Hq. apply Ok_inj in Hq. subst n.
  pose proof (raw_facts _ _ _ _ _ (Hu' true)) as (_ & Hnr' & Hl'). cbn [get_keys get_header] in *. exists hd, ks, vs. auto.
Qed.

Lemma collect_spec fuel : forall i hd ks vs r l, length ks = length vs -> nh_nr_entries hd = nlen ks ->
  i < nlen ks -> rem 0 r l -> nlen ks - i + nlen l < N.of_nat fuel ->
  it_collect fuel c d ((i, Leaf hd ks vs) :: r) = Ok (skipn (N.to_nat i) (combine ks vs) ++ l).
Proof.
  induction fuel as [|f IH]; intros i hd ks vs r l Hl Hnr Hi Hr Hf; [lia|]. cbn [it_collect].
  assert (Hi' : (N.to_nat i < length ks)%nat) by (unfold nlen in Hi; lia).
  destruct (nth_error ks (N.to_nat i)) as [k|] eqn:E1; [|apply nth_error_None in E1; lia].
  destruct (nth_error vs (N.to_nat i)) as [v|] eqn:E2; [|apply nth_error_None in E2; lia].
  assert (Hg : it_get ((i, Leaf hd ks vs) :: r) = Ok (Some (k, v))).
  { unfold it_get. rewrite E1, E2. destruct ks; [cbn in Hi'; lia|auto]. }
  rewrite Hg. cbn [bind]. unfold it_step, it_inc_frame. cbn [get_header]. rewrite Hnr.
  assert (Hsk : skipn (N.to_nat i) (combine ks vs) = (k, v) :: skipn (N.to_nat (i + 1)) (combine ks vs)).
  { clear - E1 E2. replace (N.to_nat (i + 1)) with (S (N.to_nat i)) by lia. revert vs E2 E1. generalize (N.to_nat i).
    induction ks; intros [|j] [|v' vs] E2 E1; cbn in *; try discriminate; [congruence|auto]. }
  rewrite Hsk. destruct (N.leb_spec (nlen ks) (i + 1)) as [Hle|Hlt].
  - assert (skipn (N.to_nat (i + 1)) (combine ks vs) = []) as ->.
    { apply skipn_all2. rewrite combine_length. unfold nlen in *. lia. }
    pose proof (next_node_spec 0 (i + 1, Leaf hd ks vs) r l Hr) as Hnx. destruct l as [|e l].
    + cbv iota beta. unfold iter, frame in *. rewrite Hnx. cbn [bind]. destruct f; [lia|]. reflexivity.
    + destruct Hnx as (n & s & r' & l' & E & Hn & Hne & Hr' & Hlq). cbv iota beta. unfold iter, frame in *. rewrite E. cbn [bind].
      apply leaf_node in Hn as (hd' & ks' & vs' & -> & -> & Hl' & Hnr').
      assert (0 < nlen ks') by (unfold nlen; destruct ks'; cbn in *; try congruence; lia).
      rewrite (IH 0 hd' ks' vs' r' l'); auto; try lia.
      * cbn [bind]. rewrite Hlq. reflexivity.
      * assert (nlen (e :: l) = nlen ks' + nlen l') by (rewrite Hlq; unfold nlen; rewrite app_length, combine_length; lia). lia.
  - cbn [bind]. rewrite (IH (i + 1) hd ks vs r l); auto; try lia.
Qed.

(** The iterator over a whole tree. *)
Lemma iterate_spec depth b kvs fuel fuel' : wf_tree c d depth b kvs -> (depth < fuel)%nat -> nlen kvs < N.of_nat fuel' ->
  (s <- it_left_most fuel c d b [] ;; it_collect fuel' c d s) = Ok kvs.
Proof.
  intros Hw Hf Hf'. destruct (left_most_spec depth b kvs [] [] fuel Hw (rem_nil _) Hf) as (n & r & l & E & Hr & s & Hn & Es & H1 & H2 & H3).
  rewrite E. cbn [bind]. apply leaf_node in Hn as (hd & ks & vs & -> & -> & Hl & Hnr). rewrite app_nil_r in Es.
  destruct ks as [|k0 ks0] eqn:Ek.
  - cbn [combine app] in *. destruct depth; [|exfalso; apply H3; auto].
    rewrite (H2 eq_refl) in *. inversion Hr; subst. destruct fuel'; [lia|]. reflexivity.
  - rewrite <- Ek in *. assert (0 < nlen ks) by (rewrite Ek; unfold nlen; cbn; lia). clear Ek k0 ks0.
    rewrite (collect_spec fuel' 0 hd ks vs r l); auto; try lia.
    + cbn. congruence.
    + subst kvs. unfold nlen in *. rewrite app_length, combine_length in Hf'. lia.
Qed.
End Iter.

(** ** Trees the builder makes are well-formed *)
Lemma tree_wf {V} (c : codec V) d depth : forall root b kvs foot, tree c d root depth b kvs foot -> increasing (map fst kvs) ->
  wf_tree c d depth b kvs.
Proof.
  induction depth as [|dp IH]; intros root b kvs foot H Hi; cbn [tree wf_tree] in *.
  - destruct H as (h & ks & vs & Hh & _ & E & _). exists h, ks, vs. split; auto. intros. apply holds_raw; auto.
  - destruct H as (h & ch & subs & Hh & _ & _ & Hlen & _ & HF & -> & _).
    exists h, (map fst ch), (map snd ch), (map fst subs). conj; auto.
    + intros. apply holds_raw; auto.
    + destruct ch; [unfold nlen in Hlen; cbn in Hlen; lia|discriminate].
    + clear Hlen Hh. induction HF as [|kb sub ch subs (A & B & C) HF IHF]; cbn [map children_ok]; auto.
      cbn [map concat] in Hi. rewrite map_app in Hi. apply increasing_split in Hi as (I1 & I2 & I3).
      specialize (IHF I2). conj; auto.
      * eapply IH; eauto.
      * intros k' Hk'. split.
        { rewrite B. destruct (fst sub) as [|[k v] s]; [destruct Hk'|]. cbn [first_key map fst] in *.
          apply increasing_strong in I1 as [I1 _]. destruct Hk' as [<-|Hk']; [lia|]. apply I1 in Hk'. lia. }
        { destruct HF as [|kb2 sub2 ch2 subs2 (A2 & B2 & C2) HF]; cbn [map]; auto. rewrite B2. apply I3; auto.
          cbn [map concat]. rewrite map_app. apply in_or_app. left. destruct (fst sub2) as [|[k v] s]; [congruence|]. left; auto. }
Qed.

(** Depth is logarithmic, but the number of entries already bounds it. *)
Lemma tree_foot_nonempty {V} (c : codec V) d depth root b kvs foot : tree c d root depth b kvs foot -> In b foot.
Proof.
  destruct depth; cbn [tree].
  - intros (h & ks & vs & H). decompose [and] H. subst. left; auto.
  - intros (h & ch & subs & H). decompose [and] H. subst. left; auto.
Qed.
