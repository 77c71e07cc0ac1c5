(** Walking arrays, and reading bitsets. *)
From Coq Require Import Permutation.
From Verif Require Import Base Csum_Model Codec_Model Codec_Spec Codec_Proofs SpaceMap_Model SpaceMap_Spec SpaceMap_Proofs Utils_Model Utils_Spec Utils_Proofs
  Batcher_Model Builder_Model Builder_Spec Builder_Proofs BtreeBuild_Proofs Walker_Model Walker_Spec Walker_Proofs WalkTree_Proofs Props_Walker
  Array_Model Array_Spec Array_Proofs.

(** ** A visitor that accepts every call of a walk behaves like one that accepts all *)
Section Accept.
Context {V : Type} (c : codec V) (inf : bool) (eng : N -> option (list N)).
Context (acc : list (wcall V) -> wcall V -> bool).
Notation yes := (fun (_ : list (wcall V)) (_ : wcall V) => true).
Definition fine (l : list (wcall V)) : Prop := forall x log, In x l -> acc log x = true.

Lemma call_log (ac : list (wcall V) -> wcall V -> bool) x s : w_log (fst (call ac x s)) = w_log s ++ [x].
Proof. reflexivity. Qed.
Lemma inc_log b (s s1 : wst V) r : w_sm_inc b s = (s1, r) -> w_log s1 = w_log s.
Proof.
  unfold w_sm_inc. destruct (wsm_get (w_sm s) b) as [n| |]; [|intros H; inversion H; auto..].
  destruct (wsm_inc (w_sm s) b 1) as [m [u| |]]; intros H; inversion H; auto.
Qed.
Lemma see_log ac path : forall krs bs (s : wst V) s1 errs todo, see_children ac path krs bs s = (s1, errs, todo) ->
  exists m, w_log s1 = w_log s ++ m.
Proof.
  induction krs as [|kr krs IH]; intros bs s s1 errs todo H; cbn [see_children] in H.
  { inversion H; subst. exists []. rewrite app_nil_r. auto. }
  destruct bs as [|b bs]. { inversion H; subst. exists []. rewrite app_nil_r. auto. }
  destruct (w_sm_inc b s) as [s0 r] eqn:E. pose proof (inc_log _ _ _ _ E) as El.
  destruct r as [rc| |].
  - destruct (rc =? 0).
    + destruct (see_children ac path krs bs s0) as [[s2 er] td] eqn:E2. inversion H; subst. destruct (IH _ _ _ _ _ E2) as (m & ->).
      exists m. congruence.
    + destruct (w_fail s0 b).
      * destruct (see_children ac path krs bs s0) as [[s2 er] td] eqn:E2. inversion H; subst. destruct (IH _ _ _ _ _ E2) as (m & ->).
        exists m. congruence.
      * cbn [call] in H. destruct (see_children ac path krs bs (mkwst (w_sm s0) (w_fail s0) (w_log s0 ++ [CAgain path b]))) as [[s2 er] td] eqn:E2.
        inversion H; subst. destruct (IH _ _ _ _ _ E2) as (m & ->). cbn [w_log]. exists (CAgain path b :: m). rewrite <- app_assoc. cbn. congruence.
  - destruct (see_children ac path krs bs s0) as [[s2 er] td] eqn:E2. inversion H; subst. destruct (IH _ _ _ _ _ E2) as (m & ->).
    exists m. congruence.
  - destruct (see_children ac path krs bs s0) as [[s2 er] td] eqn:E2. inversion H; subst. destruct (IH _ _ _ _ _ E2) as (m & ->).
    exists m. congruence.
Qed.
Lemma fine_pre l m : fine (l ++ m) -> fine l.
Proof. intros H x log Hx. apply H. apply in_or_app; auto. Qed.
Lemma see_same path : forall krs bs (s : wst V) s1 errs todo, see_children yes path krs bs s = (s1, errs, todo) ->
  fine (w_log s1) -> see_children acc path krs bs s = (s1, errs, todo).
Proof.
  induction krs as [|kr krs IH]; intros bs s s1 errs todo H HF; cbn [see_children] in *; auto.
  destruct bs as [|b bs]; auto.
  destruct (w_sm_inc b s) as [s0 [rc| |]] eqn:E.
  - destruct (rc =? 0).
    + destruct (see_children yes path krs bs s0) as [[s2 er] td] eqn:E2. inversion H; subst. rewrite (IH _ _ _ _ _ E2 HF). auto.
    + destruct (w_fail s0 b).
      * destruct (see_children yes path krs bs s0) as [[s2 er] td] eqn:E2. inversion H; subst. rewrite (IH _ _ _ _ _ E2 HF). auto.
      * cbn [call] in *. destruct (see_children yes path krs bs (mkwst (w_sm s0) (w_fail s0) (w_log s0 ++ [CAgain path b]))) as [[s2 er] td] eqn:E2.
        inversion H; subst. rewrite (IH _ _ _ _ _ E2 HF).
        destruct (see_log _ _ _ _ _ _ _ _ E2) as (m & Em). cbn [w_log] in Em.
        rewrite (HF (CAgain path b) (w_log s0)); auto. rewrite Em. apply in_or_app. left. apply in_or_app. right. left. auto.
  - destruct (see_children yes path krs bs s0) as [[s2 er] td] eqn:E2. inversion H; subst. rewrite (IH _ _ _ _ _ E2 HF). auto.
  - destruct (see_children yes path krs bs s0) as [[s2 er] td] eqn:E2. inversion H; subst. rewrite (IH _ _ _ _ _ E2 HF). auto.
Qed.

Lemma list_log (f : key_range -> N -> list N -> wst V -> wst V * option werr) path :
  (forall kr b data s, exists m, w_log (fst (f kr b data s)) = w_log s ++ m) ->
  forall todo s s1 es, walk_list eng f path todo s = (s1, es) -> exists m, w_log s1 = w_log s ++ m.
Proof.
  intros Hf. induction todo as [|[kr b] todo IH]; intros s s1 es H; cbn [walk_list] in H.
  { inversion H; subst. exists []. rewrite app_nil_r. auto. }
  destruct (eng b) as [data|].
  - specialize (Hf kr b data s). destruct (f kr b data s) as [s0 e]. cbn [fst] in Hf. destruct Hf as (m & Em).
    destruct (walk_list eng f path todo s0) as [s2 er] eqn:E. inversion H; subst. destruct (IH _ _ _ E) as (m' & ->).
    exists (m ++ m'). rewrite Em, app_assoc. auto.
  - destruct (walk_list eng f path todo _) as [s2 er] eqn:E. inversion H; subst. destruct (IH _ _ _ E) as (m' & ->). cbn. eauto.
Qed.
Lemma node_log ac : forall fuel path kr b data isr (s : wst V), exists m, w_log (fst (walk_node c inf eng ac fuel path kr b data isr s)) = w_log s ++ m.
Proof.
  induction fuel as [|fuel IH]; intros path kr b data isr s; cbn [walk_node].
  { exists []. rewrite app_nil_r. auto. }
  destruct (check_and_unpack_node c (mkblock b data) inf isr) as [[h ks vs|h ks vs]| |].
  - destruct (split_key_ranges kr ks) as [krs| |]; [|exists []; rewrite app_nil_r; auto..].
    destruct (see_children ac (path ++ [b]) krs vs s) as [[s1 e1] td] eqn:E1. destruct (see_log _ _ _ _ _ _ _ _ E1) as (m1 & M1).
    destruct (walk_list eng _ (path ++ [b]) td s1) as [s2 e2] eqn:E2.
    apply list_log in E2 as (m2 & M2); [|intros; apply IH].
    assert (w_log (fst (build_aggregate b (e1 ++ e2) s2)) = w_log s2) as ->.
    { unfold build_aggregate. destruct (e1 ++ e2) as [|x [|y l]]; auto. }
    exists (m1 ++ m2). rewrite M2, M1, app_assoc. auto.
  - cbn [call]. destruct (ac _ _); cbn; eauto.
  - exists []. rewrite app_nil_r. auto.
  - exists []. rewrite app_nil_r. auto.
Qed.

Lemma list_same (f g : key_range -> N -> list N -> wst V -> wst V * option werr) path :
  (forall kr b data s, exists m, w_log (fst (f kr b data s)) = w_log s ++ m) ->
  (forall kr b data s s1 e, f kr b data s = (s1, e) -> fine (w_log s1) -> g kr b data s = (s1, e)) ->
  forall todo s s1 es, walk_list eng f path todo s = (s1, es) -> fine (w_log s1) -> walk_list eng g path todo s = (s1, es).
Proof.
  intros Hl Hf. induction todo as [|[kr b] todo IH]; intros s s1 es H HF; cbn [walk_list] in *; auto.
  destruct (eng b) as [data|].
  - destruct (f kr b data s) as [s0 e] eqn:E0. destruct (walk_list eng f path todo s0) as [s2 er] eqn:E. inversion H; subst.
    destruct (list_log f path Hl _ _ _ _ E) as (m & Em).
    rewrite (Hf _ _ _ _ _ _ E0). { rewrite (IH _ _ _ E HF). auto. } rewrite Em in HF. eapply fine_pre; eauto.
  - destruct (walk_list eng f path todo _) as [s2 er] eqn:E. inversion H; subst. rewrite (IH _ _ _ E HF). auto.
Qed.
Lemma aggregate_log b es (s : wst V) : w_log (fst (build_aggregate b es s)) = w_log s.
Proof. unfold build_aggregate. destruct es as [|x [|y l]]; auto. Qed.
Lemma node_same : forall fuel path kr b data isr (s : wst V) s1 e,
  walk_node c inf eng yes fuel path kr b data isr s = (s1, e) -> fine (w_log s1) ->
  walk_node c inf eng acc fuel path kr b data isr s = (s1, e).
Proof.
  induction fuel as [|fuel IH]; intros path kr b data isr s s1 e H HF; cbn [walk_node] in *; auto.
  destruct (check_and_unpack_node c (mkblock b data) inf isr) as [[h ks vs|h ks vs]| |]; auto.
  - destruct (split_key_ranges kr ks) as [krs| |]; auto.
    destruct (see_children yes (path ++ [b]) krs vs s) as [[s0 e1] td] eqn:E1.
    destruct (walk_list eng _ (path ++ [b]) td s0) as [s2 e2] eqn:E2.
    assert (El : w_log s1 = w_log s2). { rewrite <- (aggregate_log b (e1 ++ e2) s2). rewrite H. auto. }
    destruct (list_log _ _ (fun kr0 b0 data0 s0 => node_log yes fuel (path ++ [b]) kr0 b0 data0 false s0) _ _ _ _ E2) as (m & Em).
    rewrite (see_same _ _ _ _ _ _ _ E1) by (rewrite El, Em in HF; eapply fine_pre; eauto).
    rewrite (list_same _ (fun kr0 b0 data0 s0 => walk_node c inf eng acc fuel (path ++ [b]) kr0 b0 data0 false s0) _
       (fun kr0 b0 data0 s0 => node_log yes fuel (path ++ [b]) kr0 b0 data0 false s0)
       (fun kr0 b0 data0 s0 s1 e => IH (path ++ [b]) kr0 b0 data0 false s0 s1 e) _ _ _ _ E2); auto. rewrite <- El. auto.
  - cbn [call] in *. inversion H; subst. rewrite HF; auto. cbn [w_log]. apply in_or_app. right. left. auto.
Qed.
Lemma walk_same path root (s : wst V) s1 : walk c inf eng yes path root s = (s1, None) -> fine (w_log s1) ->
  walk c inf eng acc path root s = (s1, None).
Proof.
  intros H HF. unfold walk in *. destruct (w_sm_inc root s) as [s0 [rc| |]]; auto.
  destruct (0 <? rc).
  - destruct (w_fail s0 root); [cbn in H; inversion H|]. cbn [call] in *. inversion H; subst.
    rewrite HF; auto. cbn [w_log]. apply in_or_app. left. apply in_or_app. right. left. auto.
  - destruct (eng root) as [data|]; auto. cbn [call] in *.
    destruct (walk_node c inf eng yes _ path full_range root data true s0) as [s2 e] eqn:E.
    destruct e as [e|]; [inversion H|]. inversion H; subst.
    rewrite (node_same _ _ _ _ _ _ _ _ _ E); auto. cbn [w_log] in HF. eapply fine_pre; eauto.
Qed.
End Accept.

(** ** The index of an array *)
Lemma last_range a e : a < e -> List.last (range a e) 0 = e - 1.
Proof.
  intros H. replace (range a e) with (range a (e - 1) ++ [e - 1]); [apply last_last|].
  rewrite (range_app a (e - 1) e) by lia. rewrite (range_cons (e - 1) e), (range_nil (e - 1 + 1)) by lia. auto.
Qed.
Lemma combine_range_split : forall ks (vs bs : list N) rest a, length ks = length vs ->
  combine ks vs ++ rest = combine (range a (a + nlen bs)) bs ->
  exists bs', ks = range a (a + nlen ks) /\ bs = vs ++ bs' /\ rest = combine (range (a + nlen ks) (a + nlen bs)) bs'.
Proof.
  induction ks as [|k ks IH]; intros vs bs rest a Hl H.
  - destruct vs; [|discriminate]. cbn [combine app] in H. exists bs. unfold nlen at 1 2. cbn [length N.of_nat]. rewrite N.add_0_r, range_nil by lia. auto.
  - destruct vs as [|v vs]; [discriminate|]. cbn [combine app] in H. destruct bs as [|b bs].
    { destruct (range a (a + nlen (@nil N))); discriminate. }
    assert (Hnl : nlen (b :: bs) = 1 + nlen bs) by (unfold nlen; cbn [length]; lia).
    rewrite (range_cons a) in H by lia. cbn [combine] in H. injection H as -> -> H.
    replace (a + nlen (b :: bs)) with (a + 1 + nlen bs) in H by lia.
    destruct (IH vs bs rest (a + 1)) as (bs' & E1 & E2 & E3); [cbn in Hl; lia|auto|].
    assert (Hnk : nlen (a :: ks) = 1 + nlen ks) by (unfold nlen; cbn [length]; lia).
    exists bs'. rewrite (range_cons a) by lia. conj.
    + f_equal. rewrite Hnk. replace (a + (1 + nlen ks)) with (a + 1 + nlen ks) by lia. auto.
    + cbn. congruence.
    + rewrite E3. f_equal. f_equal; lia.
Qed.
Lemma index_calls : forall calls (bs : list N) a, Forall leaf_call calls -> ends calls None ->
  flat_map call_entries calls = combine (range a (a + nlen bs)) bs -> a + nlen bs < 2 ^ 64 ->
  accepted calls = combine (range a (a + nlen bs)) bs /\ forall x log, In x calls -> av_accepts log x = true.
Proof.
  induction calls as [|x calls IH]; intros bs a HL HE HF Ha.
  - split; [exact HF|]. intros ? ? [] .
  - inversion HL as [|? ? Hx HL']; subst. destruct x as [path kr h ks vs| |]; cbn [leaf_call] in Hx; try tauto.
    destruct Hx as [Hlen _]. cbn [ends call_end] in HE. destruct HE as [HE1 HE2].
    cbn [flat_map call_entries] in HF. destruct (combine_range_split _ _ _ _ _ Hlen HF) as (bs' & Ek & Eb & Er).
    assert (Hnb : nlen bs = nlen ks + nlen bs') by (rewrite Eb; unfold nlen; rewrite app_length, Hlen; lia).
    assert (Hk : keys_ok kr ks = true).
    { unfold keys_ok. destruct ks as [|k0 ks']; auto. set (ks := k0 :: ks') in *.
      assert (0 < nlen ks) by (unfold ks, nlen; cbn; lia).
      assert (Ek0 : k0 = a). { rewrite (range_cons a) in Ek by lia. unfold ks in Ek. injection Ek as -> _. auto. }
      assert (El : List.last ks 0 = a + nlen ks - 1). { rewrite Ek at 1. rewrite last_range by lia. auto. }
      cbv zeta. rewrite El, Ek0. replace (a + nlen ks - 1 + 1) with (a + nlen ks) by lia. rewrite N.eqb_refl. cbn [andb].
      rewrite HE1, Er. destruct bs' as [|b bs'].
      - replace (nlen (@nil N)) with 0 in Hnb by reflexivity. rewrite range_nil by lia. reflexivity.
      - rewrite range_cons by (rewrite Hnb; unfold nlen; cbn [length]; lia). cbn [combine next_key].
        apply N.eqb_eq. apply N.mod_small. unfold W64. change (2 ^ 64) with 18446744073709551616 in Ha. lia. }
    destruct (IH bs' (a + nlen ks)) as [J1 J2]; auto.
    { rewrite Er. f_equal. f_equal. lia. } { lia. }
    split.
    + unfold accepted in *. cbn [flat_map]. rewrite Hk, J1. rewrite <- HF, Er. f_equal. f_equal. f_equal. lia.
    + intros x log [<-|Hx]; auto. 
Qed.

Lemma array_walk_index {V S} (c : codec V) inf eng (visit : S -> N -> array_block V -> S * bool) nr d depth root blocks foot s :
  tree u64_codec d true depth root (combine (range 0 (nlen blocks)) blocks) foot -> NoDup foot ->
  nr < 2 ^ 64 -> nlen blocks < 2 ^ 64 -> (forall b, In b foot -> b < nr /\ eng b = Some (d b)) ->
  array_walk c inf eng visit nr root s = visit_array_blocks c eng visit s (combine (range 0 (nlen blocks)) blocks).
Proof.
  intros HT HN Hnr Hk Hf. unfold array_walk.
  destruct (undamaged_walk u64_codec inf eng d depth root _ foot [0] (walker_new nr) HT HN) as (s' & calls & E & L & K & KL & KE & _ & _).
  - rewrite map_fst_combine; [apply range_increasing|]. rewrite range_length. unfold nlen. lia.
  - unfold map_ok, walker_new, rsm_new. cbn [w_sm wsm_nr wmax wcount r_nr r_bits]. split; [auto|split; [lia|intros; lia]].
  - intros b Hb. cbn. destruct (Hf b Hb). auto.
  - destruct (index_calls calls blocks 0 KL KE) as [J1 J2]. { rewrite N.add_0_l. auto. } { lia. }
    rewrite N.add_0_l in J1. cbn [walker_new w_log app] in L.
    erewrite walk_same; [|exact E|].
    + rewrite L. unfold accepted at 1. rewrite flat_map_app. fold (accepted calls). cbn [flat_map]. rewrite app_nil_r, J1.
      destruct (visit_array_blocks _ _ _ _ _) as [s2 es]. rewrite app_nil_r. auto.
    + rewrite L. intros x log Hx. apply in_app_or in Hx as [Hx|[<-|[]]]; auto.
Qed.

(** ** Words and bits *)
Lemma set_word_spec begin w k : forall f x, set_word f begin w k x =
  if (begin <=? x) && (x <? begin + N.of_nat k) then Some (N.testbit w (x - begin)) else f x.
Proof.
  induction k as [|k IH]; intros f x; cbn [set_word].
  - destruct (N.leb_spec begin x), (N.ltb_spec x (begin + N.of_nat 0)); cbn [andb]; auto; lia.
  - rewrite upd_spec, IH. destruct (N.eqb_spec x (begin + N.of_nat k)) as [->|Hne].
    + destruct (N.leb_spec begin (begin + N.of_nat k)); [|lia]. destruct (N.ltb_spec (begin + N.of_nat k) (begin + N.of_nat (S k))); [|lia].
      cbn [andb]. do 2 f_equal. lia.
    + destruct (N.leb_spec begin x), (N.ltb_spec x (begin + N.of_nat k)), (N.ltb_spec x (begin + N.of_nat (S k))); cbn [andb]; auto; lia.
Qed.
(** The words [ws] from bit [begin] on, cut at [nr_bits]. *)
Definition bit_of (ws : list N) (i : N) : bool := N.testbit (nth (N.to_nat (i / 64)) ws 0) (i mod 64).
Lemma bit_of_cons w ws i : bit_of (w :: ws) i = if i <? 64 then N.testbit w i else bit_of ws (i - 64).
Proof.
  unfold bit_of. destruct (N.ltb_spec i 64).
  - rewrite N.div_small, N.mod_small by lia. reflexivity.
  - replace i with (i - 64 + 1 * 64) at 1 2 by lia. rewrite N.div_add, N.mod_add by lia.
    replace (N.to_nat ((i - 64) / 64 + 1)) with (S (N.to_nat ((i - 64) / 64))) by lia. reflexivity.
Qed.
Lemma set_words_spec nr : forall ws f begin x, begin + 64 * nlen ws < 2 ^ 64 ->
  set_words nr f begin ws x =
  if (begin <=? x) && (x <? N.min (begin + 64 * nlen ws) nr) then Some (bit_of ws (x - begin)) else f x.
Proof.
  induction ws as [|w ws IH]; intros f begin x Hb; cbn [set_words].
  - replace (nlen (@nil N)) with 0 by reflexivity.
    destruct (N.leb_spec begin x), (N.ltb_spec x (N.min (begin + 64 * 0) nr)); cbn [andb]; auto; lia.
  - assert (Hl : nlen (w :: ws) = 1 + nlen ws) by (unfold nlen; cbn [length]; lia). rewrite Hl in *.
    assert (Em : (begin + 64) mod W64 = begin + 64). { apply N.mod_small. change W64 with (2 ^ 64). lia. }
    rewrite Em, IH by lia. rewrite set_word_spec, bit_of_cons.
    destruct (N.leb_spec (begin + 64) x) as [H1|H1].
    + destruct (N.leb_spec begin x); [|lia]. destruct (N.ltb_spec (x - begin) 64); [lia|]. cbn [andb].
      replace (begin + 64 * (1 + nlen ws)) with (begin + 64 + 64 * nlen ws) by lia.
      destruct (x <? N.min (begin + 64 + 64 * nlen ws) nr) eqn:Ex.
      * do 2 f_equal. lia.
      * destruct (N.ltb_spec x (begin + N.of_nat (N.to_nat (N.min (begin + 64) nr - begin)))); [lia|auto].
    + cbn [andb]. destruct (N.leb_spec begin x); cbn [andb]; auto. destruct (N.ltb_spec (x - begin) 64); [|lia].
      destruct (N.ltb_spec x (begin + N.of_nat (N.to_nat (N.min (begin + 64) nr - begin)))), (N.ltb_spec x (N.min (begin + 64 * (1 + nlen ws)) nr)); auto; lia.
Qed.

(** ** Checked reading *)
Lemma unpack_array_facts {V} (c : codec V) data a : unpack_array_block c data = Ok a ->
  nlen (ab_values a) = ah_nr (ab_hdr a) /\ ah_nr (ab_hdr a) <= ah_max (ab_hdr a).
Proof.
  unfold unpack_array_block. intros H. Pack_Proofs.inv_bind H. destruct a0 as [h i].
  destruct (negb _); [discriminate|]. destruct (4096 <? _); [discriminate|]. destruct (N.ltb_spec (ah_max h) (ah_nr h)); [discriminate|].
  Pack_Proofs.inv_bind H. destruct a0 as [vs r]. apply Pack_Proofs.Ok_inj in H. subst a. cbn [ab_values ab_hdr].
  apply BtreeRead_Proofs.p_count_length in E0. unfold nlen. split; lia.
Qed.

Section Checked.
Variable eng : N -> option (list N).
Variable nr_bits : N.
(** Blocks say that they have room for 509 words, as the builder (and the kernel) make them. *)
Definition std_block (b : N) : Prop := forall data a, eng b = Some data -> unpack_array_block u64_codec data = Ok a -> ah_max (ab_hdr a) = 509.

Lemma checked_blocks : forall bs i f, Forall std_block bs -> (i + nlen bs) * 509 * 64 < 2 ^ 64 ->
  let '(f', es) := visit_array_blocks u64_codec eng (bv_visit nr_bits) f (combine (range i (i + nlen bs)) bs) in
  es = flat_map (block_errors eng nr_bits) (combine (range i (i + nlen bs)) bs) /\
  forall x, f' x = if (i * 509 * 64 <=? x) && (x <? nr_bits)
                   then match stored_bit eng bs (x - i * 509 * 64) with Some v => Some v | None => f x end else f x.
Proof.
  induction bs as [|b bs IH]; intros i f HS Hlt.
  - unfold stored_bit. cbn [combine]. destruct (range i (i + nlen (@nil N))); cbn; split; auto; intros x;
      destruct ((i * 509 * 64 <=? x) && (x <? nr_bits)); auto; destruct (N.to_nat _); auto.
  - inversion HS as [|? ? Hb HS']; subst.
    assert (Hl : nlen (b :: bs) = 1 + nlen bs) by (unfold nlen; cbn [length]; lia). rewrite Hl in *.
    rewrite (range_cons i) by lia. replace (i + (1 + nlen bs)) with (i + 1 + nlen bs) in * by lia.
    cbn [combine visit_array_blocks flat_map].
    destruct (visit_array_block u64_codec eng (bv_visit nr_bits) f i b) as [f1 e] eqn:E1.
    specialize (IH (i + 1) f1 HS' ltac:(lia)).
    destruct (visit_array_blocks u64_codec eng (bv_visit nr_bits) f1 _) as [f2 es]. destruct IH as [-> IH].
    (* the block itself *)
    assert (Hone : match e with Some e => [e] | None => [] end = block_errors eng nr_bits (i, b) /\
       forall x, f1 x = if (i * 509 * 64 <=? x) && (x <? N.min nr_bits ((i + 1) * 509 * 64))
                        then match stored_bit eng (b :: bs) (x - i * 509 * 64) with Some v => Some v | None => f x end else f x).
    { unfold visit_array_block in E1. unfold block_errors. cbn [fst snd].
      assert (Hst : forall x, i * 509 * 64 <= x < (i + 1) * 509 * 64 ->
         stored_bit eng (b :: bs) (x - i * 509 * 64) =
         match block_words eng b with Some ws => option_map (fun w => N.testbit w ((x - i * 509 * 64) mod 64)) (nth_error ws (N.to_nat ((x - i * 509 * 64) / 64))) | None => None end).
      { intros x Hx. unfold stored_bit. rewrite (N.div_small (x - i * 509 * 64)) by lia. cbn [N.to_nat nth_error].
        rewrite (N.mod_small (x - i * 509 * 64) (509 * 64)) by lia. auto. }
      assert (Hnone : block_words eng b = None -> forall x, f x = if (i * 509 * 64 <=? x) && (x <? N.min nr_bits ((i + 1) * 509 * 64))
                        then match stored_bit eng (b :: bs) (x - i * 509 * 64) with Some v => Some v | None => f x end else f x).
      { intros Hn x. destruct (N.leb_spec (i * 509 * 64) x), (N.ltb_spec x (N.min nr_bits ((i + 1) * 509 * 64))); cbn [andb]; auto.
        rewrite Hst, Hn by lia. auto. }
      destruct (eng b) as [data|] eqn:Eb.
      2:{ injection E1 as <- <-. split; auto. apply Hnone. unfold block_words. rewrite Eb. auto. }
      unfold block_words in *. rewrite Eb in *.
      destruct (metadata_block_type data) eqn:Ebt; try (injection E1 as <- <-; split; auto; apply Hnone; rewrite Ebt; auto).
      destruct (unpack_array_block u64_codec data) as [a| |] eqn:Eu; try (injection E1 as <- <-; split; auto; fail).
      destruct (unpack_array_facts _ _ _ Eu) as [Hv1 Hv2]. pose proof (Hb data a Eb Eu) as Hm.
      unfold bv_visit in E1. rewrite Hm in *.
      rewrite N.mod_small in E1 by (change W64 with (2 ^ 64); lia).
      destruct (N.leb_spec nr_bits (i * 509 * 64)) as [Hr|Hr]; injection E1 as <- <-; split; auto; intros x.
      - destruct (N.leb_spec (i * 509 * 64) x), (N.ltb_spec x (N.min nr_bits ((i + 1) * 509 * 64))); cbn [andb]; auto; lia.
      - rewrite set_words_spec by lia.
        destruct (N.leb_spec (i * 509 * 64) x) as [H1|H1]; cbn [andb]; auto.
        destruct (N.ltb_spec x (N.min (i * 509 * 64 + 64 * nlen (ab_values a)) nr_bits)) as [H2|H2].
        + destruct (N.ltb_spec x (N.min nr_bits ((i + 1) * 509 * 64))); [|lia]. rewrite Hst by lia.
          set (y := x - i * 509 * 64) in *. assert (y / 64 < nlen (ab_values a)) by (apply N.div_lt_upper_bound; lia).
          rewrite (nth_error_nth' _ 0) by (unfold nlen in *; lia). cbn [option_map]. reflexivity.
        + destruct (N.ltb_spec x (N.min nr_bits ((i + 1) * 509 * 64))); auto. rewrite Hst by lia.
          set (y := x - i * 509 * 64) in *. assert (nlen (ab_values a) <= y / 64) by (apply N.div_le_lower_bound; lia).
          rewrite (proj2 (nth_error_None _ _)) by (unfold nlen in *; lia). auto. }
    destruct Hone as [He Hf1]. split.
    + rewrite <- He. destruct e; auto.
    + intros x. rewrite IH.
      assert (Hsh : (i + 1) * 509 * 64 <= x -> stored_bit eng (b :: bs) (x - i * 509 * 64) = stored_bit eng bs (x - (i + 1) * 509 * 64)).
      { intros Hx. unfold stored_bit. replace (x - i * 509 * 64) with (x - (i + 1) * 509 * 64 + 1 * (509 * 64)) by lia.
        set (y := x - (i + 1) * 509 * 64). rewrite N.div_add, N.mod_add by lia.
        replace (N.to_nat (y / (509 * 64) + 1)) with (S (N.to_nat (y / (509 * 64)))) by lia. cbn [nth_error].
        replace ((y + 1 * (509 * 64)) mod 64) with (y mod 64); auto.
        replace (1 * (509 * 64)) with (509 * 64) by lia. rewrite N.mod_add by lia. auto. }
      destruct (N.leb_spec ((i + 1) * 509 * 64) x) as [H1|H1].
      * destruct (N.leb_spec (i * 509 * 64) x); [|lia]. cbn [andb]. rewrite Hf1, Hsh by auto.
        destruct (N.ltb_spec x (N.min nr_bits ((i + 1) * 509 * 64))); [lia|]. rewrite Bool.andb_false_r. auto.
      * cbn [andb]. rewrite Hf1. destruct (N.leb_spec (i * 509 * 64) x); cbn [andb]; auto.
        destruct (N.ltb_spec x nr_bits), (N.ltb_spec x (N.min nr_bits ((i + 1) * 509 * 64))); auto; lia.
Qed.
End Checked.

(** ** The unchecked reader *)
Lemma vec_set_ok {A} (l : list A) i v : i < nlen l -> exists l', vec_set l i v = Ok l' /\ length l' = length l /\
  forall j d, nth j l' d = if Nat.eqb j (N.to_nat i) then v else nth j l d.
Proof.
  intros H. unfold vec_set. apply N.ltb_lt in H as H'. rewrite H'. eexists. split; [reflexivity|].
  unfold nlen in H. assert (Hl : length (firstn (N.to_nat i) l) = N.to_nat i) by (rewrite firstn_length; lia). split.
  - rewrite app_length. cbn [length]. rewrite Hl, skipn_length. lia.
  - intros j d. destruct (Nat.eqb_spec j (N.to_nat i)) as [->|Hne].
    + rewrite app_nth2 by lia. rewrite Hl, Nat.sub_diag. auto.
    + destruct (Nat.lt_ge_cases j (N.to_nat i)) as [Hj|Hj].
      * rewrite app_nth1 by lia. rewrite <- (firstn_skipn (N.to_nat i) l) at 2. rewrite app_nth1 by lia. auto.
      * rewrite app_nth2 by lia. rewrite Hl. destruct (j - N.to_nat i)%nat as [|k] eqn:Ek; [lia|]. cbn [nth].
        replace j with (S (N.to_nat i) + k)%nat by lia. symmetry. rewrite <- (firstn_skipn (S (N.to_nat i)) l) at 1.
        rewrite app_nth2 by (rewrite firstn_length; lia). f_equal. rewrite firstn_length. lia.
Qed.
Lemma nlen_eq {A B} (a : list A) (b : list B) : length a = length b -> nlen a = nlen b.
Proof. unfold nlen. intros ->. auto. Qed.

(** The 32-bit halves of a list of 64-bit words. *)
Definition half (ws : list N) (k : N) : N :=
  if k mod 2 =? 0 then N.land (nth (N.to_nat (k / 2)) ws 0) (W32 - 1) else N.shiftr (nth (N.to_nat (k / 2)) ws 0) 32.
Lemma half_cons w ws k : half (w :: ws) k = if k =? 0 then N.land w (W32 - 1) else if k =? 1 then N.shiftr w 32 else half ws (k - 2).
Proof.
  unfold half. destruct (N.eqb_spec k 0) as [->|H0]; [reflexivity|]. destruct (N.eqb_spec k 1) as [->|H1]; [reflexivity|].
  remember (k - 2) as y. assert (k = y + 1 * 2) as -> by lia. rewrite N.div_add, N.mod_add by lia.
  replace (N.to_nat (y / 2 + 1)) with (S (N.to_nat (y / 2))) by lia. reflexivity.
Qed.
Lemma put_words_spec nr_bits : forall ws bs idx, nlen bs = div_up nr_bits 32 -> idx + 2 * nlen ws <= nlen bs + 1 ->
  exists bs', put_words nr_bits bs idx ws = (bs', true) /\ length bs' = length bs /\
    forall j, nth j bs' 0 = if (idx <=? N.of_nat j) && (N.of_nat j <? idx + 2 * nlen ws) && (N.of_nat j <? nlen bs)
                            then half ws (N.of_nat j - idx) else nth j bs 0.
Proof.
  induction ws as [|w ws IH]; intros bs idx HL Hi; cbn [put_words].
  - exists bs. conj; auto. intros j. replace (nlen (@nil N)) with 0 by reflexivity.
    destruct (N.leb_spec idx (N.of_nat j)), (N.ltb_spec (N.of_nat j) (idx + 2 * 0)); cbn [andb]; auto; lia.
  - assert (Hl : nlen (w :: ws) = 1 + nlen ws) by (unfold nlen; cbn [length]; lia). rewrite Hl in *.
    destruct (vec_set_ok bs idx (N.land w (W32 - 1))) as (b1 & -> & L1 & N1); [lia|].
    pose proof (nlen_eq _ _ L1) as Ln1.
    destruct (N.eqb_spec (idx + 1) (div_up nr_bits 32)) as [Hend|Hend].
    + exists b1. conj; auto. intros j. rewrite N1, half_cons.
      destruct (Nat.eqb_spec j (N.to_nat idx)) as [->|Hj].
      * rewrite N2Nat.id. destruct (N.leb_spec idx idx); [|lia]. destruct (N.ltb_spec idx (idx + 2 * (1 + nlen ws))); [|lia].
        destruct (N.ltb_spec idx (nlen bs)); [|lia]. cbn [andb]. rewrite N.sub_diag. auto.
      * destruct (N.leb_spec idx (N.of_nat j)), (N.ltb_spec (N.of_nat j) (nlen bs)); cbn [andb]; rewrite ?Bool.andb_false_r; auto. lia.
    + destruct (vec_set_ok b1 (idx + 1) (N.shiftr w 32)) as (b2 & -> & L2 & N2); [lia|].
      pose proof (nlen_eq _ _ L2) as Ln2.
      destruct (IH b2 (idx + 2)) as (b3 & -> & L3 & N3); [lia|lia|].
      exists b3. conj; [auto|lia|]. intros j. rewrite N3, N2, N1, half_cons, Ln2, Ln1.
      destruct (N.leb_spec (idx + 2) (N.of_nat j)) as [H1|H1].
      * replace (idx + 2 + 2 * nlen ws) with (idx + 2 * (1 + nlen ws)) by lia.
        destruct (N.leb_spec idx (N.of_nat j)); [|lia]. cbn [andb].
        destruct (Nat.eqb_spec j (N.to_nat (idx + 1))); [lia|]. destruct (Nat.eqb_spec j (N.to_nat idx)); [lia|].
        destruct (N.eqb_spec (N.of_nat j - idx) 0); [lia|]. destruct (N.eqb_spec (N.of_nat j - idx) 1); [lia|].
        replace (N.of_nat j - (idx + 2)) with (N.of_nat j - idx - 2) by lia. auto.
      * cbn [andb]. destruct (Nat.eqb_spec j (N.to_nat (idx + 1))) as [Ej|Ej].
        { destruct (N.leb_spec idx (N.of_nat j)); [|lia]. destruct (N.ltb_spec (N.of_nat j) (idx + 2 * (1 + nlen ws))); [|lia].
          destruct (N.ltb_spec (N.of_nat j) (nlen bs)); [|lia]. cbn [andb].
          destruct (N.eqb_spec (N.of_nat j - idx) 0); [lia|]. destruct (N.eqb_spec (N.of_nat j - idx) 1); [auto|lia]. }
        destruct (Nat.eqb_spec j (N.to_nat idx)) as [Ek|Ek].
        { destruct (N.leb_spec idx (N.of_nat j)); [|lia]. destruct (N.ltb_spec (N.of_nat j) (idx + 2 * (1 + nlen ws))); [|lia].
          destruct (N.ltb_spec (N.of_nat j) (nlen bs)); [|lia]. cbn [andb].
          destruct (N.eqb_spec (N.of_nat j - idx) 0); [auto|lia]. }
        destruct (N.leb_spec idx (N.of_nat j)); [lia|auto].
Qed.

Lemma half_bit ws i : Forall (fun w => w < 2 ^ 64) ws -> N.testbit (half ws (i / 32)) (i mod 32) = bit_of ws i.
Proof.
  intros HW. unfold half, bit_of.
  assert (E1 : i / 32 / 2 = i / 64) by (rewrite N.div_div by lia; auto). rewrite E1.
  set (w := nth (N.to_nat (i / 64)) ws 0).
  destruct (N.eqb_spec (i / 32 mod 2) 0) as [H|H].
  - rewrite N.land_spec. change (W32 - 1) with (N.ones 32). rewrite N.ones_spec_low by (apply N.mod_lt; lia). rewrite Bool.andb_true_r.
    f_equal. dlia.
  - rewrite N.shiftr_spec by lia. f_equal. dlia.
Qed.

Lemma half_app a b k : half (a ++ b) k = if k <? 2 * nlen a then half a k else half b (k - 2 * nlen a).
Proof.
  unfold half, nlen. destruct (N.ltb_spec k (2 * N.of_nat (length a))) as [H|H].
  - assert (k / 2 < N.of_nat (length a)) by (apply N.div_lt_upper_bound; lia). rewrite !app_nth1 by lia. auto.
  - remember (k - 2 * N.of_nat (length a)) as y. assert (k = y + N.of_nat (length a) * 2) as -> by lia.
    rewrite N.div_add, N.mod_add by lia. rewrite !app_nth2 by lia.
    replace (N.to_nat (y / 2 + N.of_nat (length a)) - length a)%nat with (N.to_nat (y / 2)) by lia. auto.
Qed.
Lemma half_beyond ws k : 2 * nlen ws <= k -> half ws k = 0.
Proof.
  intros H. unfold half. assert (nlen ws <= k / 2) by (apply N.div_le_lower_bound; lia). rewrite nth_overflow by (unfold nlen in *; lia).
  destruct (_ =? 0); auto.
Qed.

Lemma collect_blocks eng d nr_bits : forall blocks vss i bs,
  Forall2 (array_block_at u64_codec d) blocks vss -> (forall b, In b blocks -> eng b = Some (d b)) ->
  nlen bs = div_up nr_bits 32 -> (i + nlen blocks) * 1018 < 2 ^ 64 ->
  (forall j, (S j < length vss)%nat -> nlen (nth j vss []) = 509) ->
  i * 1018 + 2 * nlen (concat vss) <= nlen bs + 1 ->
  exists bs', visit_array_blocks u64_codec eng (bc_visit nr_bits) bs (combine (range i (i + nlen blocks)) blocks) = (bs', []) /\
    length bs' = length bs /\
    forall j, nth j bs' 0 = if (i * 1018 <=? N.of_nat j) && (N.of_nat j <? i * 1018 + 2 * nlen (concat vss)) && (N.of_nat j <? nlen bs)
                            then half (concat vss) (N.of_nat j - i * 1018) else nth j bs 0.
Proof.
  intros blocks vss i bs HF. revert i bs. induction HF as [|b vs blocks vss Hb HF IH]; intros i bs He HL Hlt Hfull Hfit.
  - exists bs. cbn [combine]. destruct (range i (i + nlen (@nil N))); cbn [combine visit_array_blocks]; conj; auto; intros j;
      cbn [concat]; replace (nlen (@nil N)) with 0 by reflexivity;
      destruct (N.leb_spec (i * 1018) (N.of_nat j)), (N.ltb_spec (N.of_nat j) (i * 1018 + 2 * 0)); cbn [andb]; auto; lia.
  - assert (Hl : nlen (b :: blocks) = 1 + nlen blocks) by (unfold nlen; cbn [length]; lia). rewrite Hl in *.
    rewrite (range_cons i) by lia. replace (i + (1 + nlen blocks)) with (i + 1 + nlen blocks) in * by lia.
    cbn [combine visit_array_blocks]. unfold visit_array_block. rewrite He by (left; auto).
    destruct Hb as (_ & _ & Hty & Hun). rewrite Hty, Hun.
    replace (bc_visit nr_bits bs i _) with (put_words nr_bits bs ((i * 509 * 2) mod W64) vs) by reflexivity.
    replace (i * 509 * 2) with (i * 1018) by lia. rewrite N.mod_small by (change W64 with (2 ^ 64); lia).
    cbn [concat] in Hfit. assert (Hna : nlen (vs ++ concat vss) = nlen vs + nlen (concat vss)) by (unfold nlen; rewrite app_length; lia).
    rewrite Hna in Hfit.
    destruct (put_words_spec nr_bits vs bs (i * 1018) HL ltac:(lia)) as (b1 & -> & L1 & N1). cbv beta iota. pose proof (nlen_eq _ _ L1) as Ln1.
    assert (Hdone : blocks = [] \/ nlen vs = 509).
    { destruct blocks; auto. right. inversion HF; subst. apply (Hfull 0%nat). cbn. lia. }
    destruct Hdone as [->|H509].
    + inversion HF; subst. cbn [combine]. replace (combine (range (i + 1) (i + 1 + nlen [])) []) with (@nil (N * N)) by (destruct (range _ _); auto).
      cbn [visit_array_blocks]. exists b1. conj; auto. intros j. rewrite N1. cbn [concat]. rewrite app_nil_r. auto.
    + destruct (IH (i + 1) b1) as (b2 & Evv & L2 & N2); [..|rewrite Evv].
      * intros x Hx. apply He. right. auto.
      * lia.
      * lia.
      * intros j Hj. apply (Hfull (S j)). cbn [length]. lia.
      * rewrite Ln1. lia.
      * exists b2. conj; auto; [lia|]. intros j. rewrite N2, N1, Ln1. cbn [concat]. rewrite Hna, half_app.
        replace ((i + 1) * 1018) with (i * 1018 + 1018) by lia.
        destruct (N.leb_spec (i * 1018 + 1018) (N.of_nat j)) as [H1|H1].
        -- destruct (N.leb_spec (i * 1018) (N.of_nat j)); [|lia]. cbn [andb].
           replace (i * 1018 + 2 * (nlen vs + nlen (concat vss))) with (i * 1018 + 1018 + 2 * nlen (concat vss)) by lia.
           destruct (N.ltb_spec (N.of_nat j - i * 1018) (2 * nlen vs)); [lia|].
           replace (N.of_nat j - i * 1018 - 2 * nlen vs) with (N.of_nat j - (i * 1018 + 1018)) by lia.
           destruct (N.ltb_spec (N.of_nat j) (i * 1018 + 1018 + 2 * nlen (concat vss))), (N.ltb_spec (N.of_nat j) (nlen bs)); cbn [andb]; auto;
             destruct (N.ltb_spec (N.of_nat j) (i * 1018 + 2 * nlen vs)); cbn [andb]; auto; lia.
        -- cbn [andb]. destruct (N.leb_spec (i * 1018) (N.of_nat j)); cbn [andb]; auto.
           destruct (N.ltb_spec (N.of_nat j) (i * 1018 + 2 * nlen vs)); [|lia].
           destruct (N.ltb_spec (N.of_nat j) (i * 1018 + 2 * (nlen vs + nlen (concat vss)))); [|lia].
           destruct (N.ltb_spec (N.of_nat j - i * 1018) (2 * nlen vs)); [|lia]. auto.
Qed.
