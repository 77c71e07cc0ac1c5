(** cache/writeback.rs: reading the metadata and choosing the blocks. *)
From Verif Require Import Base IoMany_Proofs Csum_Model Codec_Model Codec_Spec Codec_Proofs Pack_Proofs SpaceMap_Model SmWrite_Model SmMeta_Proofs Utils_Model Utils_Proofs Batcher_Model Builder_Model Builder_Spec Builder_Proofs BtreeBuild_Proofs Walker_Model Walker_Spec Walker_Proofs WalkTree_Proofs Props_Walker Array_Model Array_Spec Array_Proofs ArrayWalk_Proofs Props_Array Copier_Model Writeback_Model Writeback_Spec.

Lemma value_vec nr eng d depth root blocks foot inf :
  tree u64_codec d true depth root (combine (range 0 (nlen blocks)) blocks) foot -> NoDup foot -> nr < 2 ^ 64 ->
  (forall b, In b foot -> b < nr /\ eng b = Some (d b)) ->
  btree_to_value_vec u64_codec nr eng inf root = Ok blocks.
Proof.
  intros HT HN Hnr Hf. unfold btree_to_value_vec.
  destruct (undamaged_walk u64_codec inf eng d depth root _ foot [0] (walker_new nr) HT HN) as (s' & calls & E & L & K & KL & _ & _ & _).
  - rewrite map_fst_combine; [apply range_increasing|]. rewrite range_length. unfold nlen. lia.
  - unfold map_ok, walker_new, rsm_new. cbn [w_sm wsm_nr wmax wcount r_nr r_bits]. split; [auto|split; [lia|intros; lia]].
  - intros b Hb. cbn. destruct (Hf b Hb). auto.
  - unfold accept_all in E. rewrite E. f_equal. rewrite L. cbn [walker_new w_log app]. rewrite flat_map_app. cbn [flat_map]. rewrite app_nil_r.
    assert (G : forall calls, Forall leaf_call calls -> flat_map (fun x => match x with CVisit _ _ _ _ vs => vs | _ => [] end) calls = map snd (flat_map (@call_entries N) calls)).
    { clear. induction calls as [|x l IH]; intros H; [reflexivity|]. inversion H as [|? ? Hx Hl]; subst. cbn [flat_map]. rewrite map_app, <- IH by auto.
      destruct x as [p kr h ks vs| |]; cbn [leaf_call call_entries] in *; try tauto. destruct Hx as [Hx _].
      f_equal. clear - Hx. revert vs Hx. induction ks as [|k ks IH]; intros [|v vs] Hx; cbn [length] in Hx; try lia; [reflexivity|]. cbn [combine map snd]. f_equal. apply IH. lia. }
    rewrite G, K by auto. assert (Hl : length blocks = length (range 0 (nlen blocks))) by (rewrite range_length; unfold nlen; lia).
    clear - Hl. revert Hl. generalize (range 0 (nlen blocks)). intros ks. revert blocks. induction ks as [|k ks IH]; intros [|v vs] Hx; cbn [length] in Hx; try lia; [reflexivity|]. cbn [combine map snd]. f_equal. apply IH. lia.
Qed.

(** ** Walking intact array blocks *)
Definition blk_of {V} (c : codec V) (b : N) (vs : list V) : array_block V := mkab (mkah (array_per c) (nlen vs) (N.of_nat (csize c)) b) vs.
Lemma visit_cons {V S} (c : codec V) eng (visit : S -> N -> array_block V -> S * bool) d s i b vs kvs s1 :
  array_block_at c d b vs -> eng b = Some (d b) -> visit s i (blk_of c b vs) = (s1, true) ->
  visit_array_blocks c eng visit s ((i, b) :: kvs) = visit_array_blocks c eng visit s1 kvs.
Proof.
  intros (_ & _ & H3 & H4) He Hv. cbn [visit_array_blocks]. unfold visit_array_block. rewrite He, H3, H4. unfold blk_of, array_per in Hv. rewrite Hv.
  destruct (visit_array_blocks c eng visit s1 kvs). reflexivity.
Qed.

(** The blocks but the last are full. *)
Fixpoint packed_in (per : N) {V} (vss : list (list V)) : Prop :=
  match vss with
  | [] => True
  | vs :: r => vs <> [] /\ nlen vs <= per /\ (r <> [] -> nlen vs = per) /\ packed_in per r
  end.
Lemma packed_of per {V} : forall (vss : list (list V)), 0 < per ->
  (forall j, (j < length vss)%nat -> nlen (nth j vss []) = N.min (nlen (concat vss) - N.of_nat j * per) per /\ nth j vss [] <> []) -> packed_in per vss.
Proof.
  induction vss as [|vs r IH]; intros Hp H; cbn [packed_in]; auto.
  destruct (H 0%nat ltac:(cbn; lia)) as [H1 H2]. cbn [nth] in H1, H2.
  assert (Hf : r <> [] -> nlen vs = per).
  { intros Hr. destruct (H 1%nat) as [H3 H4]. { cbn. destruct r; [congruence|cbn; lia]. }
    assert (nlen (nth 1 (vs :: r) []) <> 0) by (destruct (nth 1 (vs :: r) []); [congruence|unfold nlen; cbn; lia]). lia. }
  conj; auto; [lia|]. destruct r as [|x r]; [cbn; auto|]. apply IH; auto. specialize (Hf ltac:(discriminate)).
  intros j Hj. destruct (H (S j) ltac:(cbn in *; lia)) as [H3 H4]. change (nth (S j) (vs :: x :: r) []) with (nth j (x :: r) []) in H3, H4. split; auto. rewrite H3.
  change (concat (vs :: x :: r)) with (vs ++ concat (x :: r)). unfold nlen in *. rewrite app_length. lia.
Qed.
Lemma array_parts {V} (c : codec V) d root vs foot blocks : (0 < csize c <= 4072)%nat -> array_at c d root vs foot blocks ->
  exists depth vss, tree u64_codec d true depth root (combine (range 0 (nlen blocks)) blocks) foot /\
    Forall2 (array_block_at c d) blocks vss /\ concat vss = vs /\ packed_in (array_per c) vss.
Proof.
  intros Hc (depth & vss & H1 & H2 & <- & H4). exists depth, vss. conj; auto. apply packed_of; auto. apply array_per_pos; auto.
Qed.

Lemma combine_range_app {X} (a b : list X) s : combine (a ++ b) (range s (s + nlen (a ++ b))) =
  combine a (range s (s + nlen a)) ++ combine b (range (s + nlen a) (s + nlen a + nlen b)).
Proof.
  assert (E : nlen (a ++ b) = nlen a + nlen b) by (unfold nlen; rewrite app_length; lia). rewrite E.
  rewrite (range_app s (s + nlen a) (s + (nlen a + nlen b))) by lia. rewrite N.add_assoc.
  assert (Hl : length a = length (range s (s + nlen a))) by (rewrite range_length; unfold nlen; lia).
  revert Hl. generalize (range s (s + nlen a)) (range (s + nlen a) (s + nlen a + nlen b)). clear. intros ks rs. revert ks.
  induction a as [|x a IH]; intros [|k ks] Hl; cbn [length] in Hl; try lia; auto. cbn [combine app]. f_equal. apply IH. lia.
Qed.

(** The ops for mappings [ms] of the cache blocks from [a] on. *)
Definition sel_ops (sel : selector) (a : N) (ms : list cmapping) : list cop :=
  map (fun p => mkop (snd p) (cm_oblock (fst p)))
    (filter (fun p => cm_valid (fst p) && needs_writeback sel (snd p) (fst p)) (combine ms (range a (a + nlen ms)))).
Lemma per_cm : array_per cm_codec = 509. Proof. reflexivity. Qed.
Lemma wb_walk sel eng d : forall blocks vss i ops, Forall2 (array_block_at cm_codec d) blocks vss -> packed_in 509 vss ->
  i * 509 + nlen (concat vss) < W32 -> (forall b, In b blocks -> eng b = Some (d b)) ->
  visit_array_blocks cm_codec eng (wb_visit sel) ops (combine (range i (i + nlen blocks)) blocks) = (ops ++ sel_ops sel (i * 509) (concat vss), []).
Proof.
  induction blocks as [|b blocks IH]; intros vss i ops HF HP Hi He; inversion HF as [|? vs ? vss' Hb HF']; subst.
  - rewrite range_nil by (unfold nlen; cbn; lia). cbn [combine visit_array_blocks]. unfold sel_ops. cbn [concat combine filter map]. rewrite app_nil_r. auto.
  - assert (Hl : nlen (b :: blocks) = 1 + nlen blocks) by (unfold nlen; cbn [length]; lia). rewrite Hl, (range_cons i) by lia. cbn [combine].
    destruct HP as (P1 & P2 & P3 & P4). cbn [concat] in *. unfold sel_ops. rewrite combine_range_app, filter_app, map_app.
    assert (Hn : nlen (vs ++ concat vss') = nlen vs + nlen (concat vss')) by (unfold nlen; rewrite app_length; lia). rewrite Hn in Hi.
    erewrite visit_cons; [|exact Hb|apply He; left; auto|unfold wb_visit, blk_of; cbn [ab_hdr ah_max ah_nr ab_values]; rewrite per_cm, (N.mod_small (i * 509)), N.mod_small by lia; reflexivity].
    destruct vss' as [|v2 vss'].
    + inversion HF'; subst. cbn [concat]. rewrite (range_nil (i + 1)) by (unfold nlen; cbn; lia). cbn [combine visit_array_blocks filter map]. rewrite app_nil_r. reflexivity.
    + specialize (P3 ltac:(discriminate)). replace (i + (1 + nlen blocks)) with (i + 1 + nlen blocks) by lia.
      rewrite (IH (v2 :: vss')); auto; [|lia|intros x Hx; apply He; right; auto].
      rewrite P3. replace ((i + 1) * 509) with (i * 509 + 509) by lia. rewrite <- app_assoc. reflexivity.
Qed.
Lemma count_walk p eng d : forall blocks vss i n, Forall2 (array_block_at cm_codec d) blocks vss -> (forall b, In b blocks -> eng b = Some (d b)) ->
  visit_array_blocks cm_codec eng (count_visit p) n (combine (range i (i + nlen blocks)) blocks) = (n + nlen (filter (fun m => cm_valid m && p m) (concat vss)), []).
Proof.
  induction blocks as [|b blocks IH]; intros vss i n HF He; inversion HF as [|? vs ? vss' Hb HF']; subst.
  - rewrite range_nil by (unfold nlen; cbn; lia). cbn [combine visit_array_blocks concat filter]. f_equal. unfold nlen. cbn [length]. lia.
  - assert (Hl : nlen (b :: blocks) = 1 + nlen blocks) by (unfold nlen; cbn [length]; lia). rewrite Hl, (range_cons i) by lia. cbn [combine concat].
    erewrite visit_cons; [|exact Hb|apply He; left; auto|reflexivity].
    replace (i + (1 + nlen blocks)) with (i + 1 + nlen blocks) by lia.
    rewrite (IH vss'); auto; [|intros x Hx; apply He; right; auto]. unfold blk_of. cbn [ab_values]. f_equal.
    rewrite filter_app. unfold nlen. rewrite app_length. lia.
Qed.

(** ** Membership *)
Lemma in_combine_range {X} (l : list X) a x i : In (x, i) (combine l (range a (a + nlen l))) <-> a <= i /\ nth_error l (N.to_nat (i - a)) = Some x.
Proof.
  revert a. induction l as [|y l IH]; intros a.
  - cbn. split; [tauto|]. intros [_ H]. destruct (N.to_nat (i - a)); discriminate.
  - assert (Hl : nlen (y :: l) = 1 + nlen l) by (unfold nlen; cbn [length]; lia). rewrite Hl, (range_cons a) by lia. cbn [combine In].
    replace (a + (1 + nlen l)) with (a + 1 + nlen l) by lia. rewrite IH. split.
    + intros [H|[H1 H2]].
      * injection H as <- <-. split; [lia|]. rewrite N.sub_diag. reflexivity.
      * split; [lia|]. replace (N.to_nat (i - a)) with (S (N.to_nat (i - (a + 1)))) by lia. exact H2.
    + intros [H1 H2]. destruct (N.eq_dec i a) as [->|Hne].
      * left. rewrite N.sub_diag in H2. cbn in H2. injection H2 as <-. reflexivity.
      * right. split; [lia|]. replace (N.to_nat (i - a)) with (S (N.to_nat (i - (a + 1)))) in H2 by lia. exact H2.
Qed.
Lemma sel_ops_in sel ms op : In op (sel_ops sel 0 ms) <->
  exists m, nth_error ms (N.to_nat (c_src op)) = Some m /\ c_dst op = cm_oblock m /\ cm_valid m = true /\ needs_writeback sel (c_src op) m = true.
Proof.
  unfold sel_ops. rewrite in_map_iff. split.
  - intros ([m i] & <- & H). apply filter_In in H as [H1 H2]. apply in_combine_range in H1 as [_ H1]. cbn [fst snd c_src c_dst] in *.
    rewrite N.sub_0_r in H1. apply andb_prop in H2 as [H2 H3]. exists m. auto.
  - intros (m & H1 & H2 & H3 & H4). exists (m, c_src op). cbn [fst snd]. split; [destruct op; cbn in *; f_equal; auto|].
    apply filter_In. cbn [fst snd]. rewrite H3, H4. split; auto. apply in_combine_range. rewrite N.sub_0_r. split; [lia|auto].
Qed.
Lemma sel_ops_src sel : forall ms a, increasing (map c_src (sel_ops sel a ms)) /\ forall op, In op (sel_ops sel a ms) -> a <= c_src op < a + nlen ms.
Proof.
  induction ms as [|m ms IH]; intros a.
  - cbn. split; auto. intros op [].
  - unfold sel_ops. assert (Hl : nlen (m :: ms) = 1 + nlen ms) by (unfold nlen; cbn [length]; lia). rewrite Hl, (range_cons a) by lia. cbn [combine].
    replace (a + (1 + nlen ms)) with (a + 1 + nlen ms) by lia. destruct (IH (a + 1)) as [I1 I2]. unfold sel_ops in I1, I2.
    cbn [filter]. destruct (_ && _); cbn [map fst snd c_src c_dst].
    + split.
      * apply increasing_strong. split; [|exact I1]. intros x Hx. apply in_map_iff in Hx as (op & <- & Hop). apply I2 in Hop. lia.
      * intros op [<-|Hop]; [cbn; lia|]. apply I2 in Hop. lia.
    + split; [exact I1|]. intros op Hop. apply I2 in Hop. lia.
Qed.

(** ** Entries of an array *)
Lemma concat_nth per {V} : 0 < per -> forall (vss : list (list V)) i, packed_in per vss ->
  nth_error (concat vss) (N.to_nat i) = match nth_error vss (N.to_nat (i / per)) with Some vs => nth_error vs (N.to_nat (i mod per)) | None => None end.
Proof.
  intros Hp. induction vss as [|vs r IH]; intros i HP.
  { cbn. destruct (N.to_nat i), (N.to_nat (i / per)); reflexivity. }
  destruct HP as (P1 & P2 & P3 & P4). cbn [concat]. unfold nlen in *. destruct (N.ltb_spec i per) as [Hi|Hi].
  - rewrite N.div_small, N.mod_small by lia. cbn [N.to_nat nth_error]. destruct (N.ltb_spec i (N.of_nat (length vs))) as [Hv|Hv].
    + apply nth_error_app1. lia.
    + destruct r as [|x r]; [|specialize (P3 ltac:(discriminate)); lia]. cbn [concat]. rewrite app_nil_r. reflexivity.
  - assert (Hd : i / per = (i - per) / per + 1). { replace i with (i - per + 1 * per) at 1 by lia. rewrite N.div_add by lia. reflexivity. }
    assert (Hm : i mod per = (i - per) mod per). { replace i with (i - per + 1 * per) at 1 by lia. rewrite N.mod_add by lia. reflexivity. }
    rewrite Hd, Hm. replace (N.to_nat ((i - per) / per + 1)) with (S (N.to_nat ((i - per) / per))) by lia. cbn [nth_error]. rewrite <- IH by auto.
    destruct r as [|x r].
    + cbn [concat]. rewrite app_nil_r. rewrite (proj2 (nth_error_None vs (N.to_nat i))) by lia. destruct (N.to_nat (i - per)); reflexivity.
    + specialize (P3 ltac:(discriminate)). rewrite nth_error_app2 by lia. f_equal. lia.
Qed.
Lemma start_lt per {V} : 0 < per -> forall (vss : list (list V)) j, packed_in per vss -> (j < length vss)%nat -> N.of_nat j * per < nlen (concat vss).
Proof.
  intros Hp. induction vss as [|vs r IH]; intros j HP Hj; cbn [length] in Hj; [lia|]. destruct HP as (P1 & P2 & P3 & P4). cbn [concat].
  assert (nlen vs <> 0) by (destruct vs; [congruence|unfold nlen; cbn; lia]).
  assert (E : nlen (vs ++ concat r) = nlen vs + nlen (concat r)) by (unfold nlen; rewrite app_length; lia). rewrite E.
  destruct j as [|j]; [lia|]. specialize (IH j P4 ltac:(lia)). rewrite P3 by (destruct r; [cbn in Hj; lia|discriminate]). lia.
Qed.
Lemma array_nth {V} (c : codec V) d blocks vss i : (0 < csize c <= 4072)%nat -> Forall2 (array_block_at c d) blocks vss -> packed_in (array_per c) vss ->
  i < nlen (concat vss) -> exists b vs v, nth_error blocks (N.to_nat (i / array_per c)) = Some b /\ nth_error vss (N.to_nat (i / array_per c)) = Some vs /\
    array_block_at c d b vs /\ nth_error vs (N.to_nat (i mod array_per c)) = Some v /\ nth_error (concat vss) (N.to_nat i) = Some v.
Proof.
  intros Hc HF HP Hi. pose proof (array_per_pos c Hc) as Hp.
  destruct (nth_error (concat vss) (N.to_nat i)) as [v|] eqn:E; [|apply nth_error_None in E; unfold nlen in Hi; lia].
  pose proof E as E'. rewrite (concat_nth (array_per c)) in E' by auto.
  destruct (nth_error vss (N.to_nat (i / array_per c))) as [vs|] eqn:Ev; [|discriminate].
  assert (G : forall (l : list N) k, Forall2 (array_block_at c d) l k -> forall n x, nth_error k n = Some x -> exists b, nth_error l n = Some b /\ array_block_at c d b x).
  { clear. induction 1 as [|a b l k H HF IH]; intros [|n] x Hx; cbn [nth_error] in *; try discriminate; [injection Hx as <-; eauto|auto]. }
  destruct (G _ _ HF _ _ Ev) as (b & Hb & Hab). exists b, vs, v. auto.
Qed.

Lemma eng_readable e d bs b : readable e bs -> In b bs -> b < e_nr e /\ eng_of e d b = Some (d b).
Proof. intros H Hb. destruct (H b Hb) as [H1 H2]. unfold eng_of. rewrite H2. auto. Qed.
Lemma filter_combine_range {X} (p : X -> bool) : forall l a, length (filter (fun q => p (fst q)) (combine l (range a (a + nlen l)))) = length (filter p l).
Proof.
  induction l as [|x l IH]; intros a; [reflexivity|].
  assert (Hl : nlen (x :: l) = 1 + nlen l) by (unfold nlen; cbn [length]; lia). rewrite Hl, (range_cons a) by lia. cbn [combine filter fst].
  replace (a + (1 + nlen l)) with (a + 1 + nlen l) by lia. destruct (p x); cbn [length]; rewrite IH; auto.
Qed.

Lemma dirty_bits e d sb ws blocks foot : bits_on e d sb ws blocks foot -> nlen ws <= div_up (cs_cache_blocks sb) 64 ->
  exists dirty, v2_read_dirty_bitset e d sb = Ok (nlen (filter dirty (range 0 (cs_cache_blocks sb))), dirty) /\
  forall i, dirty i = (i <? cs_cache_blocks sb) && bit_at ws i.
Proof.
  intros (root & Hr & Ha & HN & Hrd & Hnr & Hcb) Hl. unfold v2_read_dirty_bitset. rewrite Hr.
  destruct (array_parts u64_codec d root ws foot blocks ltac:(cbn; lia) Ha) as (depth & vss & HT & HF & <- & HP).
  change (array_per u64_codec) with 509 in HP. pose proof (Forall2_length _ _ _ HF) as HLb.
  assert (Hdu : div_up (cs_cache_blocks sb) 64 * 64 < cs_cache_blocks sb + 64) by (unfold div_up; dlia).
  assert (Hlast : blocks <> [] -> (nlen blocks - 1) * 509 < nlen (concat vss)).
  { intros Hne. pose proof (start_lt 509 ltac:(lia) vss (length vss - 1) HP ltac:(destruct blocks; [congruence|cbn in HLb; lia])). unfold nlen in *. lia. }
  assert (Hsmall : nlen blocks * 509 * 64 < 2 ^ 64). { destruct blocks as [|b bs]; [cbn; lia|]. specialize (Hlast ltac:(discriminate)). lia. }
  pose proof (C42_read_bitset_checked (eng_of e d) d true (e_nr e) root (cs_cache_blocks sb) depth blocks foot HT ltac:(apply NoDup_app_iff_local in HN; tauto)) as H.
  destruct (read_bitset_checked _ _ _ _ _) as [f es]. destruct H as [Hf He]; auto.
  { intros b Hb. apply (eng_readable e d (blocks ++ foot)); auto. apply in_or_app; auto. }
  { intros b data a Hb Hd Hu. destruct (eng_readable e d _ b Hrd ltac:(apply in_or_app; eauto)) as [_ Hd']. rewrite Hd' in Hd. injection Hd as <-.
    destruct (In_nth_error _ _ Hb) as (n & Hn). assert (Hx : exists vs, array_block_at u64_codec d b vs).
    { clear - HF Hb. induction HF as [|x y l k H HF IH]; [destruct Hb|]. destruct Hb as [<-|Hb]; eauto. }
    destruct Hx as (vs & _ & _ & _ & Hu'). rewrite Hu in Hu'. apply Ok_inj in Hu'. subst a. reflexivity. }
  assert (Ees : es = []).
  { rewrite He. clear He. enough (G : forall bs k i, Forall2 (array_block_at u64_codec d) bs k -> packed_in 509 k -> (forall b, In b bs -> In b blocks) ->
      i * 509 + nlen (concat k) <= div_up (cs_cache_blocks sb) 64 -> flat_map (block_errors (eng_of e d) (cs_cache_blocks sb)) (combine (range i (i + nlen bs)) bs) = []).
    { pose proof (G blocks vss 0 HF HP ltac:(auto) ltac:(lia)) as G'. rewrite N.add_0_l in G'. exact G'. }
    clear - Hrd Hdu. induction bs as [|b bs IH]; intros k i HF HP Hin Hi; inversion HF as [|? vs ? k' Hb HF']; subst; [rewrite range_nil by (unfold nlen; cbn; lia); reflexivity|].
    assert (Hl : nlen (b :: bs) = 1 + nlen bs) by (unfold nlen; cbn [length]; lia). rewrite Hl, (range_cons i) by lia. cbn [combine flat_map].
    destruct HP as (P1 & P2 & P3 & P4). cbn [concat] in Hi. assert (nlen vs <> 0) by (destruct vs; [congruence|unfold nlen; cbn; lia]).
    assert (E : nlen (vs ++ concat k') = nlen vs + nlen (concat k')) by (unfold nlen; rewrite app_length; lia). rewrite E in Hi.
    replace (i + (1 + nlen bs)) with (i + 1 + nlen bs) by lia.
    assert (Et : flat_map (block_errors (eng_of e d) (cs_cache_blocks sb)) (combine (range (i + 1) (i + 1 + nlen bs)) bs) = []).
    { destruct k' as [|v2 k']; [inversion HF'; subst; rewrite range_nil by (unfold nlen; cbn; lia); reflexivity|].
      apply (IH (v2 :: k')); auto; [intros x Hx; apply Hin; right; auto|rewrite P3 in Hi by discriminate; lia]. }
    rewrite Et, app_nil_r. unfold block_errors, block_words. cbn [fst snd]. destruct (eng_readable e d _ b Hrd) as [_ ->]. { apply in_or_app. left. apply Hin. left. auto. }
    destruct Hb as (_ & _ & -> & ->). destruct (N.leb_spec (cs_cache_blocks sb) (i * 509 * 64)); auto. lia. }
  rewrite Ees. eexists. split; [reflexivity|]. intros i. cbv beta. destruct (N.ltb_spec i (cs_cache_blocks sb)) as [Hi|Hi]; [|reflexivity]. cbn [andb].
  rewrite Hf. destruct (N.ltb_spec i (cs_cache_blocks sb)); [|lia].
  unfold bit_at. assert (E1 : i / 64 / 509 = i / (509 * 64)) by (rewrite N.div_div by lia; f_equal).
  assert (E2 : (i / 64) mod 509 = i mod (509 * 64) / 64). { rewrite (N.mul_comm 509 64), N.mod_mul_r by lia. rewrite N.mul_comm, N.div_add by lia. rewrite (N.div_small (i mod 64)) by (apply N.mod_lt; lia). reflexivity. }
  destruct (N.ltb_spec (i / 64) (nlen (concat vss))) as [Hw|Hw].
  - destruct (array_nth u64_codec d blocks vss (i / 64) ltac:(cbn; lia) HF HP Hw) as (b & vs & v & A1 & A2 & A3 & A4 & A5).
    change (array_per u64_codec) with 509 in *. rewrite E1 in A1. rewrite E2 in A4. unfold stored_bit. rewrite A1.
    unfold block_words. destruct (eng_readable e d _ b Hrd) as [_ ->]. { apply in_or_app. left. eapply nth_error_In; eauto. }
    destruct A3 as (_ & _ & -> & ->). cbn [ab_values]. rewrite A4. cbn [option_map]. rewrite (nth_error_nth _ _ 0 A5). destruct (N.testbit v (i mod 64)); reflexivity.
  - rewrite nth_overflow by (unfold nlen in Hw; lia). rewrite N.bits_0.
    destruct (stored_bit (eng_of e d) blocks i) as [[|]|] eqn:Es; auto. exfalso. unfold stored_bit in Es.
    destruct (nth_error blocks _) as [b|] eqn:Eb; [|discriminate]. destruct (block_words _ b) as [vs|] eqn:Ew; [|discriminate].
    destruct (nth_error vs _) as [w|] eqn:Ewi; [|discriminate].
    assert (Hx : nth_error vss (N.to_nat (i / (509 * 64))) = Some vs).
    { assert (G : forall (l : list N) k, Forall2 (array_block_at u64_codec d) l k -> forall n x, nth_error l n = Some x -> exists b, nth_error k n = Some b /\ array_block_at u64_codec d x b).
      { clear. induction 1 as [|a b l k H HF IH]; intros [|n] x Hx; cbn [nth_error] in *; try discriminate; [injection Hx as <-; eauto|auto]. }
      destruct (G _ _ HF _ _ Eb) as (vs' & G1 & _ & _ & G2 & G3). rewrite G1. f_equal. unfold block_words in Ew.
      destruct (eng_readable e d _ b Hrd) as [_ Hb]. { apply in_or_app. left. eapply nth_error_In; eauto. }
      rewrite Hb, G2, G3 in Ew. cbn [ab_values] in Ew. injection Ew as <-. reflexivity. }
    pose proof (concat_nth 509 ltac:(lia) vss (i / 64) HP) as Hc. rewrite E1, E2, Hx, Ewi in Hc.
    assert (Hnn : nth_error (concat vss) (N.to_nat (i / 64)) <> None) by (rewrite Hc; discriminate). apply nth_error_Some in Hnn. unfold nlen in Hw. lia.
Qed.

(** ** The selector *)
Lemma filter_le {X} (p : X -> bool) l : (length (filter p l) <= length l)%nat.
Proof. induction l as [|x l IH]; cbn [filter length]; [lia|]. destruct (p x); cbn [length]; lia. Qed.
Definition bits_needed (e : menv) (d : disk) (sb : cache_sb) (ws : list N) : Prop :=
  cs_clean_shutdown sb = true -> cs_version sb = 2 -> exists blocks foot, bits_on e d sb ws blocks foot /\ nlen ws <= div_up (cs_cache_blocks sb) 64.
Lemma selector_spec e d sb maps blocks foot ws : mappings_on e d sb maps blocks foot -> bits_needed e d sb ws -> cs_version sb = 1 \/ cs_version sb = 2 ->
  exists nr sel, mk_selector e d sb = Ok (nr, sel) /\
    (forall i m, nth_error maps (N.to_nat i) = Some m -> cm_valid m = true -> (needs_writeback sel i m = true <-> to_copy sb maps ws i m)) /\
    (exists ids, NoDup ids /\ nlen ids = nr /\ (forall op, In op (sel_ops sel 0 maps) -> In (c_src op) ids) /\
       forall i, In i ids -> In i (map c_src (sel_ops sel 0 maps)) \/ (cs_version sb = 2 /\ i < cs_cache_blocks sb /\ bit_at ws i = true)) /\
    (cs_clean_shutdown sb = false \/ cs_version sb = 1 -> nr = nlen (sel_ops sel 0 maps)).
Proof.
  intros (Ha & HN & Hrd & Hnr & Hm) Hbits Hv. destruct (array_parts cm_codec d _ maps foot blocks ltac:(cbn; lia) Ha) as (depth & vss & HT & HF & Ec & HP).
  change (array_per cm_codec) with 509 in HP.
  assert (Hnb : nlen blocks <= nlen maps).
  { pose proof (Forall2_length _ _ _ HF) as HL. destruct vss as [|v vss1] eqn:Ev; [destruct blocks; [unfold nlen; cbn; lia|discriminate]|]. rewrite <- Ev in *.
    pose proof (start_lt 509 ltac:(lia) vss (length vss - 1) HP ltac:(subst; cbn; lia)). rewrite Ec in *. unfold nlen in *. lia. }
  assert (Hcount : forall p, count_mappings e d sb p = Ok (nlen (filter (fun m => cm_valid m && p m) maps))).
  { intros p. unfold count_mappings.
    erewrite array_walk_index; [|exact HT|apply NoDup_app_iff_local in HN; tauto|exact Hnr|lia|intros b Hb; apply (eng_readable e d (blocks ++ foot)); auto; apply in_or_app; auto].
    pose proof (count_walk p (eng_of e d) d blocks vss 0 0 HF) as H. rewrite !N.add_0_l in H. rewrite H; [|intros b Hb; apply (eng_readable e d (blocks ++ foot)); auto; apply in_or_app; auto].
    rewrite Ec. rewrite N.mod_small; auto. assert (Hle : nlen (filter (fun m => cm_valid m && p m) maps) <= nlen maps). { unfold nlen. pose proof (filter_le (fun m => cm_valid m && p m) maps). lia. }
    change W32 with (2 ^ 32). lia. }
  assert (Hids : forall sel p, (forall i m, needs_writeback sel i m = p m) ->
    (exists ids, NoDup ids /\ nlen ids = nlen (filter (fun m => cm_valid m && p m) maps) /\ (forall op, In op (sel_ops sel 0 maps) -> In (c_src op) ids) /\
       forall i, In i ids -> In i (map c_src (sel_ops sel 0 maps)) \/ (cs_version sb = 2 /\ i < cs_cache_blocks sb /\ bit_at ws i = true)) /\
    nlen (filter (fun m => cm_valid m && p m) maps) = nlen (sel_ops sel 0 maps)).
  { intros sel p Hp. assert (E : nlen (filter (fun m => cm_valid m && p m) maps) = nlen (sel_ops sel 0 maps)).
    { unfold sel_ops, nlen. rewrite map_length. f_equal. rewrite <- (filter_combine_range (fun m => cm_valid m && p m) maps 0). f_equal. apply filter_ext. intros q. rewrite Hp. reflexivity. }
    split; auto. exists (map c_src (sel_ops sel 0 maps)). conj; [apply increasing_NoDup, sel_ops_src|rewrite E; unfold nlen; rewrite map_length; auto|intros op Hop; apply in_map; auto|auto]. }
  unfold mk_selector. destruct (cs_clean_shutdown sb) eqn:Ecs.
  - destruct Hv as [Hv|Hv]; rewrite Hv.
    + change (1 =? 1) with true. cbv iota. rewrite Hcount. cbn [bind]. do 2 eexists. split; [reflexivity|]. destruct (Hids SelV1 cm_dirty ltac:(reflexivity)) as [I1 I2].
      conj; [|rewrite Hv in I1; exact I1|intros _; exact I2]. intros i m Hi Hval. cbn [needs_writeback]. unfold to_copy. rewrite Hv, Ecs. split; [intros HD; conj; auto 7|]. intros (_ & _ & HH). destruct HH as [HH|[HH|HH]]; [discriminate|tauto|destruct HH; discriminate].
    + change (2 =? 1) with false. change (2 =? 2) with true. cbv iota. destruct (Hbits Ecs Hv) as (bb & bf & Hb & Hl). destruct (dirty_bits e d sb ws bb bf Hb Hl) as (dirty & -> & Hd).
      cbn [bind]. do 2 eexists. split; [reflexivity|]. conj.
      * intros i m Hi Hval. cbn [needs_writeback]. rewrite Hd. unfold to_copy. rewrite Hv, Ecs. destruct (N.ltb_spec i (cs_cache_blocks sb)); cbn [andb].
        -- split; [intros HD; conj; auto 7|]. intros (_ & _ & [H'|[H'|H']]); [discriminate|destruct H'; discriminate|tauto].
        -- split; [discriminate|]. intros (_ & _ & [H'|[H'|H']]); [discriminate|destruct H'; discriminate|]. destruct H' as (_ & H' & _). lia.
      * exists (filter dirty (range 0 (cs_cache_blocks sb))). conj; auto.
        -- apply NoDup_filter, increasing_NoDup, range_increasing.
        -- intros op Hop. apply sel_ops_in in Hop as (m & _ & _ & _ & H). cbn [needs_writeback] in H. apply filter_In. split; auto. rewrite Hd in H. apply in_range. destruct (N.ltb_spec (c_src op) (cs_cache_blocks sb)); [lia|discriminate].
        -- intros i Hi. apply filter_In in Hi as [H1 H2]. apply in_range in H1. rewrite Hd in H2. apply andb_prop in H2 as [_ H2]. right. conj; auto. lia.
      * intros [H|H]; discriminate.
  - rewrite Hcount. cbn [bind]. do 2 eexists. split; [reflexivity|]. destruct (Hids SelAll (fun _ => true) ltac:(reflexivity)) as [I1 I2].
    conj; [|exact I1|intros _; exact I2]. intros i m Hi Hval. cbn [needs_writeback]. unfold to_copy. rewrite Ecs. conj; auto. tauto.
Qed.

(** The array walk that pushes the ops. *)
Lemma walk_ops e d sb maps blocks foot sel : mappings_on e d sb maps blocks foot ->
  array_walk cm_codec true (eng_of e d) (wb_visit sel) (e_nr e) (cs_mapping_root sb) [] = (sel_ops sel 0 maps, []).
Proof.
  intros (Ha & HN & Hrd & Hnr & Hm). destruct (array_parts cm_codec d _ maps foot blocks ltac:(cbn; lia) Ha) as (depth & vss & HT & HF & Ec & HP).
  change (array_per cm_codec) with 509 in HP.
  assert (Hnb : nlen blocks <= nlen maps).
  { pose proof (Forall2_length _ _ _ HF) as HL. destruct vss as [|v vss1] eqn:Ev; [destruct blocks; [unfold nlen; cbn; lia|discriminate]|]. rewrite <- Ev in *.
    pose proof (start_lt 509 ltac:(lia) vss (length vss - 1) HP ltac:(subst; cbn; lia)). rewrite Ec in *. unfold nlen in *. lia. }
  erewrite array_walk_index; [|exact HT|apply NoDup_app_iff_local in HN; tauto|exact Hnr|lia|intros b Hb; apply (eng_readable e d (blocks ++ foot)); auto; apply in_or_app; auto].
  pose proof (wb_walk sel (eng_of e d) d blocks vss 0 [] HF HP) as H. rewrite N.mul_0_l, !N.add_0_l in H. rewrite H; [rewrite Ec; reflexivity| |].
  - rewrite Ec. exact Hm.
  - intros b Hb. apply (eng_readable e d (blocks ++ foot)); auto. apply in_or_app; auto.
Qed.

(** The ops of copy_selected_blocks. *)
Lemma read_ablock_spec e d blocks vss j b vs : Forall2 (array_block_at cm_codec d) blocks vss -> readable e blocks ->
  nth_error blocks (N.to_nat j) = Some b -> nth_error vss (N.to_nat j) = Some vs -> read_ablock e d blocks j = Ok (blk_of cm_codec b vs).
Proof.
  intros HF Hrd Hb Hvs. unfold read_ablock. rewrite Hb. destruct (eng_readable e d blocks b Hrd ltac:(eapply nth_error_In; eauto)) as [_ ->].
  assert (G : forall (l : list N) k, Forall2 (array_block_at cm_codec d) l k -> forall n x y, nth_error l n = Some x -> nth_error k n = Some y -> array_block_at cm_codec d x y).
  { clear. induction 1 as [|a b l k H HF IH]; intros [|n] x y Hx Hy; cbn [nth_error] in *; try discriminate; [congruence|eauto]. }
  destruct (G _ _ HF _ _ _ Hb Hvs) as (_ & _ & _ & H). exact H.
Qed.
Definition op_for (maps : list cmapping) (i : N) : cop := mkop i (cm_oblock (nth (N.to_nat i) maps (mkcm 0 0))).
Lemma selected_ops_spec e d blocks vss : Forall2 (array_block_at cm_codec d) blocks vss -> packed_in 509 vss -> readable e blocks ->
  forall bs index b vs, (forall x, In x bs -> x < nlen (concat vss)) ->
  nth_error blocks (N.to_nat index) = Some b -> nth_error vss (N.to_nat index) = Some vs ->
  selected_ops e d blocks index (blk_of cm_codec b vs) bs = Ok (map (op_for (concat vss)) bs).
Proof.
  intros HF HP Hrd. induction bs as [|x bs IH]; intros index b vs Hbs Hb Hvs; [reflexivity|]. cbn [selected_ops].
  destruct (array_nth cm_codec d blocks vss x ltac:(cbn; lia) HF HP) as (b' & vs' & v & A1 & A2 & A3 & A4 & A5). { apply Hbs. left. auto. }
  change (array_per cm_codec) with 509 in *.
  assert (E : (if x / 509 =? index then Ok (index, blk_of cm_codec b vs) else a <- read_ablock e d blocks (x / 509) ;; Ok (x / 509, a)) = Ok (x / 509, blk_of cm_codec b' vs')).
  { destruct (N.eqb_spec (x / 509) index) as [Hx|Hne]; [subst index; congruence|]. rewrite (read_ablock_spec e d blocks vss _ b' vs'); auto. }
  rewrite E. cbn [bind]. unfold blk_of at 1. cbn [ab_values]. rewrite A4. rewrite IH; auto; [|intros y Hy; apply Hbs; right; auto].
  cbn [bind map]. unfold op_for at 2. rewrite (nth_error_nth _ _ _ A5). reflexivity.
Qed.
Lemma copy_selected_ops {P} e d sb maps blocks foot size (c : copier P) bs m : mappings_on e d sb maps blocks foot -> bs <> [] ->
  (forall x, In x bs -> x < nlen maps) ->
  copy_selected e d sb size c bs m = copy_thread c 0 m (batches size (map (op_for maps) bs)) ([], [], []).
Proof.
  intros (Ha & HN & Hrd & Hnr & Hm) Hne Hbs. destruct (array_parts cm_codec d _ maps foot blocks ltac:(cbn; lia) Ha) as (depth & vss & HT & HF & Ec & HP).
  change (array_per cm_codec) with 509 in HP. unfold copy_selected.
  assert (HrdB : readable e blocks). { intros b Hb. apply Hrd. apply in_or_app; auto. }
  rewrite (value_vec (e_nr e) (eng_of e d) d depth _ blocks foot true HT); auto; [|apply NoDup_app_iff_local in HN; tauto|intros b Hb; apply (eng_readable e d (blocks ++ foot)); auto; apply in_or_app; auto].
  cbn [bind]. destruct bs as [|x bs]; [congruence|].
  pose proof (Forall2_length _ _ _ HF) as HL.
  destruct vss as [|vs vss]; [rewrite <- Ec in Hbs; specialize (Hbs x ltac:(left; auto)); unfold nlen in Hbs; cbn in Hbs; lia|]. destruct blocks as [|b blocks]; [discriminate|].
  rewrite (read_ablock_spec e d (b :: blocks) (vs :: vss) 0 b vs); auto. cbn [bind].
  rewrite (selected_ops_spec e d (b :: blocks) (vs :: vss)) by (auto; rewrite Ec; auto). rewrite Ec. reflexivity.
Qed.
