(** cache_check as a whole: what it accepts. *)
From Verif Require Import IoMany_Proofs Base Csum_Model Codec_Model Codec_Spec Codec_Proofs Pack_Proofs SpaceMap_Model Utils_Model Utils_Proofs Batcher_Model Builder_Model Builder_Spec BtreeBuild_Proofs Walker_Model Walker_Spec Walker_Proofs Props_Walker
  Array_Model Array_Spec Array_Proofs ArrayWalk_Proofs Props_Array SmCheck_Model SmCheck_Spec SmCheck_Proofs SmCheckTop_Proofs ThinCheck_Model ThinCheck_Spec ThinCheck_Proofs CacheCheck_Model CacheCheck_Spec CacheCheck_Proofs CacheSm_Proofs Props_CacheCheck CacheCmd_Model CacheCmd_Spec.

(** ** Counts *)
Definition counts_are (nr : N) (sm : wsm) (l : list N) : Prop :=
  wsm_nr sm = nr /\ wmax sm = 255 /\ wrestr sm = false /\ map_ok sm /\ forall x, x < nr -> wcount sm x = in_count x l.
Lemma in_count_app x l l' : NoDup (l ++ l') -> in_count x (l ++ l') = in_count x l + in_count x l'.
Proof.
  intros HN. unfold in_count. apply NoDup_app_iff_local in HN as (_ & _ & HN). pose proof (HN x).
  destruct (in_dec N.eq_dec x (l ++ l')) as [H1|H1]; destruct (in_dec N.eq_dec x l) as [H2|H2]; destruct (in_dec N.eq_dec x l') as [H3|H3]; auto;
    rewrite in_app_iff in H1; exfalso; tauto.
Qed.
Lemma nodup_pre {A} (l l' : list A) : NoDup (l ++ l') -> NoDup l.
Proof. intros H. apply NoDup_app_iff_local in H. tauto. Qed.
Lemma nodup_post {A} (l l' : list A) : NoDup (l ++ l') -> NoDup l'.
Proof. intros H. apply NoDup_app_iff_local in H. tauto. Qed.
Lemma start_counts nr : 0 < nr < 2 ^ 64 -> counts_are nr (check_sm nr) [0].
Proof.
  intros H. destruct (check_sm_ok nr H) as (A & B & C & D). unfold counts_are. conj; auto. intros x Hx. rewrite D by auto. unfold in_count.
  destruct (in_dec N.eq_dec x [0]) as [[E|[]]|E]; [subst; reflexivity|]. destruct (N.eqb_spec x 0); [subst; exfalso; apply E; left; auto|auto].
Qed.
Section Stage.
Context {V S : Type} (c : codec V) (inf : bool) (nr : N) (d : disk) (eng : N -> option (list N)) (visit : S -> N -> array_block V -> S * bool).
Lemma stage sm l root blocks foot s : counts_are nr sm l -> indexed d root blocks foot -> NoDup (l ++ foot ++ blocks) -> (forall b, In b (foot ++ blocks) -> b < nr) ->
  (forall b, In b foot -> eng b = Some (d b)) -> nlen blocks < 2 ^ 64 ->
  exists sm', array_walk_sm c inf eng visit sm root s =
      Ok (sm', fst (visit_array_blocks c eng visit s (combine (range 0 (nlen blocks)) blocks)), snd (visit_array_blocks c eng visit s (combine (range 0 (nlen blocks)) blocks))) /\
    (snd (visit_array_blocks c eng visit s (combine (range 0 (nlen blocks)) blocks)) = [] -> counts_are nr sm' (l ++ foot ++ blocks)).
Proof using All.
  intros (A & B & K & C & D) [depth HT] HN Hlt He Hl.
  assert (HN1 : NoDup (foot ++ blocks)) by (eapply nodup_post; exact HN).
  assert (Hout : forall b, In b (foot ++ blocks) -> ~ In b l) by (intros b Hb Hin; apply NoDup_app_iff_local in HN as (_ & _ & HX); exact (HX b Hin Hb)).
  destruct (array_walk_sm_index c inf eng visit sm d depth root blocks foot s HT (nodup_pre _ _ HN1) (nodup_post _ _ HN1) C Hl) as (sm' & E & (Q1 & Q2 & Q3) & M & HC).
  - intros b Hb. assert (Hb' : In b (foot ++ blocks)) by (apply in_or_app; auto). rewrite A, D by auto. unfold in_count. destruct (in_dec N.eq_dec b l) as [H|H]; [exfalso; exact (Hout b Hb' H)|auto].
  - intros b Hb _. assert (Hb' : In b (foot ++ blocks)) by (apply in_or_app; auto). rewrite A, B, D by auto. split; auto. unfold in_count. destruct (in_dec N.eq_dec b l); lia.
  - exists sm'. split; [exact E|]. intros Hz. unfold counts_are. conj; auto; try congruence. intros x Hx. rewrite A in HC. destruct (HC x Hx) as [_ HX]. rewrite (HX Hz), D by auto.
    rewrite in_count_app by exact HN. rewrite in_count_app by exact HN1. lia.
Qed.
End Stage.
(** ** Errors *)
Lemma hint_errors eng : forall blocks i, snd (visit_array_blocks hint_codec eng (fun (s : unit) _ _ => (s, true)) tt (combine (range i (i + nlen blocks)) blocks)) = [] <->
  forall b, In b blocks -> exists hs, reads_as hint_codec eng b hs.
Proof.
  induction blocks as [|b blocks IH]; intros i.
  { cbn [combine]. destruct (range i (i + nlen (@nil N))); cbn; split; auto; intros _ b []. }
  assert (El : nlen (b :: blocks) = 1 + nlen blocks) by (unfold nlen; cbn [length]; lia). rewrite El.
  rewrite (range_cons i) by lia. cbn [combine visit_array_blocks]. replace (i + (1 + nlen blocks)) with (i + 1 + nlen blocks) by lia.
  specialize (IH (i + 1)). unfold visit_array_block at 1. destruct (eng b) as [data|] eqn:Eb.
  2:{ destruct (visit_array_blocks _ _ _ _ _) as [s es]. cbn [snd]. split; [discriminate|]. intros H. destruct (H b (or_introl eq_refl)) as (hs & data & h & A & _). congruence. }
  destruct (metadata_block_type data) eqn:Et; try (destruct (visit_array_blocks _ _ _ _ _) as [s es]; cbn [snd]; split; [discriminate|]; intros H; destruct (H b (or_introl eq_refl)) as (hs & data' & h & A & B & _); congruence).
  destruct (unpack_array_block hint_codec data) as [a| |] eqn:Eu; try (destruct (visit_array_blocks _ _ _ _ _) as [s es]; cbn [snd]; split; [discriminate|]; intros H; destruct (H b (or_introl eq_refl)) as (hs & data' & h & A & _ & C); congruence).
  destruct (visit_array_blocks _ _ _ _ _) as [s es]. cbn [snd] in *. rewrite IH. split.
  - intros H x [<-|Hx]; auto. exists (ab_values a), data, (ab_hdr a). destruct a. auto.
  - intros H x Hx. apply H. right. auto.
Qed.
Lemma bitset_errors eng nr_bits : forall blocks i, flat_map (block_errors eng nr_bits) (combine (range i (i + nlen blocks)) blocks) = [] <->
  forall j b, nth_error blocks j = Some b -> (exists ws, reads_as u64_codec eng b ws) /\ (i + N.of_nat j) * 32576 < nr_bits.
Proof.
  induction blocks as [|b blocks IH]; intros i.
  { cbn [combine]. destruct (range i (i + nlen (@nil N))); cbn; split; auto; intros _ [|j] b; discriminate. }
  assert (El : nlen (b :: blocks) = 1 + nlen blocks) by (unfold nlen; cbn [length]; lia). rewrite El.
  rewrite (range_cons i) by lia. cbn [combine flat_map]. replace (i + (1 + nlen blocks)) with (i + 1 + nlen blocks) by lia. specialize (IH (i + 1)).
  assert (Happ : forall A (a b : list A), a ++ b = [] <-> a = [] /\ b = []). { intros A a b'. split; [apply app_eq_nil|intros [-> ->]; reflexivity]. }
  rewrite Happ, IH. clear Happ IH.
  assert (HB : block_errors eng nr_bits (i, b) = [] <-> (exists ws, reads_as u64_codec eng b ws) /\ i * 32576 < nr_bits).
  { unfold block_errors, block_words. cbn [fst snd]. unfold reads_as. destruct (eng b) as [data|].
    2:{ split; [discriminate|]. intros [(ws & x & h & A & _) _]. discriminate. }
    destruct (metadata_block_type data) eqn:Et;
      try (split; [discriminate|]; intros [(ws & x & h & A & B & _) _]; assert (x = data) by congruence; subst; congruence).
    destruct (unpack_array_block u64_codec data) as [a| |] eqn:Eu;
      try (split; [discriminate|]; intros [(ws & x & h & A & B & C) _]; assert (x = data) by congruence; subst; congruence).
    destruct (N.leb_spec nr_bits (i * 509 * 64)) as [Hl|Hl].
    - split; [discriminate|]. intros [_ H]. lia.
    - split; auto. intros _. split; [|lia]. exists (ab_values a), data, (ab_hdr a). destruct a. auto. }
  rewrite HB. split.
  - intros [H1 H2] [|j] x Hx; cbn [nth_error] in Hx.
    + injection Hx as <-. rewrite N.add_0_r. auto.
    + destruct (H2 j x Hx) as [A B]. split; auto. lia.
  - intros H. split; [specialize (H 0%nat b eq_refl); rewrite N.add_0_r in H; auto|]. intros j x Hx. destruct (H (Datatypes.S j) x Hx) as [A B]. split; auto. lia.
Qed.
Lemma fine1_any eng sb blocks limit es : table_fine 1 limit (fun _ => false) es <-> table_fine 1 limit (stored_dirty eng sb blocks) es.
Proof.
  unfold table_fine, fine. split; intros [A B]; (split; [|exact B]); intros i m H; destruct (A i m H) as [X|(X & Y & Z)]; auto; right; conj; auto; intros; discriminate.
Qed.
