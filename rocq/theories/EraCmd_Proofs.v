(** era_check: what it accepts. *)
From Verif Require Import IoMany_Proofs Base Csum_Model Codec_Model Codec_Spec Codec_Proofs Pack_Proofs SpaceMap_Model Utils_Model Utils_Proofs Batcher_Model Builder_Model Builder_Spec Walker_Model Walker_Spec Walker_Proofs Props_Walker
  Array_Model Array_Spec Array_Proofs ArrayWalk_Proofs Props_Array ThinCheck_Model ThinCheck_Spec ThinCheck_Proofs CacheCheck_Model CacheCheck_Spec CacheSm_Proofs CacheCmd_Model CacheCmd_Spec CacheCmd_Proofs CacheVerdict_Proofs EraCmd_Model EraCmd_Spec.

Definition counts_le (nr : N) (sm : wsm) (l : list N) : Prop :=
  wsm_nr sm = nr /\ wmax sm = 255 /\ map_ok sm /\ forall x, x < nr -> wcount sm x <= in_count x l.
Lemma app_nil_iff {A} (a b : list A) : a ++ b = [] <-> a = [] /\ b = [].
Proof. split; [apply app_eq_nil|intros [-> ->]; reflexivity]. Qed.

Section Stage.
Context {V S : Type} (c : codec V) (inf : bool) (nr : N) (d : disk) (eng : N -> option (list N)) (visit : S -> N -> array_block V -> S * bool).
Lemma stage_le sm l root blocks foot s : counts_le nr sm l -> indexed d root blocks foot -> NoDup (l ++ foot ++ blocks) -> (forall b, In b (foot ++ blocks) -> b < nr) ->
  (forall b, In b foot -> eng b = Some (d b)) -> nlen blocks < 2 ^ 64 ->
  exists sm', array_walk_sm c inf eng visit sm root s =
      Ok (sm', fst (visit_array_blocks c eng visit s (combine (range 0 (nlen blocks)) blocks)), snd (visit_array_blocks c eng visit s (combine (range 0 (nlen blocks)) blocks))) /\
    counts_le nr sm' (l ++ foot ++ blocks).
Proof using All.
  intros (A & B & C & D) [depth HT] HN Hlt He Hl.
  assert (HN1 : NoDup (foot ++ blocks)) by (eapply nodup_post; exact HN).
  assert (Hout : forall b, In b (foot ++ blocks) -> ~ In b l) by (intros b Hb Hin; apply NoDup_app_iff_local in HN as (_ & _ & HX); exact (HX b Hin Hb)).
  destruct (array_walk_sm_index c inf eng visit sm d depth root blocks foot s HT (nodup_pre _ _ HN1) (nodup_post _ _ HN1) C Hl) as (sm' & E & (Q1 & Q2 & Q3) & M & HC).
  - intros b Hb. assert (Hb' : In b (foot ++ blocks)) by (apply in_or_app; auto). specialize (Hlt b Hb'). specialize (D b Hlt). rewrite A. unfold in_count in D. destruct (in_dec N.eq_dec b l) as [H|H]; [exfalso; exact (Hout b Hb' H)|]. conj; auto. lia.
  - intros b Hb _. assert (Hb' : In b (foot ++ blocks)) by (apply in_or_app; auto). specialize (Hlt b Hb'). specialize (D b Hlt). rewrite A, B. split; auto. unfold in_count in D. destruct (in_dec N.eq_dec b l); lia.
  - exists sm'. split; [exact E|]. unfold counts_le. conj; auto; try congruence. intros x Hx. rewrite A in HC. destruct (HC x Hx) as [[_ HX] _]. specialize (D x Hx).
    rewrite in_count_app by exact HN. rewrite in_count_app by exact HN1. lia.
Qed.
End Stage.

Lemma set_errors eng nr_bits blocks : nlen blocks < 2 ^ 32 -> (forall b data a, In b blocks -> eng b = Some data -> unpack_array_block u64_codec data = Ok a -> ah_max (ab_hdr a) = 509) ->
  snd (visit_array_blocks u64_codec eng (bv_visit nr_bits) (fun _ => None) (combine (range 0 (nlen blocks)) blocks)) = [] <-> bitset_fine eng nr_bits blocks.
Proof.
  intros Hl Hs. pose proof (checked_blocks eng nr_bits blocks 0 (fun _ => None)) as H. rewrite N.add_0_l in H.
  assert (HS : Forall (std_block eng) blocks). { apply Forall_forall. intros b Hin data a. apply Hs. auto. }
  specialize (H HS ltac:(change (2 ^ 32) with 4294967296 in Hl; change (2 ^ 64) with 18446744073709551616; lia)). destruct (visit_array_blocks _ _ _ _ _) as [f es]. destruct H as [-> _]. cbn [snd].
  pose proof (bitset_errors eng nr_bits blocks 0) as HB. rewrite N.add_0_l in HB. rewrite HB. unfold bitset_fine. split; intros H i b Hb; destruct (H i b Hb); split; auto; lia.
Qed.
Lemma era_errors eng current : forall blocks i, (i + nlen blocks) * 1018 < 2 ^ 32 ->
  (forall b data a, In b blocks -> eng b = Some data -> unpack_array_block u32_codec data = Ok a -> ah_max (ab_hdr a) = 1018) ->
  snd (visit_array_blocks u32_codec eng (era_visit current) tt (combine (range i (i + nlen blocks)) blocks)) = [] <->
  forall b, In b blocks -> exists eras, reads_as u32_codec eng b eras /\ Forall (fun e => e <= current) eras.
Proof.
  induction blocks as [|b blocks IH]; intros i Hl Hs.
  { cbn [combine]. destruct (range i (i + nlen (@nil N))); cbn; split; auto; intros _ b []. }
  assert (El : nlen (b :: blocks) = 1 + nlen blocks) by (unfold nlen; cbn [length]; lia). rewrite El in *.
  rewrite (range_cons i) by lia. cbn [combine visit_array_blocks]. replace (i + (1 + nlen blocks)) with (i + 1 + nlen blocks) in * by lia.
  specialize (IH (i + 1) Hl (fun b' data a H => Hs b' data a (or_intror H))). unfold visit_array_block at 1. destruct (eng b) as [data|] eqn:Eb.
  2:{ destruct (visit_array_blocks _ _ _ _ _) as [s es]. cbn [snd]. split; [discriminate|]. intros H. destruct (H b (or_introl eq_refl)) as (hs & (data & h & A & _) & _). congruence. }
  destruct (metadata_block_type data) eqn:Et; try (destruct (visit_array_blocks _ _ _ _ _) as [s es]; cbn [snd]; split; [discriminate|]; intros H; destruct (H b (or_introl eq_refl)) as (hs & (data' & h & A & B & _) & _); congruence).
  destruct (unpack_array_block u32_codec data) as [a| |] eqn:Eu; try (destruct (visit_array_blocks _ _ _ _ _) as [s es]; cbn [snd]; split; [discriminate|]; intros H; destruct (H b (or_introl eq_refl)) as (hs & (data' & h & A & _ & C) & _); congruence).
  unfold era_visit at 1. rewrite (Hs b data a (or_introl eq_refl) Eb Eu).
  destruct (unpack_array_facts u32_codec data a Eu) as [F1 F2]. rewrite (Hs b data a (or_introl eq_refl) Eb Eu) in F2.
  change (2 ^ 32) with 4294967296 in Hl. unfold W32. rewrite (N.mod_small i) by lia. rewrite (N.mod_small (i * 1018)) by lia. rewrite N.mod_small by lia.
  assert (Hf : forallb (fun e : N * N => fst e <=? current) (combine (ab_values a) (range (i * 1018) (i * 1018 + 1018))) = true <-> Forall (fun e => e <= current) (ab_values a)).
  { rewrite forallb_forall, Forall_forall.
    assert (G : forall (x : list N) (y : list N), (length x <= length y)%nat -> map fst (combine x y) = x). { induction x as [|p x IHx]; intros [|q y] H; cbn in *; try lia; auto. f_equal. apply IHx. lia. }
    split; intros H e He.
    - rewrite <- (G (ab_values a) (range (i * 1018) (i * 1018 + 1018))) in He by (rewrite range_length; unfold nlen in F1; lia). apply in_map_iff in He as (p & <- & Hp). apply N.leb_le. apply (H p Hp).
    - apply N.leb_le, H. apply (in_map fst) in He. rewrite G in He; auto. rewrite range_length. unfold nlen in F1. lia. }
  destruct (forallb _ _).
  - destruct (visit_array_blocks _ _ _ _ _) as [s es]. cbn [snd] in *. rewrite IH. split.
    + intros H x [<-|Hx]; auto. exists (ab_values a). split; [|apply Hf; auto]. exists data, (ab_hdr a). destruct a. auto.
    + intros H x Hx. apply H. right. auto.
  - destruct (visit_array_blocks _ _ _ _ _) as [s es]. cbn [snd]. split; [discriminate|]. intros H. destruct (H b (or_introl eq_refl)) as (eras & (data' & h & A & _ & C) & HE).
    assert (data' = data) by congruence. subst data'. rewrite Eu in C. apply Ok_inj in C. subst a. cbn [ab_values] in Hf. apply Hf in HE. discriminate.
Qed.

Lemma sets_ok inf nr d eng : forall sets bits sm l, nr < 2 ^ 32 -> Forall2 (fun (s : N * writeset) p => indexed d (ws_root (snd s)) (fst p) (snd p)) sets bits ->
  counts_le nr sm l -> NoDup (l ++ flat_map (fun p : list N * list N => snd p ++ fst p) bits) ->
  (forall b, In b (flat_map (fun p : list N * list N => snd p ++ fst p) bits) -> b < nr) ->
  (forall b, In b (flat_map snd bits) -> eng b = Some (d b)) ->
  (forall b data a, In b (flat_map fst bits) -> eng b = Some data -> unpack_array_block u64_codec data = Ok a -> ah_max (ab_hdr a) = 509) ->
  exists sm' errs, check_sets inf eng sm sets = Ok (sm', errs) /\ counts_le nr sm' (l ++ flat_map (fun p : list N * list N => snd p ++ fst p) bits) /\
    (errs = [] <-> Forall2 (fun (s : N * writeset) p => bitset_fine eng (ws_nr_bits (snd s)) (fst p)) sets bits).
Proof.
  intros sets bits sm l Hnr HF. revert sm l. induction HF as [|[e ws] [bl ft] sets bits HX HF IH]; intros sm l HC HN Hlt He Hs.
  { exists sm, []. cbn [flat_map check_sets]. rewrite app_nil_r. conj; auto. split; auto. }
  cbn [flat_map fst snd check_sets] in *.
  assert (HN1 : NoDup (l ++ ft ++ bl)) by (rewrite app_assoc in HN; apply nodup_pre in HN; exact HN).
  assert (Hl : nlen bl <= nr) by (apply few; [apply nodup_post in HN1; apply nodup_post in HN1; exact HN1|intros; apply Hlt; rewrite !in_app_iff; auto]).
  destruct (stage_le u64_codec inf nr d eng (bv_visit (ws_nr_bits ws)) sm l (ws_root ws) bl ft (fun _ => None) HC HX HN1) as (sm1 & E1 & C1).
  { intros b Hb. apply Hlt. apply in_or_app. auto. } { intros b Hb. apply He. apply in_or_app. auto. }
  { change (2 ^ 32) with 4294967296 in Hnr. change (2 ^ 64) with 18446744073709551616. lia. }
  rewrite E1. cbn [bind]. destruct (IH sm1 (l ++ ft ++ bl) C1) as (sm2 & errs & E2 & C2 & HI).
  { rewrite <- !app_assoc in *. exact HN. } { intros b Hb. apply Hlt. apply in_or_app. auto. } { intros b Hb. apply He. apply in_or_app. auto. }
  { intros b data a Hb. apply Hs. apply in_or_app. auto. }
  rewrite E2. cbn [bind]. eexists sm2, _. split; [reflexivity|]. split; [rewrite <- !app_assoc in *; exact C2|].
  rewrite app_nil_iff, HI, set_errors.
  - split; [intros [A B]; constructor; auto|intros H; inversion H; auto].
  - lia.
  - intros b data a Hb. apply Hs. apply in_or_app. auto.
Qed.
