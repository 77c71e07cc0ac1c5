(** The comparison of bitmaps with expected counts. *)
From Verif Require Import Base Csum_Model Codec_Model Codec_Spec SbCodec_Proofs SpaceMap_Model Pack_Proofs Builder_Spec SmCheck_Model SmCheck_Spec.


Section CE.
Variable nr : N.
(** The entries the checker looks at, with their blocks. *)
Fixpoint seen (b : N) (es : list bitmap_entry) : list (N * bitmap_entry) :=
  match es with
  | [] => []
  | e :: r => (if b <? nr then [(b, e)] else []) ++ seen (b + 1) r
  end.
Lemma seen_app : forall a b c, seen b (a ++ c) = seen b a ++ seen (b + nlen a) c.
Proof.
  induction a as [|e a IH]; intros b c; cbn [seen app].
  - f_equal. unfold nlen. cbn. lia.
  - rewrite IH, app_assoc. f_equal. f_equal. unfold nlen. cbn [length]. lia.
Qed.
Lemma seen_none : forall es b, nr <= b -> seen b es = [].
Proof.
  induction es as [|e es IH]; intros b H; cbn [seen]; auto. destruct (N.ltb_spec b nr); [lia|]. cbn. apply IH. lia.
Qed.
Lemma in_seen : forall es b x e, In (x, e) (seen b es) <-> x < nr /\ b <= x /\ nth_error es (N.to_nat (x - b)) = Some e.
Proof.
  induction es as [|e0 es IH]; intros b x e; cbn [seen].
  - split; [intros []|]. intros (_ & _ & H). destruct (N.to_nat (x - b)); discriminate.
  - rewrite in_app_iff, IH. split.
    + intros [H|(A & B & C)].
      * destruct (N.ltb_spec b nr); [|destruct H]. destruct H as [H|[]]. injection H as <- <-. conj; [lia|lia|]. rewrite N.sub_diag. auto.
      * conj; [lia|lia|]. replace (N.to_nat (x - b)) with (S (N.to_nat (x - (b + 1)))) by lia. auto.
    + intros (A & B & C). destruct (N.eq_dec x b) as [->|Hx].
      * left. destruct (N.ltb_spec b nr); [|lia]. rewrite N.sub_diag in C. cbn in C. injection C as ->. left; auto.
      * right. conj; [lia|lia|]. replace (N.to_nat (x - b)) with (S (N.to_nat (x - (b + 1)))) in C by lia. auto.
Qed.
Variable counts : N -> N.
Definition leakp (p : N * bitmap_entry) : bool := match snd p with Small 1 => counts (fst p) =? 0 | _ => false end.
Definition badp (p : N * bitmap_entry) : bool :=
  match snd p with
  | Small a => negb (leakp p) && negb (a =? counts (fst p) mod 256)
  | Overflow => counts (fst p) <? 3
  end.
Lemma leakp_iff b e : leakp (b, e) = true <-> is_leak (counts b) e.
Proof.
  unfold leakp, is_leak. cbn [fst snd]. destruct e as [a|]; [|split; [discriminate|intros [H _]; discriminate]].
  destruct (N.eq_dec a 1) as [->|Ha].
  - rewrite N.eqb_eq. split; [auto|intros [_ H]; auto].
  - split; [destruct a as [|[p|p|]]; try discriminate; lia|intros [H _]; injection H as ->; lia].
Qed.
Lemma badp_iff b e : badp (b, e) = false <-> tolerated (counts b) e.
Proof.
  unfold badp, tolerated. cbn [fst snd]. destruct e as [a|].
  - rewrite andb_false_iff, !negb_false_iff, N.eqb_eq, leakp_iff. tauto.
  - rewrite N.ltb_ge. split; [auto|]. intros [[H _]|H]; [discriminate|auto].
Qed.
Lemma seen_leaks : forall es b, map fst (filter leakp (seen b es)) =
  filter (fun x => match nth_error es (N.to_nat (x - b)) with Some (Small 1) => counts x =? 0 | _ => false end) (range b nr).
Proof.
  induction es as [|e es IH]; intros b; cbn [seen].
  - cbn [filter map]. rewrite (filter_ext_in _ (fun _ => false)).
    + induction (range b nr); auto.
    + intros x _. destruct (N.to_nat (x - b)); auto.
  - destruct (N.ltb_spec b nr) as [Hb|Hb].
    + rewrite (range_cons b nr) by lia. cbn [app filter map]. rewrite N.sub_diag. cbn [N.to_nat nth_error].
      assert (E : filter (fun x => match nth_error (e :: es) (N.to_nat (x - b)) with Some (Small 1) => counts x =? 0 | _ => false end) (range (b + 1) nr)
                = map fst (filter leakp (seen (b + 1) es))).
      { rewrite IH. apply filter_ext_in. intros x Hx. apply in_range in Hx.
        replace (N.to_nat (x - b)) with (S (N.to_nat (x - (b + 1)))) by lia. auto. }
      rewrite E. unfold leakp at 1. cbn [fst snd].
      destruct (match e with Small 1 => counts b =? 0 | _ => false end); auto.
    + rewrite seen_none by lia. rewrite range_nil by lia. auto.
Qed.
End CE.

Section CB.
Variables (sm : core_sm).
Notation counts := (sm_counts sm).
Notation nr := (sm_nr sm).
Notation seen := (seen nr).
Notation leakp := (leakp counts).
Notation badp := (badp counts).

Lemma check_entries_spec : forall es b s, c_block s = N.min b nr ->
  check_entries sm es s = Ok (mkcst (N.min (b + nlen es) nr) (c_leaks s + nlen (filter leakp (seen b es)))
                                    (c_failed s || existsb badp (seen b es)) (c_has s || existsb leakp (seen b es))).
Proof using.
  induction es as [|e es IH]; intros b s Hb; cbn [check_entries SmCheck_Proofs.seen].
  - cbn [filter existsb]. unfold nlen. cbn [length]. rewrite !orb_false_r, !N.add_0_r. f_equal. destruct s; cbn in *. subst. auto.
  - destruct (N.leb_spec nr (c_block s)) as [Hn|Hn].
    + rewrite seen_none by lia. destruct (N.ltb_spec b nr); [lia|]. cbn [app filter existsb]. rewrite !orb_false_r. f_equal.
      destruct s as [x y z w]; cbn [c_block c_leaks c_failed c_has] in *. change (nlen (@nil (N * bitmap_entry))) with 0. f_equal; [|lia].
      unfold nlen. cbn [length]. lia.
    + unfold sm_get. destruct (N.leb_spec nr (c_block s)); [lia|]. cbn [bind]. assert (Hc : c_block s = b) by lia.
      destruct (N.ltb_spec b nr); [|lia]. cbn [app filter existsb].
      rewrite (IH (b + 1)) by (cbn [c_block]; destruct e; [destruct ((_ =? 1) && _); [|destruct (negb _)]|destruct (_ <? 3)]; cbn [c_block]; lia).
      cbn [c_leaks c_failed c_has]. f_equal.
      replace (b + 1 + nlen es) with (b + nlen (e :: es)) by (unfold nlen; cbn [length]; lia).
      rewrite Hc. destruct e as [a|].
      * assert (Hl : leakp (b, Small a) = (a =? 1) && (counts b =? 0)).
        { unfold SmCheck_Proofs.leakp. cbn [fst snd]. destruct a as [|[p|p|]]; auto. }
        assert (Hbd : badp (b, Small a) = negb (leakp (b, Small a)) && negb (a =? counts b mod 256)) by auto.
        rewrite Hbd, Hl.
        destruct ((a =? 1) && (counts b =? 0)); cbn [c_block c_leaks c_failed c_has negb andb orb].
        -- f_equal; [unfold nlen; cbn [length]; lia|destruct (c_has s); auto].
        -- destruct (negb (a =? counts b mod 256)); cbn [c_block c_leaks c_failed c_has orb]; f_equal.
           destruct (c_failed s); auto.
      * assert (Hl : leakp (b, Overflow) = false) by auto.
        assert (Hbd : badp (b, Overflow) = (counts b <? 3)) by auto. rewrite Hl, Hbd.
        destruct (counts b <? 3); cbn [c_block c_leaks c_failed c_has orb]; f_equal. destruct (c_failed s); auto.
Qed.
(** The bitmaps with leaks. *)
Fixpoint listed (b : N) (locs : list N) (ess : list (list bitmap_entry)) : list leak :=
  match locs, ess with
  | loc :: locs, es :: ess => (if existsb leakp (seen b es) then [mkleak b loc] else []) ++ listed (b + nlen es) locs ess
  | _, _ => []
  end.
Variable eng : N -> option (list N).
Hypothesis Heng : blocks_ok eng.
Lemma check_bitmaps_spec : forall ies b s out, c_block s = N.min b nr ->
  match check_bitmaps eng sm (map ie_blocknr ies) s out with
  | Ok (s', out') =>
      (c_failed s = true /\ c_failed s' = true) \/
      (c_failed s = false /\ c_failed s' = true /\ forall ess, bitmaps_on eng ies ess -> existsb badp (seen b (concat ess)) = true) \/
      (c_failed s = false /\ c_failed s' = false /\ exists ess, bitmaps_on eng ies ess /\ Forall (fun es => nlen es = 16320) ess /\
         existsb badp (seen b (concat ess)) = false /\
         c_leaks s' = c_leaks s + nlen (filter leakp (seen b (concat ess))) /\
         out' = out ++ listed b (map ie_blocknr ies) ess)
  | Err => forall ess, ~ bitmaps_on eng ies ess
  | Panic => False
  end.
Proof using Heng.
  induction ies as [|ie ies IH]; intros b s out Hb; cbn [map check_bitmaps].
  - destruct (c_failed s) eqn:Ef; [auto|]. right; right. conj; auto. exists []. cbn. conj; auto.
    + constructor.
    + unfold nlen; cbn; lia.
    + rewrite app_nil_r. auto.
  - destruct (eng (ie_blocknr ie)) as [data|] eqn:Ed.
    2: { intros ess H. inversion H as [|? ? ? ? (x & _ & _ & Hx & _)]; subst. congruence. }
    destruct (Heng _ _ Ed) as [Hby Hl]. destruct (bitmap_unpack_block data Hby Hl) as (bm & Eu & Hlen & _).
    rewrite Eu. cbn [bind]. set (es := bm_entries bm) in *.
    set (fl := match metadata_block_type data with BITMAP => c_failed s | _ => true end).
    rewrite (check_entries_spec es b) by exact Hb. cbn [c_block c_leaks c_failed c_has bind orb].
    match goal with |- context [check_bitmaps eng sm _ ?s0 ?o] => specialize (IH (b + nlen es) s0 o eq_refl); set (s0' := s0) in *; set (o' := o) in * end.
    assert (Hmt : metadata_block_type data = BITMAP -> fl = c_failed s) by (intros H; unfold fl; rewrite H; auto).
    assert (Hon : forall ess, bitmaps_on eng (ie :: ies) ess -> metadata_block_type data = BITMAP /\ exists ess', ess = es :: ess' /\ bitmaps_on eng ies ess').
    { intros ess H. inversion H as [|? es0 ? ess' (x & bm' & rest & Hx & Hmt' & Hu' & He') Hr]; subst. rewrite Ed in Hx. injection Hx as <-.
      rewrite Eu in Hu'. apply Ok_inj in Hu'. injection Hu' as <- _. eauto. }
    destruct (check_bitmaps eng sm (map ie_blocknr ies) s0' o') as [[s' out']| |]; auto.
    + destruct IH as [[Ha Hb']|[(Ha & Hb' & Hc)|(Ha & Hb' & ess & He & Hlens & Hbad & Hlk & Ho)]].
      * subst s0'. cbn [c_failed] in Ha. destruct (c_failed s) eqn:Ef; [auto|]. right; left. conj; auto.
        intros ess H. destruct (Hon ess H) as (Hm & ess' & -> & _). rewrite (Hmt Hm) in Ha. cbn [orb] in Ha.
        cbn [concat]. rewrite seen_app, existsb_app, Ha. auto.
      * subst s0'. cbn [c_failed] in Ha. apply orb_false_iff in Ha as [Hf Hq]. destruct (c_failed s) eqn:Ef.
        { unfold fl in Hf. destruct (metadata_block_type data); discriminate. }
        right; left. conj; auto. intros ess H. destruct (Hon ess H) as (Hm & ess' & -> & Hr).
        cbn [concat]. rewrite seen_app, existsb_app, (Hc ess' Hr). apply orb_true_r.
      * subst s0'. cbn [c_failed c_leaks] in *. apply orb_false_iff in Ha as [Hf Hq]. destruct (c_failed s) eqn:Ef.
        { unfold fl in Hf. destruct (metadata_block_type data); discriminate. }
        assert (Hm : metadata_block_type data = BITMAP). { unfold fl in Hf. destruct (metadata_block_type data); auto; discriminate. }
        right; right. conj; auto. exists (es :: ess). conj.
        -- constructor; auto. exists data, bm, []. auto.
        -- constructor; auto.
        -- cbn [concat]. rewrite seen_app, existsb_app, Hq, Hbad. auto.
        -- cbn [concat]. rewrite seen_app, filter_app, Hlk. unfold nlen. rewrite app_length. lia.
        -- rewrite Ho. subst o'. cbn [listed].
           destruct (existsb leakp (seen b es)) eqn:Ex; auto. rewrite <- app_assoc. cbn [app]. do 3 f_equal.
           assert (Hlt : b < nr).
           { apply existsb_exists in Ex as ([x e] & Hin & _). apply in_seen in Hin. lia. }
           rewrite Hb. lia.
    + intros ess H. destruct (Hon ess H) as (_ & ess' & -> & Hr). exact (IH ess' Hr).
Qed.
(** ** What the list says *)
Lemma listed_spec : forall ies ess k, Forall (fun es => nlen es = 16320) ess -> length ies = length ess ->
  exists is, increasing (map N.of_nat is) /\
    (forall i, In i is <-> (k <= i)%nat /\ exists es, nth_error ess (i - k) = Some es /\ existsb leakp (seen (N.of_nat i * 16320) es) = true) /\
    Forall2 (fun i lk => lk_first lk = N.of_nat i * 16320 /\ exists ie, nth_error ies (i - k) = Some ie /\ lk_loc lk = ie_blocknr ie)
            is (listed (N.of_nat k * 16320) (map ie_blocknr ies) ess).
Proof using.
  induction ies as [|ie ies IH]; intros [|es ess] k HF Hl; try discriminate.
  - exists []. conj; [constructor| |constructor]. intros i. split; [intros []|]. intros (_ & es & H & _). destruct (i - k)%nat; discriminate.
  - inversion HF as [|? ? Hes HF']; subst. destruct (IH ess (S k) HF') as (is & Hi & Hin & H2); [cbn in Hl; lia|].
    cbn [map listed]. rewrite Hes. replace (N.of_nat k * 16320 + 16320) with (N.of_nat (S k) * 16320) by lia.
    assert (HW : Forall2 (fun i lk => lk_first lk = N.of_nat i * 16320 /\ exists ie0, nth_error (ie :: ies) (i - k) = Some ie0 /\ lk_loc lk = ie_blocknr ie0)
                   is (listed (N.of_nat (S k) * 16320) (map ie_blocknr ies) ess)).
    { assert (HA : forall i, In i is -> (S k <= i)%nat) by (intros i Hx; apply Hin in Hx; tauto).
      clear - H2 HA. induction H2 as [|i lk is lks [A (ie0 & B & C)] H2 IH]; constructor.
      - split; auto. exists ie0. replace (i - k)%nat with (S (i - S k)) by (specialize (HA i (or_introl eq_refl)); lia). auto.
      - apply IH. intros; apply HA; right; auto. }
    destruct (existsb leakp (seen (N.of_nat k * 16320) es)) eqn:Ex.
    + exists (k :: is). conj.
      * cbn [map]. apply increasing_strong. split; auto. intros x Hx. apply in_map_iff in Hx as (i & <- & Hx). apply Hin in Hx. lia.
      * intros i. cbn [In]. rewrite Hin. split.
        -- intros [<-|(A & es0 & B & C)].
           ++ split; [lia|]. exists es. rewrite Nat.sub_diag. auto.
           ++ split; [lia|]. exists es0. replace (i - k)%nat with (S (i - S k)) by lia. auto.
        -- intros (A & es0 & B & C). destruct (Nat.eq_dec i k) as [->|Hne]; [auto|right]. split; [lia|]. exists es0.
           replace (i - k)%nat with (S (i - S k)) in B by lia. auto.
      * constructor; auto. cbn [lk_first lk_loc]. split; auto. exists ie. rewrite Nat.sub_diag. auto.
    + exists is. conj; auto. intros i. rewrite Hin. split.
      * intros (A & es0 & B & C). split; [lia|]. exists es0. replace (i - k)%nat with (S (i - S k)) by lia. auto.
      * intros (A & es0 & B & C). destruct (Nat.eq_dec i k) as [->|Hne].
        { rewrite Nat.sub_diag in B. injection B as <-. congruence. }
        split; [lia|]. exists es0. replace (i - k)%nat with (S (i - S k)) in B by lia. auto.
Qed.
End CB.

Lemma nth_concat : forall (ess : list (list bitmap_entry)) i j es, Forall (fun es => nlen es = 16320) ess -> nth_error ess i = Some es ->
  j < 16320 -> nth_error (concat ess) (N.to_nat (N.of_nat i * 16320 + j)) = nth_error es (N.to_nat j).
Proof.
  induction ess as [|e0 ess IH]; intros i j es HF Hi Hj; [destruct i; discriminate|].
  inversion HF as [|? ? Hl HF']; subst. unfold nlen in Hl. cbn [concat]. destruct i as [|i].
  - injection Hi as <-. rewrite nth_error_app1 by lia. f_equal.
  - rewrite nth_error_app2 by lia. rewrite <- (IH i j es HF' Hi Hj). f_equal. lia.
Qed.
Lemma nth_concat_out : forall (ess : list (list bitmap_entry)) i j, Forall (fun es => nlen es = 16320) ess -> nth_error ess i = None ->
  nth_error (concat ess) (N.to_nat (N.of_nat i * 16320 + j)) = None.
Proof.
  intros ess i j HF Hi. apply nth_error_None in Hi. apply nth_error_None.
  assert (length (concat ess) = length ess * N.to_nat 16320)%nat; [|nia].
  clear Hi. induction HF as [|es ess Hl HF IH]; auto. cbn [concat]. rewrite app_length, IH. unfold nlen in Hl. cbn [length]. lia.
Qed.
Lemma leaky_iff counts nr ess i : Forall (fun es => nlen es = 16320) ess ->
  (leaky counts nr ess i <-> exists es, nth_error ess i = Some es /\ existsb (leakp counts) (seen nr (N.of_nat i * 16320) es) = true).
Proof.
  intros HF. unfold leaky, entry_of. split.
  - intros (b & e & Hb & Hn & He & Hl). destruct (nth_error ess i) as [es|] eqn:Ei.
    + exists es. split; auto. apply existsb_exists. exists (b, e). split; [|apply leakp_iff; auto].
      apply in_seen. pose proof (N.div_mod b 16320 ltac:(lia)). pose proof (N.mod_lt b 16320 ltac:(lia)). conj; [lia|lia|].
      rewrite <- He. replace b with (N.of_nat i * 16320 + b mod 16320) at 2 by lia. rewrite (nth_concat ess i _ es) by (auto; lia). f_equal. lia.
    + exfalso. pose proof (N.div_mod b 16320 ltac:(lia)). replace b with (N.of_nat i * 16320 + b mod 16320) in He by lia.
      rewrite nth_concat_out in He by auto. discriminate.
  - intros (es & Ei & Hx). apply existsb_exists in Hx as ([b e] & Hin & Hl). apply in_seen in Hin as (A & B & C).
    exists b, e. assert (Hlen : b - N.of_nat i * 16320 < 16320).
    { assert (Hn : nth_error es (N.to_nat (b - N.of_nat i * 16320)) <> None) by congruence. apply nth_error_Some in Hn.
      apply nth_error_In in Ei. rewrite Forall_forall in HF. specialize (HF es Ei). unfold nlen in HF. lia. }
    conj; [|auto| |apply leakp_iff; auto].
    + symmetry. apply (N.div_unique b 16320 (N.of_nat i) (b - N.of_nat i * 16320)); lia.
    + rewrite <- C. replace b with (N.of_nat i * 16320 + (b - N.of_nat i * 16320)) at 1 by lia. apply nth_concat; auto.
Qed.
(** ** The whole comparison *)
Lemma check_low_iff sm eng ies n lks : blocks_ok eng ->
  check_low_ref_counts eng sm ies = Ok (n, lks) <->
  exists ess, bitmaps_on eng ies ess /\
    (forall b e, b < sm_nr sm -> entry_of ess b = Some e -> tolerated (sm_counts sm b) e) /\
    n = nr_leaks (sm_counts sm) (sm_nr sm) ess /\ leaks_listed (sm_counts sm) (sm_nr sm) ies ess lks.
Proof.
  intros He. unfold check_low_ref_counts.
  pose proof (check_bitmaps_spec sm eng He ies 0 (mkcst 0 0 false false) []) as H. cbn [c_block c_leaks c_failed c_has] in H.
  specialize (H ltac:(lia)).
  assert (Hbad : forall ess, existsb (badp (sm_counts sm)) (seen (sm_nr sm) 0 (concat ess)) = false <->
    (forall b e, b < sm_nr sm -> entry_of ess b = Some e -> tolerated (sm_counts sm b) e)).
  { intros ess. split.
    - intros Hf b e Hb Hn. apply badp_iff. destruct (badp (sm_counts sm) (b, e)) eqn:Ex; auto. rewrite <- Hf. symmetry.
      apply existsb_exists. exists (b, e). split; auto. apply in_seen. conj; [auto|lia|]. rewrite N.sub_0_r. exact Hn.
    - intros HT. destruct (existsb _ _) eqn:Ex; auto. apply existsb_exists in Ex as ([b e] & Hin & Hx). apply in_seen in Hin as (A & _ & C).
      rewrite N.sub_0_r in C. rewrite (proj2 (badp_iff _ _ _) (HT b e A C)) in Hx. discriminate. }
  assert (Huniq : forall ess ess', bitmaps_on eng ies ess -> bitmaps_on eng ies ess' -> ess = ess').
  { clear. intros ess ess' H. revert ess'. induction H as [|ie es ies ess (x & bm & rest & A & B & C & D) H IH]; intros ess' H'; inversion H' as [|? ? ? ? (y & bm' & rest' & A' & B' & C' & D') H'']; subst; auto.
    rewrite A in A'. injection A' as <-. rewrite C in C'. apply Ok_inj in C'. injection C' as <- _. f_equal; auto. }
  assert (Hlist : forall ess, bitmaps_on eng ies ess -> Forall (fun es => nlen es = 16320) ess -> forall lks',
     leaks_listed (sm_counts sm) (sm_nr sm) ies ess lks' <-> lks' = listed sm 0 (map ie_blocknr ies) ess).
  { intros ess Hon HF lks'. assert (Hlen : length ies = length ess) by (clear - Hon; induction Hon; cbn; auto).
    destruct (listed_spec sm ies ess 0%nat HF Hlen) as (is & Hi & Hin & H2). cbn [N.of_nat] in H2. rewrite N.mul_0_l in H2.
    assert (Hin' : forall i, In i is <-> leaky (sm_counts sm) (sm_nr sm) ess i).
    { intros i. rewrite Hin, (leaky_iff _ _ ess i HF), Nat.sub_0_r. split; [tauto|]. intros X; split; [lia|auto]. }
    split.
    - intros (is' & Hi' & Hin'' & H2'). assert (is' = is).
      { assert (Hs : forall a b : list nat, increasing (map N.of_nat a) -> increasing (map N.of_nat b) -> (forall i, In i a <-> In i b) -> a = b).
        { clear. induction a as [|x a IH]; intros [|y b] Ha Hb Hab; auto.
          - destruct (proj2 (Hab y)); left; auto.
          - destruct (proj1 (Hab x)); left; auto.
          - cbn [map] in Ha, Hb. apply increasing_strong in Ha as [Ha1 Ha2]. apply increasing_strong in Hb as [Hb1 Hb2].
            assert (x = y).
            { destruct (proj1 (Hab x) (or_introl eq_refl)) as [->|Hx]; auto. destruct (proj2 (Hab y) (or_introl eq_refl)) as [->|Hy]; auto.
              specialize (Hb1 (N.of_nat x) (in_map _ _ _ Hx)). specialize (Ha1 (N.of_nat y) (in_map _ _ _ Hy)). lia. }
            subst y. f_equal. apply IH; auto. intros i. split; intros Hx.
            + destruct (proj1 (Hab i) (or_intror Hx)) as [->|]; auto. specialize (Ha1 (N.of_nat i) (in_map _ _ _ Hx)). lia.
            + destruct (proj2 (Hab i) (or_intror Hx)) as [->|]; auto. specialize (Hb1 (N.of_nat i) (in_map _ _ _ Hx)). lia. }
        apply Hs; auto. intros i. rewrite Hin', Hin''. tauto. }
      subst is'. clear - H2 H2'. revert H2 H2'. generalize (listed sm 0 (map ie_blocknr ies) ess). intros l H2. revert lks'.
      induction H2 as [|i lk is l [A (ie & B & C)] H2 IH]; intros lks' H'; inversion H' as [|? lk' ? l' [A' (ie' & B' & C')] H'']; subst; auto.
      f_equal; auto. rewrite Nat.sub_0_r in B. rewrite B in B'. injection B' as <-. destruct lk, lk'. cbn in *. congruence.
    - intros ->. exists is. conj; auto. clear - H2. induction H2 as [|i lk is l [A (ie & B & C)] H2 IH]; constructor; auto.
      rewrite Nat.sub_0_r in B. eauto. }
  assert (Hn : forall ess, nlen (filter (leakp (sm_counts sm)) (seen (sm_nr sm) 0 (concat ess))) = nr_leaks (sm_counts sm) (sm_nr sm) ess).
  { intros ess. unfold nr_leaks, nlen, entry_of. rewrite <- (map_length fst), (seen_leaks _ _ _ 0). do 2 f_equal.
    apply filter_ext. intros x. rewrite N.sub_0_r. auto. }
  destruct (check_bitmaps eng sm (map ie_blocknr ies) (mkcst 0 0 false false) []) as [[s' out']| |].
  - cbn [bind]. destruct H as [[? _]|[(_ & Hf & Hx)|(_ & Hf & ess & Hon & HF & Hb & Hl & Ho)]]; [discriminate| |].
    + rewrite Hf. split; [discriminate|]. intros (ess & Hon & HT & _). apply Hbad in HT. rewrite Hx in HT by auto. discriminate.
    + rewrite Hf. split.
      * intros E. apply Ok_inj in E. injection E as <- <-. exists ess. conj; auto.
        -- apply Hbad; auto.
        -- rewrite Hl, <- Hn. lia.
        -- apply (Hlist ess Hon HF). cbn [app] in Ho. auto.
      * intros (ess' & Hon' & HT & -> & HL). rewrite (Huniq ess' ess Hon' Hon) in *. apply (Hlist ess Hon HF) in HL. subst lks.
        f_equal. rewrite Hl, Hn. cbn [app] in Ho. subst out'. f_equal.
  - cbn [bind]. split; [discriminate|]. intros (ess & Hon & _). exfalso; exact (H ess Hon).
  - destruct H.
Qed.
Lemma low_total sm eng ies ess : blocks_ok eng -> bitmaps_on eng ies ess ->
  (forall b e, b < sm_nr sm -> entry_of ess b = Some e -> tolerated (sm_counts sm b) e) ->
  exists n lks, check_low_ref_counts eng sm ies = Ok (n, lks).
Proof.
  intros He Hon HT. assert (HF : Forall (fun es => nlen es = 16320) ess).
  { clear - He Hon. induction Hon as [|ie es ies ess (x & bm & rest & A & B & C & D) H IH]; constructor; auto.
    destruct (He _ _ A) as [Hb Hl]. destruct (bitmap_unpack_block x Hb Hl) as (bm' & Eu & Hlen & _). rewrite C in Eu. apply Ok_inj in Eu.
    injection Eu as <- _. congruence. }
  assert (Hlen : length ies = length ess) by (clear - Hon; induction Hon; cbn; auto).
  destruct (listed_spec sm ies ess 0%nat HF Hlen) as (is & Hi & Hin & H2). cbn [N.of_nat] in H2. rewrite N.mul_0_l in H2.
  exists (nr_leaks (sm_counts sm) (sm_nr sm) ess), (listed sm 0 (map ie_blocknr ies) ess). apply (check_low_iff sm eng ies _ _ He). exists ess. conj; auto. exists is. conj; auto.
  - intros i. rewrite Hin, (leaky_iff _ _ ess i HF), Nat.sub_0_r. split; [tauto|]. intros X; split; [lia|auto].
  - clear - H2. induction H2 as [|i lk is l [A (ie & B & C)] H2 IH]; constructor; auto. rewrite Nat.sub_0_r in B. eauto.
Qed.
