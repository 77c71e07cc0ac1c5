(** Patching the bitmaps of the metadata space map and writing its index. *)
From Verif Require Import Base Csum_Model Csum_Proofs Codec_Model Codec_Spec Codec_Proofs NodeCodec_Proofs SbCodec_Proofs
  SpaceMap_Model SpaceMap_Spec SpaceMap_Proofs IoMany_Proofs Utils_Proofs Batcher_Model Batcher_Proofs
  Builder_Model Builder_Spec Builder_Proofs NodeBuilder_Proofs BtreeBuild_Proofs Array_Proofs SmWrite_Model SmWrite_Spec SmWrite_Proofs SmAlloc_Proofs SmMeta_Proofs.
From Verif Require Pack_Proofs.
Arguments write_checksum : simpl never.

Lemma set_one (f : N -> bitmap_entry) a len v : a < len ->
  firstn (N.to_nat a) (map f (range 0 len)) ++ v :: skipn (S (N.to_nat a)) (map f (range 0 len)) = map (upd f a v) (range 0 len).
Proof.
  intros Ha. rewrite (range_app 0 a len) by lia. rewrite (range_cons a len) by lia. rewrite !map_app. cbn [map].
  assert (length (map f (range 0 a)) = N.to_nat a) as L by (rewrite map_length, range_length; lia).
  rewrite firstn_app, L, Nat.sub_diag, firstn_O, app_nil_r, (firstn_all2 (map f (range 0 a))) by lia.
  rewrite skipn_app, L, (skipn_all2 (map f (range 0 a))) by lia. cbn [app].
  replace (S (N.to_nat a) - N.to_nat a)%nat with 1%nat by lia. cbn [skipn].
  rewrite upd_same. f_equal; [|f_equal]; apply map_ext_in; intros x Hx; apply in_range in Hx; rewrite upd_other by lia; auto.
Qed.
Definition in_part (a e x : N) : bool := (a <=? x) && (x <? e).
Lemma in_part_iff a e x : in_part a e x = true <-> a <= x < e.
Proof. unfold in_part. rewrite andb_true_iff, N.leb_le, N.ltb_lt. tauto. Qed.
Lemma set_entries_spec len e : e <= len -> len < W32 -> forall m a f ff, e = a + N.of_nat m ->
  exists ff', set_entries (map f (range 0 len)) (range a e) ff =
    Ok (map (fun x => if in_part a e x then Small 1 else f x) (range 0 len), ff') /\
    (ff <= len -> ff' <= len) /\ forall x, x < ff' -> x < ff \/ a <= x < e.
Proof.
  intros He Hl. induction m as [|m IH]; intros a f ff Ee.
  - rewrite (range_nil a e) by lia. cbn [set_entries]. exists ff. conj; auto. f_equal. f_equal. apply map_ext. intros x.
    assert (in_part a e x = false) as -> by (unfold in_part; destruct (N.leb_spec a x), (N.ltb_spec x e); auto; lia). auto.
  - rewrite (range_cons a e) by lia. cbn [set_entries].
    assert (nlen (map f (range 0 len)) = len) as Hlen by (unfold nlen; rewrite map_length, range_length; lia). rewrite Hlen.
    destruct (N.leb_spec len a); [lia|]. rewrite set_one by lia.
    rewrite (N.mod_small a W32) by lia.
    destruct (IH (a + 1) (upd f a (Small 1)) (if ff =? a then a + 1 else ff)) as (ff' & E & B & C); [lia|]. exists ff'. rewrite E. conj.
    + f_equal. f_equal. apply map_ext. intros x. rewrite upd_spec. unfold in_part.
      destruct (N.leb_spec (a + 1) x), (N.leb_spec a x), (N.ltb_spec x e), (N.eqb_spec x a); cbn; auto; lia.
    + intros Hff. apply B. destruct (ff =? a); lia.
    + intros x Hx. specialize (C x Hx). destruct (N.eqb_spec ff a) as [->|]; lia.
Qed.

Section SI.
Variables n max : N.
Hypothesis Hn : n < 2 ^ 64.

(** Nothing but the contents of some blocks changes. *)
Definition only (w w' : wb) (l : list N) : Prop :=
  env n max w' /\ wb_sm w' = wb_sm w /\ wb_base w' = wb_base w /\ wb_allocs w' = wb_allocs w /\
  forall x, ~ In x l -> wb_view w' x = wb_view w x.
Lemma only_refl w l : env n max w -> only w w l.
Proof. intros. unfold only. conj; auto. Qed.
Lemma only_trans w1 w2 w3 l m k : only w1 w2 l -> only w2 w3 m -> incl l k -> incl m k -> only w1 w3 k.
Proof.
  intros (A1 & A2 & A3 & A4 & A5) (B1 & B2 & B3 & B4 & B5) H1 H2. unfold only. conj; auto; try congruence.
  intros x Hx. rewrite B5, A5; auto.
Qed.
Lemma write_only w loc data kind blk : env n max w -> loc < n -> write_checksum data kind = Ok blk ->
  wp (wb_write (mkblock loc data) kind) w (fun w' _ => only w w' [loc] /\ wb_view w' loc = blk) (fun _ => False).
Proof.
  intros [Hi Hg Hj] Hl Hc. unfold wp. destruct (wb_write (mkblock loc data) kind w) as [w2 r2] eqn:E2.
  apply wb_write_spec in E2; [|auto|apply Hi].
  destruct E2 as (C1 & C2 & C3 & C4 & C5 & C6 & C7 & C8). rewrite Hc in C8. destruct C8 as (-> & Hview & _). split.
  - unfold only. conj; auto.
    + constructor; [constructor; [rewrite C3; apply Hi|auto]|rewrite C2; auto|rewrite C6; auto].
    + intros x Hx. rewrite Hview. destruct (N.eqb_spec x loc) as [->|]; auto. destruct Hx. cbn; auto.
  - rewrite Hview, N.eqb_refl. auto.
Qed.

Definition marked (p : N -> N) (rs re x : N) : N := if in_part rs re x then 1 else p x.

Lemma adjust_counts_wp w ie i a e p : env n max w -> a <= e -> e <= 16320 -> ie_blocknr ie < n -> DB (wb_view w) p i ie ->
  wp (adjust_counts ie a e) w
     (fun w' ie' => only w w' [ie_blocknr ie] /\ ie_blocknr ie' = ie_blocknr ie /\ ie_nr_free ie' < 2 ^ 32 /\
        DB (wb_view w') (marked p (i * 16320 + a) (i * 16320 + e)) i ie' /\
        (DF p i ie -> (forall x, a <= x < e -> p (i * 16320 + x) = 0) -> DF (marked p (i * 16320 + a) (i * 16320 + e)) i ie'))
     (fun _ => False).
Proof.
  intros He Hae He2 Hb ((B1 & B2 & B3 & rest & B4) & Hnf & Hsafe). unfold adjust_counts.
  apply wp_bind. unfold wp at 1. rewrite (wb_read_spec w) by (apply He; auto). cbn [b_data b_loc].
  apply wp_bind. eapply wp_lift; [exact B4|]. cbn [bm_entries bm_blocknr].
  assert (Hes : map (fun x => entry_for (p (i * 16320 + x))) (range 0 16320) ++
       repeat (Small 0) (N.to_nat 16320 - length (map (fun x => entry_for (p (i * 16320 + x))) (range 0 16320))) =
       map (fun x => entry_for (p (i * 16320 + x))) (range 0 16320)).
  { rewrite map_length, range_length, N.sub_0_r, Nat.sub_diag. cbn [repeat]. apply app_nil_r. }
  rewrite Hes.
  destruct (set_entries_spec 16320 e He2 eq_refl (N.to_nat (e - a)) a (fun x => entry_for (p (i * 16320 + x))) (ie_none_free_before ie)) as (ff & Es & F1 & F2); [lia|].
  apply wp_bind. eapply wp_lift; [exact Es|].
  set (q := marked p (i * 16320 + a) (i * 16320 + e)).
  assert (Eq : map (fun x => if in_part a e x then Small 1 else entry_for (p (i * 16320 + x))) (range 0 16320) =
               map (fun x => entry_for (q (i * 16320 + x))) (range 0 16320)).
  { apply map_ext. intros x. unfold q, marked, in_part.
    assert ((i * 16320 + a <=? i * 16320 + x) = (a <=? x)) as -> by (destruct (N.leb_spec a x), (N.leb_spec (i * 16320 + a) (i * 16320 + x)); auto; lia).
    assert ((i * 16320 + x <? i * 16320 + e) = (x <? e)) as -> by (destruct (N.ltb_spec x e), (N.ltb_spec (i * 16320 + x) (i * 16320 + e)); auto; lia).
    destruct ((a <=? x) && (x <? e)); auto. }
  rewrite Eq. set (es := map (fun x => entry_for (q (i * 16320 + x))) (range 0 16320)) in *.
  assert (Les : nlen es = 16320) by (unfold nlen, es; rewrite map_length, range_length; lia).
  destruct (bitmap_block n Hn (wb_view w (ie_blocknr ie)) (mkbitmap (ie_blocknr ie) es)) as (l & data & blk & Hp & Ho & Hw & T1 & T2 & T3 & rest' & T4).
  { cbn [bm_blocknr]. lia. }
  { cbn [bm_entries]. unfold es. apply Forall_map, Forall_forall. intros x _. apply entry_for_ok. }
  { unfold nlen in B2. lia. }
  { left. exact Les. }
  apply wp_bind. eapply wp_lift; [exact Hp|]. apply wp_bind. eapply wp_lift; [exact Ho|].
  apply wp_bind. eapply wp_mono; [apply (write_only w (ie_blocknr ie) data BITMAP blk); auto| |auto].
  intros w' _ [Honly Hv]. apply wp_ret. cbn [ie_blocknr ie_nr_free ie_none_free_before].
  conj; auto.
  - apply N.mod_lt. discriminate.
  - unfold DB. cbn [ie_blocknr ie_none_free_before]. conj; auto.
    + unfold bitmap_at. rewrite Hv. conj; auto; [unfold nlen; rewrite T3; reflexivity|]. cbn [bm_blocknr bm_entries] in T4. eauto.
    + intros x Hx. unfold q, marked. destruct (in_part (i * 16320 + a) (i * 16320 + e) (i * 16320 + x)) eqn:Ei; [lia|].
      destruct (F2 x Hx) as [H|H]; auto. assert (in_part (i * 16320 + a) (i * 16320 + e) (i * 16320 + x) = true) by (apply in_part_iff; lia). congruence.
  - intros HDF Hz. unfold DF in *. cbn [ie_nr_free].
    assert (Hu : used_in q (i * 16320) 16320 = used_in p (i * 16320) 16320 + (e - a)).
    { unfold q. clear - Hz Hae He2. remember (N.to_nat (e - a)) as m eqn:Em. revert e Hae He2 Hz Em. induction m as [|m IH]; intros e Hae He2 Hz Em.
      - assert (e = a) as -> by lia. rewrite N.sub_diag, N.add_0_r. apply used_in_ext. intros x _. unfold marked.
        destruct (in_part _ _ _) eqn:Ei; auto. apply in_part_iff in Ei. lia.
      - assert (Hlt : e - 1 < 16320) by lia. pose proof (used_in_upd (marked p (i * 16320 + a) (i * 16320 + (e - 1))) (i * 16320) (e - 1) 16320 1 Hlt) as H.
        rewrite IH in H; try lia. 2:{ intros x Hx. apply Hz. lia. }
        assert (Hm : marked p (i * 16320 + a) (i * 16320 + (e - 1)) (i * 16320 + (e - 1)) = 0).
        { unfold marked. destruct (in_part _ _ _) eqn:Ei; [apply in_part_iff in Ei; lia|]. apply Hz. lia. }
        rewrite Hm in H. change (0 =? 0) with true in H. change (1 =? 0) with false in H. cbv iota in H.
        rewrite (used_in_ext (upd (marked p (i * 16320 + a) (i * 16320 + (e - 1))) (i * 16320 + (e - 1)) 1)).
        { lia. }
        intros x Hx. rewrite upd_spec. unfold marked, in_part.
        destruct (N.eqb_spec (i * 16320 + x) (i * 16320 + (e - 1))) as [E|E].
        + rewrite E. destruct (N.leb_spec (i * 16320 + a) (i * 16320 + (e - 1))), (N.ltb_spec (i * 16320 + (e - 1)) (i * 16320 + e)); cbn; auto; lia.
        + destruct (N.leb_spec (i * 16320 + a) (i * 16320 + x)), (N.ltb_spec (i * 16320 + x) (i * 16320 + e)), (N.ltb_spec (i * 16320 + x) (i * 16320 + (e - 1))); cbn; auto; lia. }
    pose proof (used_in_le q (i * 16320) 16320) as Hle. rewrite Hu in Hle |- *. change W32 with 4294967296.
    rewrite (N.mod_small (e - a)) by lia.
    replace (ie_nr_free ie + 4294967296 - (e - a)) with ((ie_nr_free ie - (e - a)) + 1 * 4294967296) by lia.
    rewrite N.mod_add by discriminate. rewrite N.mod_small by lia. lia.
Qed.

Lemma adjust_range_wp rs re p : rs < re -> forall ies bm w, env n max w ->
  (forall i ie, nth_error ies i = Some ie -> ie_blocknr ie < n /\ ie_nr_free ie < 2 ^ 32 /\ DB (wb_view w) p (bm + N.of_nat i) ie) ->
  NoDup (map ie_blocknr ies) ->
  wp (adjust_range rs re bm ies) w
     (fun w' ies' => only w w' (map ie_blocknr ies) /\ map ie_blocknr ies' = map ie_blocknr ies /\
        forall i ie ie', nth_error ies i = Some ie -> nth_error ies' i = Some ie' ->
          ie_nr_free ie' < 2 ^ 32 /\ DB (wb_view w') (marked p rs re) (bm + N.of_nat i) ie' /\
          (DF p (bm + N.of_nat i) ie -> (forall x, rs <= x < re -> p x = 0) -> DF (marked p rs re) (bm + N.of_nat i) ie'))
     (fun _ => False).
Proof.
  intros Hr. induction ies as [|ie ies IH]; intros bm w He HD HN; cbn [adjust_range].
  - apply wp_ret. conj; auto; [apply only_refl; auto|]. intros [|i]; discriminate.
  - destruct (HD 0%nat ie eq_refl) as (Hb & Hfr & HD0). change (N.of_nat 0) with 0 in HD0. rewrite N.add_0_r in HD0.
    cbn [map] in HN. inversion HN as [|? ? Hnin HN']; subst.
    set (part := if (rs / ENTRIES_PER_BITMAP <=? bm) && (bm <? re / ENTRIES_PER_BITMAP + 1) then _ else ret ie).
    assert (Hpart : wp part w
      (fun w' ie' => only w w' [ie_blocknr ie] /\ ie_blocknr ie' = ie_blocknr ie /\ ie_nr_free ie' < 2 ^ 32 /\
         DB (wb_view w') (marked p rs re) bm ie' /\ (DF p bm ie -> (forall x, rs <= x < re -> p x = 0) -> DF (marked p rs re) bm ie'))
      (fun _ => False)).
    { unfold part. clear part. change ENTRIES_PER_BITMAP with 16320.
      destruct ((rs / 16320 <=? bm) && (bm <? re / 16320 + 1)) eqn:Ec.
      - apply andb_prop in Ec as [E1 E2]. apply N.leb_le in E1. apply N.ltb_lt in E2.
        set (a := if bm =? rs / 16320 then rs mod 16320 else 0). set (e := if bm =? re / 16320 + 1 - 1 then re mod 16320 else 16320).
        assert (Hae : a <= e /\ e <= 16320 /\ forall x, x < 16320 -> (a <= x < e <-> rs <= bm * 16320 + x < re)).
        { unfold a, e. clear - E1 E2 Hr. pose proof (N.div_mod rs 16320 ltac:(discriminate)) as D1. pose proof (N.div_mod re 16320 ltac:(discriminate)) as D2.
          pose proof (N.mod_lt rs 16320 ltac:(discriminate)) as M1. pose proof (N.mod_lt re 16320 ltac:(discriminate)) as M2.
          revert D1 D2 M1 M2 E1 E2. generalize (rs / 16320) (rs mod 16320) (re / 16320) (re mod 16320). intros qs ms qe me D1 D2 M1 M2 E1 E2.
          destruct (N.eqb_spec bm qs), (N.eqb_spec bm (qe + 1 - 1)); (split; [lia|split; [lia|intros x Hx; split; intros; lia]]). }
        destruct Hae as (A1 & A2 & A3).
        assert (Hm : forall x, x < 16320 -> marked p rs re (bm * 16320 + x) = marked p (bm * 16320 + a) (bm * 16320 + e) (bm * 16320 + x)).
        { intros x Hx. specialize (A3 x Hx). unfold marked.
          destruct (in_part rs re (bm * 16320 + x)) eqn:P1, (in_part (bm * 16320 + a) (bm * 16320 + e) (bm * 16320 + x)) eqn:P2; auto.
          - apply in_part_iff in P1. assert (in_part (bm * 16320 + a) (bm * 16320 + e) (bm * 16320 + x) = true) by (apply in_part_iff; lia). congruence.
          - apply in_part_iff in P2. assert (in_part rs re (bm * 16320 + x) = true) by (apply in_part_iff; lia). congruence. }
        eapply wp_mono; [apply (adjust_counts_wp w ie bm a e p); auto| |auto].
        intros w' ie' (O & E & F & D & DFx). conj; auto.
        + eapply DB_ext; [reflexivity| |exact D]. exact Hm.
        + intros H1 H2. eapply DF_ext; [exact Hm|]. apply DFx; auto. intros x Hx. apply H2. apply A3; [lia|auto].
      - apply wp_ret.
        assert (Hm : forall x, x < 16320 -> marked p rs re (bm * 16320 + x) = p (bm * 16320 + x)).
        { intros x Hx. unfold marked. destruct (in_part rs re (bm * 16320 + x)) eqn:P1; auto. exfalso. apply in_part_iff in P1.
          apply andb_false_iff in Ec as [Ec|Ec]; [apply N.leb_gt in Ec|apply N.ltb_ge in Ec]; clear - Ec P1 Hx; dlia. }
        conj; auto.
        + apply only_refl; auto.
        + eapply DB_ext; [reflexivity|exact Hm|auto].
        + intros H _. eapply DF_ext; [exact Hm|auto]. }
    apply wp_bind. eapply wp_mono; [exact Hpart| |auto]. clear Hpart part.
    intros w1 ie1 (O1 & E1 & F1 & D1 & DF1). apply wp_bind. eapply wp_mono; [apply (IH (bm + 1) w1)| |auto].
    + apply O1.
    + intros i ie2 Hi. destruct (HD (S i) ie2 Hi) as (A & B & C). conj; auto.
      replace (bm + 1 + N.of_nat i) with (bm + N.of_nat (S i)) by lia. eapply DB_ext; [|auto|exact C].
      apply O1. intros [Hx|[]]. apply Hnin. rewrite Hx. apply in_map. eapply nth_error_In; eauto.
    + auto.
    + intros w2 ies2 (O2 & E2 & D2). apply wp_ret. conj; auto.
      * eapply only_trans; [exact O1|exact O2| |]; intros x Hx; cbn [map In] in *; tauto.
      * cbn [map]. congruence.
      * intros [|i] ie2 ie2' Hi Hi'.
        -- cbn in Hi, Hi'. injection Hi as <-. injection Hi' as <-. rewrite N.add_0_r. conj; auto.
           eapply DB_ext; [|auto|exact D1]. apply O2. rewrite E1. auto.
        -- cbn in Hi, Hi'. replace (bm + N.of_nat (S i)) with (bm + 1 + N.of_nat i) by lia. eapply D2; eauto.
Qed.

Fixpoint marks (p : N -> N) (rs : list (N * N)) : N -> N :=
  match rs with [] => p | (s, e) :: r => marks (marked p s e) r end.
Lemma adjust_ranges_wp rs : forall lo p ies w, apart lo rs -> env n max w ->
  (forall i ie, nth_error ies i = Some ie -> ie_blocknr ie < n /\ ie_nr_free ie < 2 ^ 32 /\ DB (wb_view w) p (N.of_nat i) ie) ->
  NoDup (map ie_blocknr ies) ->
  wp (adjust_ranges rs ies) w
     (fun w' ies' => only w w' (map ie_blocknr ies) /\ map ie_blocknr ies' = map ie_blocknr ies /\
        forall i ie ie', nth_error ies i = Some ie -> nth_error ies' i = Some ie' ->
          ie_nr_free ie' < 2 ^ 32 /\ DB (wb_view w') (marks p rs) (N.of_nat i) ie' /\
          (DF p (N.of_nat i) ie -> (forall x, in_ranges rs x -> p x = 0) -> DF (marks p rs) (N.of_nat i) ie'))
     (fun _ => False).
Proof.
  induction rs as [|[s e] rs IH]; intros lo p ies w Hap He HD HN; cbn [adjust_ranges marks].
  - apply wp_ret. conj; auto; [apply only_refl; auto|]. intros i ie ie' H H'. rewrite H in H'. injection H' as <-.
    destruct (HD i ie H) as (A & B & C). conj; auto.
  - cbn [apart] in Hap. destruct Hap as (A1 & A2 & A3). apply wp_bind.
    eapply wp_mono; [apply (adjust_range_wp s e p A2 ies 0 w He); auto| |auto].
    intros w1 ies1 (O1 & E1 & D1).
    assert (Hlen : length ies1 = length ies) by (rewrite <- (map_length ie_blocknr), E1, map_length; auto).
    assert (Hboth : forall i ie, nth_error ies1 i = Some ie -> exists ie0, nth_error ies i = Some ie0 /\ ie_blocknr ie = ie_blocknr ie0).
    { intros i ie Hi. destruct (nth_error ies i) as [ie0|] eqn:E0.
      - exists ie0. split; auto. apply (map_nth_error ie_blocknr) in Hi, E0. rewrite E1 in Hi. rewrite Hi in E0. injection E0 as ->. auto.
      - exfalso. apply nth_error_None in E0. assert (i < length ies1)%nat by (apply nth_error_Some; congruence). lia. }
    eapply wp_mono; [apply (IH e (marked p s e) ies1 w1); auto| |auto].
    + apply O1.
    + intros i ie Hi. destruct (Hboth i ie Hi) as (ie0 & H0 & Eb). destruct (D1 i ie0 ie H0 Hi) as (B1 & B2 & B3).
      rewrite N.add_0_l in B2. conj; auto. rewrite Eb. apply (HD i ie0 H0).
    + rewrite E1. auto.
    + intros w2 ies2 (O2 & E2 & D2). rewrite E1 in O2. conj; auto.
      * eapply only_trans; [exact O1|exact O2|apply incl_refl|apply incl_refl].
      * congruence.
      * intros i ie ie' Hi Hi'.
        destruct (nth_error ies1 i) as [ie1|] eqn:H1.
        2:{ apply nth_error_None in H1. assert (i < length ies)%nat by (apply nth_error_Some; congruence). lia. }
        destruct (D1 i ie ie1 Hi H1) as (B1 & B2 & B3). destruct (D2 i ie1 ie' H1 Hi') as (C1 & C2 & C3).
        rewrite N.add_0_l in *. conj; auto. intros HF Hz. apply C3.
        -- apply B3; auto. intros x Hx. apply Hz. exists (s, e). split; [cbn; auto|auto].
        -- intros x (r & Hr & Hx). unfold marked. destruct (in_part s e x) eqn:Ei.
           ++ exfalso. apply in_part_iff in Ei. clear - A3 Hr Hx Ei. revert e A3 Ei. induction rs as [|[s' e'] rs IH]; intros e A3 Ei; [destruct Hr|].
              cbn [apart] in A3. destruct Hr as [<-|Hr]; [cbn [fst snd] in Hx; lia|]. apply (IH Hr e'); [tauto|lia].
           ++ apply Hz. exists r. split; [cbn; auto|auto].
Qed.
Lemma marks_spec rs : forall p x, (in_ranges rs x -> marks p rs x = 1) /\ (~ in_ranges rs x -> marks p rs x = p x).
Proof.
  induction rs as [|[s e] rs IH]; intros p x; cbn [marks].
  - split; auto. intros (r & [] & _).
  - destruct (IH (marked p s e) x) as [A B]. split.
    + intros (r & Hr & Hx). destruct (in_part s e x) eqn:Ei.
      * assert ({in_ranges rs x} + {~ in_ranges rs x}) as [D|D].
        { clear. induction rs as [|[a b] rs IH]; [right; intros (r & [] & _)|].
          destruct (in_part a b x) eqn:E; [left; exists (a, b); split; [cbn; auto|apply in_part_iff; auto]|].
          destruct IH as [H|H]; [left; destruct H as (r & Hr & Hx); exists r; split; [cbn; auto|auto]|right].
          intros (r & [<-|Hr] & Hx); [apply in_part_iff in Hx; cbn [fst snd] in Hx; congruence|]. apply H. exists r; auto. }
        -- auto.
        -- rewrite B by auto. unfold marked. rewrite Ei. auto.
      * apply A. destruct Hr as [<-|Hr]; [apply in_part_iff in Hx; cbn [fst snd] in Hx; congruence|]. exists r; auto.
    + intros H. rewrite B.
      * unfold marked. destruct (in_part s e x) eqn:Ei; auto. exfalso. apply H. exists (s, e). split; [cbn; auto|]. apply in_part_iff in Ei. auto.
      * intros (r & Hr & Hx). apply H. exists r. split; [cbn; auto|auto].
Qed.
End SI.
