(** The two trees of build_device_details, built alternately. *)
From Verif Require Import Base Csum_Model Codec_Model Codec_Spec Codec_Proofs SpaceMap_Model SpaceMap_Spec SpaceMap_Proofs Batcher_Model Batcher_Spec Batcher_Proofs
  Builder_Model Builder_Spec Builder_Proofs Utils_Proofs NodeBuilder_Proofs BtreeBuild_Proofs Session_Model ThinOut_Model Walker_Model SmWrite_Model Restore_Model
  Array_Proofs SmWrite_Proofs.

Section Dev.
Variables n max : N.
Hypothesis Hn : n < 2 ^ 64.

Section One.
Context {V : Type}.
Variable c : codec V.
Variable rg : V -> Prop.
Hypothesis L : lossless c rg.
Hypothesis Hcs : N.of_nat (csize c) + 8 < 2 ^ 32.
Hypothesis Hm : 4 <= calc_max_entries c.
Notation rep1 := (fun (_ : unit) (_ : list V) => True).
Notation bad0 := (fun (_ : list V) (_ : V) => False).
Definition Inv1 (w1 : wb) := NodeBuilder_Proofs.Inv n max c (leaf_io V) false rep1 true w1 [] (fun _ => False).
Definition blocks (b : nbuilder V unit) : list N := map su_block (nb_nodes b).

Lemma inv_env w1 cont w b : Inv1 w1 cont w b -> env n max w.
Proof using. intros H. apply H. Qed.
Lemma inv_cnt w1 cont w b : Inv1 w1 cont w b -> forall x, cnt w x = cnt w1 x + occ x (blocks b).
Proof using. intros H. apply H. Qed.
Lemma inv_frame w1 cont w b : Inv1 w1 cont w b -> forall x, 0 < cnt w1 x -> wb_view w x = wb_view w1 x.
Proof using. intros H. apply H. Qed.
Lemma inv_base w1 cont w b : Inv1 w1 cont w b -> wb_base w = wb_base w1.
Proof using. intros H. apply H. Qed.
Lemma inv_fresh w1 cont w b : Inv1 w1 cont w b -> forall x, In x (blocks b) -> cnt w1 x = 0.
Proof using.
  intros H x Hx. apply in_map_iff in Hx as (s & <- & Hs). pose proof (c_own _ _ _ _ _ _ _ _ _ _ _ _ (v_core _ _ _ _ _ _ _ _ _ _ _ _ _ H)) as Ho.
  unfold origin in Ho. rewrite Forall_forall in Ho. specialize (Ho s Hs). destruct (own false s); [tauto|destruct Ho as [[] _]].
Qed.
(** Somebody else used the batcher meanwhile. *)
Lemma rebase w1 cont w b w' (f : N -> N) : Inv1 w1 cont w b -> env n max w' ->
  (forall x, In x (blocks b) -> wb_view w' x = wb_view w x /\ f x = 0) ->
  (forall x, cnt w' x = f x + occ x (blocks b)) ->
  exists w2, Inv1 w2 cont w' b /\ (forall x, cnt w2 x = f x) /\ (forall x, wb_view w2 x = wb_view w' x) /\ wb_base w2 = wb_base w'.
Proof using.
  intros [[He (kvss & HF & Hc & Hr) Hcnt Hfr Hb Hown] Hlen Hsh Hla Hv] He' Hx Hc'.
  set (s := wb_sm w').
  exists (set_sm w' (mksm (sm_nr s) (sm_max s) (sm_nalloc s) (sm_begin s) f)).
  conj; auto. constructor; auto. constructor; auto.
  - exists kvss. conj; auto. eapply Forall2_node_ext; [|exact HF]. intros s0 Hs. apply Hx. apply in_map. auto.
  - unfold origin in *. rewrite Forall_forall in *. intros s0 Hs. specialize (Hown s0 Hs).
    destruct (own false s0); [|destruct Hown as [[] _]]. destruct Hown as [A B]. split; auto.
    unfold cnt. cbn. apply Hx. apply in_map. auto.
Qed.
Lemma inv_new w : env n max w -> Inv1 w [] w (nb_new tt).
Proof using Hcs Hm Hn. intros. apply Inv_new; auto. Qed.
Lemma inv_push w1 cont w b k v : Inv1 w1 cont w b -> wfc rg cont -> k < 2 ^ 64 -> rg v -> (forall k', In k' (map fst cont) -> k' < k) ->
  wp (push_value c (leaf_io V) false noop_inc k v) (w, b)
     (fun s _ => Inv1 w1 (cont ++ [(k, v)]) (fst s) (snd s) /\ wfc rg (cont ++ [(k, v)])) (fun s => exhausted n max (fst s)).
Proof using L Hcs Hm Hn.
  intros HI Hw Hk Hv Hlt. eapply wp_mono.
  - eapply (push_value_wp n max Hn c rg (leaf_io V) false noop_inc rep1 bad0 L) with (vo := true) (lenient := false); eauto.
    + apply leaf_io_ok.
    + apply noop_counter.
  - intros [w' b'] _ [I2 _]. cbn [fst snd] in *. split; auto. destruct Hw as [A B]. split.
    + rewrite map_app. cbn [map fst]. apply (increasing_snoc n Hn c); auto.
      destruct (rev (map fst cont)) as [|x r] eqn:Er; auto. apply Hlt. apply in_rev. rewrite Er. left; auto.
    + apply Forall_app. split; auto.
  - intros s [[H|[H|(x & vs & [] & _)]]|[H _]]; [left; auto|right; auto|discriminate].
Qed.
Lemma inv_complete w1 cont w b : Inv1 w1 cont w b -> wfc rg cont ->
  wp (complete_tree c) (w, b)
     (fun s root => exists depth foot, grew n max w1 (fst s) foot /\ tree c (wb_view (fst s)) true depth root cont foot /\ root < n)
     (fun s => exhausted n max (fst s)).
Proof using L Hcs Hm Hn.
  intros HI Hw. unfold complete_tree. apply wp_bind. eapply wp_mono.
  - eapply (complete_wp n max Hn c rg (leaf_io V) false noop_inc rep1 bad0 L) with (vo := true); eauto.
    + apply leaf_io_ok.
    + apply noop_counter.
  - intros [w2 b2] ns (Ha & Hnd & Hb & Hc & Hd & Ho). cbn [fst snd] in *. apply wp_onw. eapply wp_mono.
    + eapply (build_btree_wp n max c rg rep1 w1 [] (fun _ => False) cont w2 ns tt false); eauto.
      unfold nodes_built. conj; auto.
    + intros w3 root (He3 & Hb3 & Hfr3 & depth & foot & Ht & Hlt & Hlv & Hinn & Hcnt). cbn [fst snd].
      exists depth, foot. conj; auto.
      destruct Hnd as (kvss & HF & _).
      assert (Hleaf : forall x, In x (map fst (leaves c (wb_view w3) depth root)) ->
         (cnt w1 x = 0 /\ occ x (map fst (leaves c (wb_view w3) depth root)) = 1) /\ x < n).
      { assert (El : map fst (leaves c (wb_view w3) depth root) = map su_block ns).
        { rewrite Hlv. clear - HF. induction HF as [|s kvs ns kvss (A & B & C & D & h & E & F & G) HF IH]; cbn [flat_map map]; auto.
          rewrite map_app, IH. cbn [leaves]. cbn [io_make leaf_io] in E. rewrite (holds_raw _ _ _ _ _ E). reflexivity. }
        rewrite El. intros x Hx. apply in_map_iff in Hx as (s & <- & Hs). split.
        - unfold origin in Ho. rewrite Forall_forall in Ho. specialize (Ho s Hs). destruct (own false s); [auto|destruct Ho as [[] _]].
        - clear - HF Hs. induction HF as [|s' kvs ns kvss (A & _) HF IH]; [destruct Hs|]. destruct Hs as [<-|Hs]; auto. }
      pose proof (fun x => foot_split c (wb_view w3) x _ _ _ _ _ Ht) as Hsp.
      assert (Hall : forall x, In x foot -> (cnt w1 x = 0 /\ occ x foot = 1) /\ x < n).
      { intros x Hx. destruct (in_dec N.eq_dec x (inner c (wb_view w3) depth root)) as [Hi|Hi]; [apply Hinn; auto|].
        apply occ_in in Hx. rewrite Hsp, (occ_not_in x (inner _ _ _ _)) in Hx by auto. rewrite Hsp, (occ_not_in x (inner _ _ _ _)) by auto.
        apply Hleaf. apply occ_in. lia. }
      constructor; auto.
      * intros x Hx. destruct (Hall x Hx) as [[Hz _] ?]. auto.
      * apply occ_NoDup. intros x. destruct (in_dec N.eq_dec x foot) as [Hx|Hx]; [|rewrite occ_not_in by auto; lia].
        destruct (Hall x Hx) as [[? ?] ?]. lia.
    + intros w3 H. auto.
  - intros s [H|[H|(x & vs & [] & _)]]; [left; auto|right; auto].
Qed.
End One.

Lemma m_dd : calc_max_entries dd_codec = 126.
Proof using. reflexivity. Qed.
Lemma m_u64' : calc_max_entries u64_codec = 252.
Proof using. reflexivity. Qed.

(** Both builders, started in [w0]. *)
Definition DI (w0 : wb) (c1 : list (N * device_detail)) (c2 : list (N * N)) (s : dst) : Prop :=
  let '((w, b1), b2) := s in
  exists w1 w2, Inv1 dd_codec w1 c1 w b1 /\ Inv1 u64_codec w2 c2 w b2 /\
    (forall x, cnt w1 x = cnt w0 x + occ x (blocks b2)) /\ (forall x, cnt w2 x = cnt w0 x + occ x (blocks b1)) /\
    (forall x, 0 < cnt w0 x -> wb_view w x = wb_view w0 x) /\ wb_base w = wb_base w0 /\ wfc dd_range c1 /\ wfc (fun v : N => v < 2 ^ 64) c2.
Definition ent1 (devs : list (N * (device_detail * N))) := map (fun p => (fst p, fst (snd p))) devs.
Definition ent2 (devs : list (N * (device_detail * N))) := map (fun p => (fst p, snd (snd p))) devs.

Lemma wp_on_details {A} (m : st (wb * nbuilder device_detail unit) A) wb1 b2 Q (E : dst -> Prop) :
  wp m wb1 (fun s a => Q (s, b2) a) (fun s => E (s, b2)) -> wp (on_details m) (wb1, b2) Q E.
Proof using. unfold wp, on_details. destruct (m wb1) as [s [a| |]]; auto. Qed.
Lemma wp_on_mapping {A} (m : st (wb * nbuilder N unit) A) w b1 b2 Q (E : dst -> Prop) :
  wp m (w, b2) (fun s a => Q ((fst s, b1), snd s) a) (fun s => E ((fst s, b1), snd s)) -> wp (on_mapping m) ((w, b1), b2) Q E.
Proof using. unfold wp, on_mapping. destruct (m (w, b2)) as [[w' b'] [a| |]]; auto. Qed.

Lemma push_devices_wp w0 devs : forall c1 c2 s, DI w0 c1 c2 s ->
  (forall k, In k (map fst c1) \/ In k (map fst c2) -> forall p, In p devs -> k < fst p) ->
  increasing (map fst devs) ->
  Forall (fun p => fst p < 2 ^ 64 /\ dd_range (fst (snd p)) /\ snd (snd p) < 2 ^ 64) devs ->
  wp (push_devices devs) s (fun s' _ => DI w0 (c1 ++ ent1 devs) (c2 ++ ent2 devs) s') (fun s' => exhausted n max (fst (fst s'))).
Proof using Hn.
  induction devs as [|[id [dd root]] devs IH]; intros c1 c2 s HD Hlt Hinc HF; cbn [push_devices].
  - apply wp_ret. cbn [ent1 ent2 map]. rewrite !app_nil_r. auto.
  - inversion HF as [|? ? (F1 & F2 & F3) HF']; subst. cbn [fst snd] in *. cbn [map fst] in Hinc.
    destruct s as [[w b1] b2]. destruct HD as (w1 & w2 & I1 & I2 & C1 & C2 & Hf & Hb & W1 & W2).
    apply wp_bind, wp_on_details. eapply wp_mono.
    + apply (inv_push dd_codec dd_range dd_lossless eq_refl ltac:(rewrite m_dd; lia) w1 c1 w b1 id dd I1 W1 F1 F2).
      intros k Hk. exact (Hlt k (or_introl Hk) _ (or_introl eq_refl)).
    + intros [w' b1'] _ [I1' W1']. cbn [fst snd] in *.
      pose proof (inv_cnt _ _ _ _ _ I1') as N1'. pose proof (inv_frame _ _ _ _ _ I1) as G1. pose proof (inv_frame _ _ _ _ _ I1') as G1'.
      assert (Hv : forall x, 0 < cnt w1 x -> wb_view w' x = wb_view w x) by (intros x Hx; rewrite G1, G1' by auto; auto).
      assert (Hfr2 : forall x, In x (blocks b2) -> wb_view w' x = wb_view w x /\ cnt w0 x + occ x (blocks b1') = 0).
      { intros x Hx. pose proof (inv_fresh _ _ _ _ _ I2 x Hx) as Hz. rewrite C2 in Hz. apply occ_in in Hx.
        split; [apply Hv; rewrite C1; lia|].
        destruct (in_dec N.eq_dec x (blocks b1')) as [Hi|Hi]; [|rewrite occ_not_in by auto; lia].
        apply (inv_fresh _ _ _ _ _ I1') in Hi. rewrite C1 in Hi. lia. }
      destruct (rebase u64_codec w2 c2 w b2 w' (fun x => cnt w0 x + occ x (blocks b1')) I2 (inv_env _ _ _ _ _ I1') Hfr2) as (w2' & I2' & C2' & V2' & B2').
      { intros x. rewrite N1', C1. lia. }
      assert (Hf' : forall x, 0 < cnt w0 x -> wb_view w' x = wb_view w0 x) by (intros x Hx; rewrite Hv by (rewrite C1; lia); auto).
      assert (Hb' : wb_base w' = wb_base w0) by (rewrite (inv_base _ _ _ _ _ I1'), <- (inv_base _ _ _ _ _ I1); auto).
      apply wp_bind, wp_on_mapping. eapply wp_mono.
      * apply (inv_push u64_codec (fun v : N => v < 2 ^ 64) u64_lossless eq_refl ltac:(rewrite m_u64'; lia) w2' c2 w' b2 id root I2' W2 F1 F3).
        intros k Hk. exact (Hlt k (or_intror Hk) _ (or_introl eq_refl)).
      * intros [w'' b2'] _ [I2'' W2'']. cbn [fst snd] in *.
        pose proof (inv_cnt _ _ _ _ _ I2'') as N2'. pose proof (inv_frame _ _ _ _ _ I2') as G2. pose proof (inv_frame _ _ _ _ _ I2'') as G2'.
        assert (Hv2 : forall x, 0 < cnt w2' x -> wb_view w'' x = wb_view w' x) by (intros x Hx; rewrite G2, G2' by auto; auto).
        assert (Hfr1 : forall x, In x (blocks b1') -> wb_view w'' x = wb_view w' x /\ cnt w0 x + occ x (blocks b2') = 0).
        { intros x Hx. pose proof (inv_fresh _ _ _ _ _ I1' x Hx) as Hz. rewrite C1 in Hz. apply occ_in in Hx.
          split; [apply Hv2; rewrite C2'; lia|].
          destruct (in_dec N.eq_dec x (blocks b2')) as [Hi|Hi]; [|rewrite occ_not_in by auto; lia].
          apply (inv_fresh _ _ _ _ _ I2'') in Hi. rewrite C2' in Hi. lia. }
        destruct (rebase dd_codec w1 _ w' b1' w'' (fun x => cnt w0 x + occ x (blocks b2')) I1' (inv_env _ _ _ _ _ I2'') Hfr1) as (w1' & I1'' & C1' & V1' & B1').
        { intros x. rewrite N2', C2'. lia. }
        eapply wp_mono; [apply (IH (c1 ++ [(id, dd)]) (c2 ++ [(id, root)]))| |auto].
        -- exists w1', w2'. conj; auto.
           ++ intros x Hx. rewrite Hv2 by (rewrite C2'; lia). auto.
           ++ rewrite (inv_base _ _ _ _ _ I2''), <- (inv_base _ _ _ _ _ I2'). auto.
        -- intros k Hk p Hp. rewrite !map_app, !in_app_iff in Hk.
           assert (id < fst p) by (eapply increasing_head_lt; [exact Hinc|apply in_map; exact Hp]).
           cbn [map fst In] in Hk. destruct Hk as [[Hk|[<-|[]]]|[Hk|[<-|[]]]]; auto.
           ++ exact (Hlt k (or_introl Hk) p (or_intror Hp)).
           ++ exact (Hlt k (or_intror Hk) p (or_intror Hp)).
        -- apply (proj1 (increasing_cons _ _)) in Hinc. exact (proj2 Hinc).
        -- auto.
        -- intros s u0 HD. cbn [ent1 ent2 map fst snd] in *. rewrite <- !app_assoc in HD. exact HD.
      * intros s H. exact H.
    + intros s H. exact H.
Qed.

Lemma device_details_wp w0 devs : env n max w0 -> increasing (map fst devs) ->
  Forall (fun p => fst p < 2 ^ 64 /\ dd_range (fst (snd p)) /\ snd (snd p) < 2 ^ 64) devs ->
  wp (build_device_details devs) w0
     (fun w r => exists depth foot depth' foot', grew n max w0 w (foot ++ foot') /\
        tree dd_codec (wb_view w) true depth (fst r) (ent1 devs) foot /\
        tree u64_codec (wb_view w) true depth' (snd r) (ent2 devs) foot' /\ fst r < n /\ snd r < n)
     (exhausted n max).
Proof using Hn.
  intros He Hinc HF. unfold build_device_details.
  assert (H : wp (_ <~ push_devices devs ;;
     details <~ on_details (complete_tree dd_codec) ;;
     mapping <~ on_mapping (complete_tree u64_codec) ;;
     ret (details, mapping)) ((w0, nb_new tt), nb_new tt)
     (fun s r => exists depth foot depth' foot', grew n max w0 (fst (fst s)) (foot ++ foot') /\
        tree dd_codec (wb_view (fst (fst s))) true depth (fst r) (ent1 devs) foot /\
        tree u64_codec (wb_view (fst (fst s))) true depth' (snd r) (ent2 devs) foot' /\ fst r < n /\ snd r < n)
     (fun s => exhausted n max (fst (fst s)))).
  { apply wp_bind. eapply wp_mono.
    - apply (push_devices_wp w0 devs [] []); auto.
      + exists w0, w0. conj; auto; try (intros x; cbn; lia); try (split; [cbn; auto|constructor]).
        * apply (inv_new dd_codec eq_refl ltac:(rewrite m_dd; lia)); auto.
        * apply (inv_new u64_codec eq_refl ltac:(rewrite m_u64'; lia)); auto.
      + intros k [[]|[]].
    - cbn [app]. intros [[w b1] b2] _ (w1 & w2 & I1 & I2 & C1 & C2 & Hf & Hb & W1 & W2).
      apply wp_bind, wp_on_details. eapply wp_mono; [apply (inv_complete dd_codec dd_range dd_lossless eq_refl ltac:(rewrite m_dd; lia) w1 _ w b1 I1 W1)| |auto].
      intros [w' b1'] droot (depth & foot & G & T & Hr). cbn [fst snd] in *.
      assert (Hv : forall x, 0 < cnt w1 x -> wb_view w' x = wb_view w x).
      { intros x Hx. rewrite (gr_frame _ _ _ _ _ G) by auto. symmetry. apply (inv_frame _ _ _ _ _ I1); auto. }
      assert (Hfr2 : forall x, In x (blocks b2) -> wb_view w' x = wb_view w x /\ cnt w0 x + occ x foot = 0).
      { intros x Hx. pose proof (inv_fresh _ _ _ _ _ I2 x Hx) as Hz. rewrite C2 in Hz. apply occ_in in Hx.
        split; [apply Hv; rewrite C1; lia|].
        destruct (in_dec N.eq_dec x foot) as [Hi|Hi]; [|rewrite occ_not_in by auto; lia].
        apply (gr_free _ _ _ _ _ G) in Hi as [Hi _]. rewrite C1 in Hi. lia. }
      destruct (rebase u64_codec w2 _ w b2 w' (fun x => cnt w0 x + occ x foot) I2 (gr_env _ _ _ _ _ G) Hfr2) as (w2' & I2' & C2' & V2' & B2').
      { intros x. rewrite (gr_cnt _ _ _ _ _ G), C1. lia. }
      apply wp_bind, wp_on_mapping. eapply wp_mono; [apply (inv_complete u64_codec (fun v : N => v < 2 ^ 64) u64_lossless eq_refl ltac:(rewrite m_u64'; lia) w2' _ w' b2 I2' W2)| |auto].
      intros [w'' b2'] mroot (depth' & foot' & G' & T' & Hr'). cbn [fst snd] in *. apply wp_ret. cbn [fst snd].
      assert (Hv2 : forall x, 0 < cnt w2' x -> wb_view w'' x = wb_view w' x).
      { intros x Hx. rewrite (gr_frame _ _ _ _ _ G') by auto. apply V2'. }
      exists depth, foot, depth', foot'. conj; auto.
      + constructor; auto.
        * apply G'.
        * intros x. rewrite (gr_cnt _ _ _ _ _ G'), C2', occ_app. lia.
        * intros x Hx. apply in_app_or in Hx as [Hx|Hx].
          -- apply (gr_free _ _ _ _ _ G) in Hx as [Hx ?]. rewrite C1 in Hx. split; [lia|auto].
          -- apply (gr_free _ _ _ _ _ G') in Hx as [Hx ?]. rewrite C2' in Hx. split; [lia|auto].
        * apply NoDup_app_iff_local. conj; [apply G|apply G'|]. intros x Hx Hx'. apply (gr_free _ _ _ _ _ G') in Hx' as [Hx' _].
          rewrite C2' in Hx'. apply occ_in in Hx. lia.
        * intros x Hx. rewrite Hv2 by (rewrite C2'; lia). rewrite Hv by (rewrite C1; lia). auto.
        * rewrite (gr_base _ _ _ _ _ G'), B2', (gr_base _ _ _ _ _ G), <- (inv_base _ _ _ _ _ I1). auto.
      + eapply tree_frame; [|exact T]. intros x Hx. apply Hv2. rewrite C2'. apply occ_in in Hx. lia.
    - intros s H. exact H. }
  unfold wp in *. destruct (bindst _ _ _) as [[[w b1] b2] [a| |]]; exact H.
Qed.
End Dev.
