(** C54: walking a btree visits every reachable node exactly once, counts every
    reference, and names every damaged node. *)
From Verif Require Import Base Csum_Model Codec_Model SpaceMap_Model SpaceMap_Spec SpaceMap_Proofs Utils_Model Utils_Spec
  Utils_Proofs UtilsNum_Proofs Pack_Proofs Batcher_Model Builder_Model Builder_Spec BtreeRead_Proofs Walker_Model Walker_Spec
  Walker_Proofs WalkTree_Proofs.

(** A visitor that accepts everything. *)
Definition accept_all {V} (_ : list (wcall V)) (_ : wcall V) : bool := true.
(** A space map as the walker is given one: counters within their maximum. *)
Definition map_ok (s : wsm) : Prop :=
  wsm_nr s < 2 ^ 64 /\ 1 <= wmax s /\ forall b, b < wsm_nr s -> wcount s b <= wmax s.
Definition root_place (path : list N) (root : N) : place := mkplace path full_range root true.

Section C54.
Context {V : Type} (c : codec V) (inf : bool) (eng : N -> option (list N)).

(** The places [W] a walk from [root] goes to: the root, and every child of a place in it
    whose block is in range and not known to the space map; each block once. *)
Record walked (s : wst V) (path : list N) (root : N) (W : list place) : Prop := {
  wk_root : In (root_place path root) W;
  wk_once : NoDup (map p_block W);
  wk_below : forall p, In p W -> p = root_place path root \/
    (p_block p < wsm_nr (w_sm s) /\ wcount (w_sm s) (p_block p) = 0 /\ exists q, In q W /\ In p (kids c inf eng q));
  wk_all : forall q p, In q W -> In p (kids c inf eng q) -> p_block p < wsm_nr (w_sm s) -> wcount (w_sm s) (p_block p) = 0 ->
    In (p_block p) (map p_block W) }.

(** The outcome of a walk that went to [W]. *)
Record outcome (s s' : wst V) (root : N) (W : list place) (r : option werr) : Prop := {
  (* every reference is counted, up to the maximum of the counters *)
  oc_counts : forall b, b < wsm_nr (w_sm s) ->
    wcount (w_sm s') b = N.min (wmax (w_sm s)) (wcount (w_sm s) b + counted (root :: pointers c inf eng W) b);
  (* the leaves are handed over, in order, and nothing else *)
  oc_visits : exists new, w_log s' = w_log s ++ new /\ filter is_visit new = flat_map (visits c inf eng) W /\
    (r = None -> forall b, b < wsm_nr (w_sm s) ->
       (wmax (w_sm s) = 1 /\ (exists m, w_sm s = WRestricted m)) \/ wcount (w_sm s') b < wmax (w_sm s) ->
       agains b new = counted (root :: pointers c inf eng W) b - (if wcount (w_sm s) b =? 0 then 1 else 0));
  (* the error names exactly the damaged places *)
  oc_names : forall n, In n (match r with Some e => names e | None => [] end) <-> exists p, In p W /\ In n (damage c inf eng p);
  oc_ok : r = None <-> forall p, In p W -> damage c inf eng p = [] }.

Lemma pointers_alt W : pointers c inf eng W = flat_map (fun p => map p_block (kids c inf eng p)) W.
Proof. reflexivity. Qed.

(** A walk of a tree the walker has not met, whatever is on the device. *)
Theorem C54_walk : forall path root (s s' : wst V) r,
  map_ok (w_sm s) -> (forall b, w_fail s b = None) -> root < wsm_nr (w_sm s) -> wcount (w_sm s) root = 0 ->
  walk c inf eng accept_all path root s = (s', r) ->
  exists W, walked s path root W /\ outcome s s' root W r.
Proof.
  intros path root s s' r HV HF Hr Hz E. unfold walk in E.
  assert (HV' : wvalid (w_sm s)) by exact HV.
  destruct (w_sm_inc root s) as [s1 rr] eqn:Ei.
  destruct (w_sm_inc_spec root s s1 rr HV' Ei) as (F1 & L1 & K1 & V1 & C1 & Hrr).
  destruct Hrr as [[_ ->]|[_ Hs]]; [|destruct (Hs Hr); destruct HV as (_ & ? & _); lia].
  rewrite Hz in E. cbn [N.ltb] in E. change (0 <? 0) with false in E. cbv iota in E.
  assert (Hrp : forall x, x < wsm_nr (w_sm s) -> 0 < wcount (w_sm s1) x <-> 0 < wcount (w_sm s) x \/ x = root).
  { intros x Hx. rewrite C1 by auto. destruct HV as (_ & ? & _). destruct (N.eqb_spec root x); lia. }
  destruct (eng root) as [data|] eqn:Er.
  - destruct (walk_node c inf eng accept_all (S (N.to_nat (wsm_nr (w_sm s)))) path full_range root data true s1) as [s2 e] eqn:Ew.
    cbn in E.
    assert (E' : s' = mkwst (w_sm s2) (w_fail s2) (w_log s2 ++ [CEnd]) /\ r = e) by (destruct e; injection E as <- <-; auto).
    destruct E' as [-> ->]. clear E.
    destruct K1 as (K1 & K2 & K3).
    destruct (walk_node_post c inf eng (S (N.to_nat (wsm_nr (w_sm s)))) path full_range root data true s1 s2 e V1) as (W & P); auto.
    { unfold nrb. rewrite K1. auto. }
    { unfold cnt. apply Hrp; auto. }
    { unfold unseen, nrb. rewrite K1. assert (HL : forall f l, (length (@filter N f l) <= length l)%nat).
      { clear. intros f l. induction l as [|x l IHl]; cbn; [auto|]. destruct (f x); cbn; lia. }
      specialize (HL (fun b => cnt s1 b =? 0) (range 0 (wsm_nr (w_sm s)))).
      rewrite range_length in HL. lia. }
    fold (root_place path root) in P.
    destruct P as [P1 P2 P3 P4 P5 P6 (new & PL & PV & PA) P7 P8 P9 Q1 Q2 Q3 Q4 Q5]. unfold nrb, cnt in *. rewrite K1 in *.
    exists W. split; split; auto.
    + apply P3. left; auto.
    + intros p Hp. destruct (P6 p Hp) as [[<-|[]]|Hq]; [auto|]. destruct (P4 p Hp) as [[<-|[]]|[Hlt Hz1]]; [auto|].
      right. conj; auto. specialize (Hrp _ Hlt). lia.
    + intros q p Hq Hp Hlt Hz1. destruct (N.eq_dec (p_block p) root) as [Heq|Hne].
      * rewrite Heq. change root with (p_block (root_place path root)). apply in_map. apply P3. left; auto.
      * apply P5; auto.
        -- specialize (Hrp _ Hlt). lia.
        -- eapply in_pointers; eauto.
    + intros b Hb. cbn [w_sm]. destruct P1 as (KK & VV & CC). unfold cnt, nrb in CC. rewrite K1 in CC. rewrite CC by auto.
      rewrite C1 by auto. rewrite K2, counted_cons. lia.
    + exists (new ++ [CEnd]). cbn [w_log]. rewrite PL, L1, <- app_assoc. conj; auto.
      * rewrite filter_app, PV. cbn [filter is_visit]. apply app_nil_r.
      * intros -> b Hb Hu. rewrite (agains_app eng). change (agains b [CEnd]) with 0. rewrite (PA eq_refl b Hb).
        2:{ destruct P1 as ((_ & KM & KR) & _ & _). unfold unsat, cnt. destruct Hu as [[_ [m Hm]]|Hu]; [left|right].
            - rewrite KR, K3, Hm. reflexivity.
            - cbn [w_sm] in Hu. rewrite KM, K2. exact Hu. }
        rewrite counted_cons. unfold zero, cnt. specialize (Hrp b Hb).
        destruct (N.eqb_spec (wcount (w_sm s1) b) 0), (N.eqb_spec (wcount (w_sm s) b) 0), (N.eqb_spec root b); subst; try lia.
    + intros n. assert (Hnm : In n (flat_map names (oerr e)) <-> In n (match e with Some e => names e | None => [] end)).
      { destruct e; cbn; [rewrite app_nil_r|]; tauto. }
      rewrite <- Hnm. split.
      * intros Hn. destruct (Q2 n Hn) as [?|(b & e0 & _ & Hf & _)]; [auto|]. rewrite F1, HF in Hf. discriminate.
      * intros (p & Hp & Hn). apply (Q1 p Hp). auto.
    + split; [intros H; apply Q4; rewrite H; auto|]. intros H. assert (HE : oerr e = []). { apply Q3; auto. intros b. rewrite F1. apply HF. }
      destruct e; [discriminate|auto].
  - injection E as <- <-. exists [root_place path root].
    assert (HC : content_of c inf eng (root_place path root) = Unreadable).
    { unfold content_of. cbn [root_place p_block]. rewrite Er. auto. }
    assert (HK : kids c inf eng (root_place path root) = []) by (unfold kids; rewrite HC; auto).
    assert (HD : damage c inf eng (root_place path root) = [EIoRoot path]) by (unfold damage; rewrite HC; auto).
    assert (HP : pointers c inf eng [root_place path root] = []) by (unfold pointers; cbn [flat_map]; rewrite HK; auto).
    split; split.
    + left; auto.
    + cbn. constructor; [intros []|constructor].
    + intros p [<-|[]]. auto.
    + intros q p [<-|[]] Hp. rewrite HK in Hp. destruct Hp.
    + intros b Hb. rewrite HP, counted_cons, counted_nil, N.add_0_r. apply C1; auto.
    + exists []. rewrite app_nil_r. conj; auto; [|discriminate]. unfold visits. cbn. rewrite HC. auto.
    + intros n. cbn. split.
      * intros [<-|[]]. exists (root_place path root). rewrite HD. cbn. auto.
      * intros (p & [<-|[]] & Hn). rewrite HD in Hn. destruct Hn as [<-|[]]; auto.
    + split; [discriminate|]. intros H. specialize (H _ (or_introl eq_refl)). rewrite HD in H. discriminate.
Qed.

(** A successful walk visits exactly the reachable blocks. *)
Theorem C54_success_visits_exactly_the_reachable_blocks : forall path root (s s' : wst V),
  map_ok (w_sm s) -> (forall b, w_fail s b = None) -> root < wsm_nr (w_sm s) -> wcount (w_sm s) root = 0 ->
  walk c inf eng accept_all path root s = (s', None) ->
  exists W, walked s path root W /\ outcome s s' root W None /\
    forall b, In b (map p_block W) <-> reachable c inf eng (wsm_nr (w_sm s)) (fun b => wcount (w_sm s) b <> 0) root b.
Proof.
  intros path root s s' HV HF Hr Hz E. destruct (C54_walk path root s s' None HV HF Hr Hz E) as (W & HW & HO).
  exists W. conj; auto. destruct HW as [W1 W2 W3 W4]. destruct HO as [_ _ _ O4].
  assert (HD : forall p, In p W -> damage c inf eng p = []) by (apply O4; auto). clear O4.
  assert (Hroot : forall p, In p W -> p_root p = (p_block p =? root)).
  { intros p Hp. destruct (W3 p Hp) as [->|(_ & _ & q & Hq & Hk)]; [cbn; rewrite N.eqb_refl; auto|].
    assert (Hpf : p_root p = false).
    { unfold kids, content_of in Hk. destruct (eng (p_block q)); [|destruct Hk]. destruct (check_and_unpack_node _ _ _ _) as [[]| |]; try destruct Hk.
      destruct (split_key_ranges _ _); [|destruct Hk|destruct Hk]. apply in_map_iff in Hk as (kb & <- & _). auto. }
    rewrite Hpf. symmetry. apply N.eqb_neq. intros Heq.
    assert (p = root_place path root).
    { clear - W1 W2 Hp Heq. change root with (p_block (root_place path root)) in Heq.
      revert W1 W2 Hp Heq. generalize (root_place path root). intros p0. clear - p. induction W as [|x W IH]; [intros []|].
      cbn [map In]. intros H1 H2 H3 H4. inversion H2; subst. destruct H1 as [->|H1], H3 as [->|H3]; auto.
      - exfalso. match goal with H : ~ _ |- _ => apply H end. rewrite <- H4. apply in_map; auto.
      - exfalso. match goal with H : ~ _ |- _ => apply H end. rewrite H4. apply in_map; auto. }
    subst p. discriminate. }
  intros b. split.
  - (* a walked place is reachable: the path to it grows *)
    intros Hb. apply in_map_iff in Hb as (p & <- & Hp).
    assert (HH : forall n p, (length (p_path p) <= n)%nat -> In p W ->
              reachable c inf eng (wsm_nr (w_sm s)) (fun b => wcount (w_sm s) b <> 0) root (p_block p)).
    { induction n as [|n IHn]; intros p0 Hl Hp0; destruct (W3 p0 Hp0) as [->|(Hlt & Hu & q & Hq & Hk)]; try constructor.
      - unfold kids, content_of in Hk. destruct (eng (p_block q)); [|destruct Hk]. destruct (check_and_unpack_node _ _ _ _) as [[]| |]; try destruct Hk.
        destruct (split_key_ranges _ _); [|destruct Hk|destruct Hk]. apply in_map_iff in Hk as (kb & <- & _). cbn [p_path] in Hl.
        rewrite app_length in Hl. cbn in Hl. lia.
      - pose proof (Hroot q Hq) as Hrq.
        unfold kids, content_of in Hk. destruct (eng (p_block q)) as [data|] eqn:Eq; [|destruct Hk].
        destruct (check_and_unpack_node c (mkblock (p_block q) data) inf (p_root q)) as [[h ks vs|h ks vs]| |] eqn:Ec; try destruct Hk.
        destruct (split_key_ranges _ _); [|destruct Hk|destruct Hk]. apply in_map_iff in Hk as (kb & <- & Hkb). cbn [p_path p_block] in *.
        rewrite app_length in Hl. cbn in Hl.
        eapply reach_child with (b := p_block q) (data := data) (h := h) (ks := ks) (vs := vs); auto.
        + apply IHn; auto. lia.
        + rewrite <- Hrq. auto.
        + destruct kb. apply in_combine_r in Hkb. auto. }
    apply (HH (length (p_path p)) p); auto.
  - intros HR. induction HR as [|b data h ks vs x HR IH Eb Ec Hx Hlt Hk].
    + change root with (p_block (root_place path root)). apply in_map; auto.
    + apply in_map_iff in IH as (q & Hqb & Hq). pose proof (Hroot q Hq) as Hrq. rewrite Hqb in Hrq. rewrite <- Hrq in Ec.
      specialize (HD q Hq). unfold damage, content_of in HD. rewrite Hqb, Eb, Ec in HD.
      destruct (split_key_ranges (p_kr q) ks) as [krs| |] eqn:Es; try discriminate.
      assert (Hl : length krs = length vs).
      { rewrite (split_length _ _ _ Es). exact (unpack_lengths c inf eng _ _ _ _ _ _ Ec). }
      assert (Hin : In x (map snd (combine krs vs))) by (rewrite map_snd_combine'; auto).
      apply in_map_iff in Hin as (kb & Hkb1 & Hkb2).
      assert (Hkid : In (mkplace (p_path q ++ [p_block q]) (fst kb) (snd kb) false) (kids c inf eng q)).
      { unfold kids, content_of. rewrite Hqb, Eb, Ec, Es. apply in_map_iff. exists kb. auto. }
      pose proof (W4 q _ Hq Hkid) as H4. cbn [p_block] in H4. rewrite Hkb1 in H4. apply H4; auto.
      destruct (N.eq_dec (wcount (w_sm s) x) 0); tauto.
Qed.

(** A later walk with the same walker: a subtree that is known to be damaged is reported
    again wherever it is met, and nothing else is. *)
Theorem C54_known_damage_reported_again : forall path root (s s' : wst V) r m,
  map_ok (w_sm s) -> w_sm s = WRestricted m -> root < wsm_nr (w_sm s) -> wcount (w_sm s) root = 0 ->
  walk c inf eng accept_all path root s = (s', r) ->
  exists W, walked s path root W /\
    (r = None -> (forall p, In p W -> damage c inf eng p = []) /\
       forall q p, In q W -> In p (kids c inf eng q) -> p_block p < wsm_nr (w_sm s) -> 0 < wcount (w_sm s) (p_block p) ->
         w_fail s (p_block p) = None) /\
    (forall p, In p W -> incl (damage c inf eng p) (match r with Some e => names e | None => [] end)) /\
    (forall n, In n (match r with Some e => names e | None => [] end) ->
       (exists p, In p W /\ In n (damage c inf eng p)) \/
       (exists q p e, In q W /\ In p (kids c inf eng q) /\ w_fail s (p_block p) = Some e /\ In n (names e))).
Proof.
  intros path root s s' r m HV Hres Hr Hz E.
  assert (HV' : wvalid (w_sm s)) by exact HV.
  destruct (eng root) as [data|] eqn:Er.
  2:{ (* the root cannot be read: as in a first walk *)
      assert (E0 : walk c inf eng accept_all path root (mkwst (w_sm s) (fun _ => None) (w_log s)) =
                   (mkwst (w_sm s') (fun _ => None) (w_log s'), r)).
      { unfold walk, w_sm_inc in *. cbn [w_sm w_fail w_log]. rewrite Hres in *. cbn [wsm_get wcount wsm_nr] in *. unfold rsm_get in *.
        destruct (N.leb_spec (r_nr m) root); [lia|]. destruct (r_bits m root); [discriminate|].
        cbn [wsm_inc] in *. destruct (rsm_inc m root 1) as [m' rr] eqn:Ei; destruct rr;
          cbn [N.ltb N.compare] in *; change (0 <? 0) with false in *; cbv iota in *; rewrite ?Er in *;
          injection E as <- <-; cbn; rewrite ?Er; auto. }
      destruct (C54_walk path root (mkwst (w_sm s) (fun _ => None) (w_log s)) _ r HV (fun _ => eq_refl) Hr Hz E0) as (W & HW & HO). exists W.
      destruct HW as [W1 W2 W3 W4], HO as [_ _ O3 O4]. conj.
      - split; auto.
      - intros HN. split; [apply O4; auto|]. exfalso. subst r. 
        assert (damage c inf eng (root_place path root) = []) as HD by (apply O4; auto).
        unfold damage, content_of in HD. cbn [root_place p_block] in HD. rewrite Er in HD. discriminate.
      - intros p Hp n Hn. apply O3. eauto.
      - intros n Hn. left. apply O3. auto. }
  unfold walk in E. destruct (w_sm_inc root s) as [s1 rr] eqn:Ei.
  destruct (w_sm_inc_spec root s s1 rr HV' Ei) as (F1 & L1 & K1 & V1 & C1 & Hrr).
  destruct Hrr as [[_ ->]|[_ Hs]]; [|destruct (Hs Hr) as [Hs1 _]; rewrite Hres in Hs1; discriminate].
  rewrite Hz in E. change (0 <? 0) with false in E. cbv iota in E.
  assert (Hrp : forall x, x < wsm_nr (w_sm s) -> 0 < wcount (w_sm s1) x <-> 0 < wcount (w_sm s) x \/ x = root).
  { intros x Hx. rewrite C1 by auto. destruct HV as (_ & ? & _). destruct (N.eqb_spec root x); lia. }
  rewrite Er in E.
  destruct (walk_node c inf eng accept_all (S (N.to_nat (wsm_nr (w_sm s)))) path full_range root data true s1) as [s2 e] eqn:Ew.
  cbn in E. assert (E' : r = e) by (destruct e; injection E as <- <-; auto). subst e. clear E.
  destruct K1 as (K1 & K2 & K3).
  destruct (walk_node_post c inf eng (S (N.to_nat (wsm_nr (w_sm s)))) path full_range root data true s1 s2 r V1) as (W & P); auto.
  { unfold nrb. rewrite K1. auto. }
  { unfold cnt. apply Hrp; auto. }
  { unfold unseen, nrb. rewrite K1. assert (HL : forall f l, (length (@filter N f l) <= length l)%nat).
    { clear. intros f l. induction l as [|x l IHl]; cbn; [auto|]. destruct (f x); cbn; lia. }
    specialize (HL (fun b => cnt s1 b =? 0) (range 0 (wsm_nr (w_sm s)))).
    rewrite range_length in HL. lia. }
  fold (root_place path root) in P.
  destruct P as [P1 P2 P3 P4 P5 P6 _ P7 P8 P9 Q1 Q2 Q3 Q4 Q5]. unfold nrb, cnt in *. rewrite K1 in *.
  assert (Hnm : flat_map names (oerr r) = match r with Some e => names e | None => [] end).
  { destruct r; cbn; [apply app_nil_r|auto]. }
  rewrite Hnm in *. exists W. conj.
  - split; auto.
    + apply P3. left; auto.
    + intros p Hp. destruct (P6 p Hp) as [[<-|[]]|Hq]; [auto|]. destruct (P4 p Hp) as [[<-|[]]|[Hlt Hz1]]; [auto|].
      right. conj; auto. specialize (Hrp _ Hlt). lia.
    + intros q p Hq Hp Hlt Hz1. destruct (N.eq_dec (p_block p) root) as [Heq|Hne].
      * rewrite Heq. change root with (p_block (root_place path root)). apply in_map. apply P3. left; auto.
      * apply P5; auto.
        -- specialize (Hrp _ Hlt). lia.
        -- eapply in_pointers; eauto.
  - intros ->. split; [apply Q4; auto|]. intros q p Hq Hp Hlt Hpos. rewrite <- F1. apply (Q5 eq_refl); auto.
    + rewrite K3, Hres. auto.
    + eapply in_pointers; eauto.
    + apply Hrp; auto.
  - auto.
  - intros n Hn. destruct (Q2 n Hn) as [?|(b & e & Hb & Hf & Hne)]; auto. right.
    apply in_flat_map in Hb as (q & Hq & Hb). apply in_map_iff in Hb as (p & <- & Hp). exists q, p, e. rewrite <- F1. auto.
Qed.

(** A tree met before is not visited again: one call says so, or the error found the
    first time is returned again. *)
Theorem C54_known_root : forall path root (s s' : wst V) r,
  map_ok (w_sm s) -> root < wsm_nr (w_sm s) -> 0 < wcount (w_sm s) root ->
  (exists m, w_sm s = WRestricted m) \/ wcount (w_sm s) root < wmax (w_sm s) ->
  walk c inf eng accept_all path root s = (s', r) ->
  r = w_fail s root /\
  w_log s' = w_log s ++ (match w_fail s root with None => [CAgain path root] | Some _ => [] end) ++ [CEnd] /\
  forall b, b < wsm_nr (w_sm s) -> wcount (w_sm s') b = N.min (wmax (w_sm s)) (wcount (w_sm s) b + (if root =? b then 1 else 0)).
Proof.
  intros path root s s' r HV Hr Hp Hu E. unfold walk in E.
  assert (HV' : wvalid (w_sm s)) by exact HV.
  destruct (w_sm_inc root s) as [s1 rr] eqn:Ei.
  destruct (w_sm_inc_spec root s s1 rr HV' Ei) as (F1 & L1 & K1 & V1 & C1 & Hrr).
  destruct Hrr as [[_ ->]|[_ Hs]].
  2:{ destruct (Hs Hr) as [Hs1 Hs2]. destruct Hu as [[m Hu]|Hu]; [rewrite Hu in Hs1; discriminate|lia]. }
  destruct (N.ltb_spec 0 (wcount (w_sm s) root)); [|lia]. rewrite F1 in E.
  destruct (w_fail s root) as [e|]; cbn in E; injection E as <- <-; cbn [w_sm w_log]; rewrite L1; conj; auto.
  rewrite <- app_assoc. reflexivity.
Qed.
End C54.

(** ** An undamaged tree *)
Section Tree.
Context {V : Type} (c : codec V) (inf : bool).

Lemma bmap_insert_last (m : list (N * V)) k v : (forall x, In x (map fst m) -> x < k) -> bmap_insert k v m = m ++ [(k, v)].
Proof.
  induction m as [|[k' v'] m IH]; intros H; [auto|]. cbn [bmap_insert app]. pose proof (H k' (or_introl eq_refl)).
  destruct (N.ltb_spec k k'); [lia|]. destruct (N.eqb_spec k k'); [lia|]. f_equal. apply IH. intros x Hx. apply H. right; auto.
Qed.
Lemma collect_pairs : forall (kvs m : list (N * V)), increasing (map fst (m ++ kvs)) ->
  fold_left (fun m kv => bmap_insert (fst kv) (snd kv) m) kvs m = m ++ kvs.
Proof.
  induction kvs as [|[k v] kvs IH]; intros m H; [rewrite app_nil_r; auto|]. cbn [fold_left fst snd].
  rewrite bmap_insert_last.
  - rewrite IH; rewrite <- app_assoc; auto.
  - intros x Hx. rewrite map_app in H. apply increasing_app in H as (_ & _ & H). apply H; auto. left; auto.
Qed.
Lemma collect_log : forall (log : list (wcall V)) m, increasing (map fst (m ++ flat_map call_entries log)) ->
  fold_left (fun m x => match x with
     | CVisit _ _ _ ks vs => fold_left (fun m kv => bmap_insert (fst kv) (snd kv) m) (combine ks vs) m | _ => m end) log m
  = m ++ flat_map call_entries log.
Proof.
  induction log as [|x log IH]; intros m H; [cbn; rewrite app_nil_r; auto|]. cbn [fold_left flat_map] in *.
  rewrite app_assoc in H. destruct x as [path kr h ks vs|path b|]; cbn [call_entries] in *.
  - rewrite collect_pairs.
    + rewrite IH; auto. rewrite <- app_assoc. auto.
    + rewrite map_app in H. apply increasing_app in H as (H & _ & _). auto.
  - rewrite app_nil_r in H. cbn [app]. apply IH; auto.
  - rewrite app_nil_r in H. cbn [app]. apply IH; auto.
Qed.

Lemma undamaged_walk_sm : forall eng d depth root kvs foot path (s : wst V),
  tree c d true depth root kvs foot -> NoDup foot -> increasing (map fst kvs) ->
  map_ok (w_sm s) -> (forall b, In b foot -> b < wsm_nr (w_sm s) /\ wcount (w_sm s) b = 0 /\ eng b = Some (d b)) ->
  exists s' calls, walk c inf eng accept_all path root s = (s', None) /\ w_log s' = w_log s ++ calls ++ [CEnd] /\
    flat_map call_entries calls = kvs /\ Forall leaf_call calls /\ ends calls None /\ (kvs <> [] -> Forall full_call calls) /\ (wkind (w_sm s) (w_sm s') /\ wvalid (w_sm s')) /\
    forall b, b < wsm_nr (w_sm s) -> wcount (w_sm s') b = wcount (w_sm s) b + (if in_dec N.eq_dec b foot then 1 else 0).
Proof.
  intros eng d depth root kvs foot path s HT HN Hi HV Hf. unfold walk.
  destruct (tree_blocks c eng d depth true root kvs foot HT) as (r & Er & Hdl).
  destruct (Hf root) as (Hr & Hz & Heng). { rewrite Er; left; auto. }
  destruct (w_sm_inc root s) as [s1 rr] eqn:Ei.
  destruct (w_sm_inc_spec root s s1 rr HV Ei) as (F1 & L1 & K1 & V1 & C1 & Hrr).
  pose proof HV as (Hnr & Hm & Hcm).
  destruct Hrr as [[_ ->]|[_ Hs]]; [|destruct (Hs Hr); lia].
  rewrite Hz, Heng. change (0 <? 0) with false. cbv iota.
  assert (Hlen : (length foot <= N.to_nat (wsm_nr (w_sm s)))%nat).
  { enough (nlen foot <= wsm_nr (w_sm s)) by (unfold nlen in *; lia). apply nodup_bound; auto. rewrite Forall_forall. intros x Hx. apply Hf; auto. }
  destruct K1 as (K1 & K2 & K3).
  destruct (tree_walk c inf eng d depth true root kvs foot HT (S (N.to_nat (wsm_nr (w_sm s)))) path full_range s1) as (s2 & calls & E2 & C2 & F2 & L2 & KV & KL & KE & KU); auto.
  { lia. }
  { intros x Hx. unfold nrb. rewrite K1. apply Hf; auto. }
  { intros x Hx. unfold cnt. rewrite Er in Hx. cbn [tl] in Hx. assert (In x foot) as Hx' by (rewrite Er; right; auto).
    destruct (Hf x Hx') as (Hlt & Hx0 & _). rewrite C1 by auto. rewrite Hx0.
    destruct (N.eqb_spec root x) as [->|]; [|lia]. rewrite Er in HN. inversion HN; tauto. }
  { intros x Hx. apply Hf; auto. }
  { intros k _. split; cbn; auto. }
  change (walk_node c inf eng accept_all (S (N.to_nat (wsm_nr (w_sm s)))) path full_range root (d root) true s1)
    with (walk_node c inf eng (fun _ _ => true) (S (N.to_nat (wsm_nr (w_sm s)))) path full_range root (d root) true s1).
  rewrite E2. cbn. eexists _, calls. split; [reflexivity|]. cbn [w_log w_sm]. conj; auto.
  - rewrite L2, L1, <- app_assoc. auto.
  - destruct C2 as ((Q1 & Q2 & Q3) & Q4 & _). unfold wkind. cbn [w_sm]. rewrite Q1, Q2, Q3. auto.
  - apply C2.
  - intros b Hb. destruct C2 as (_ & _ & CC). unfold nrb, cnt in CC. rewrite CC by (rewrite K1; auto). rewrite C1 by auto. rewrite K2.
    assert (HC : (if root =? b then 1 else 0) + counted (tl foot) b = if in_dec N.eq_dec b foot then 1 else 0).
    { rewrite <- counted_cons. rewrite Er at 1. cbn [tl]. rewrite <- Er.
      pose proof (counted_nodup eng foot b HN) as Hc1. pose proof (counted_in foot b) as Hc2.
      destruct (in_dec N.eq_dec b foot); [|destruct (counted foot b); [auto|]; exfalso; apply n, Hc2; lia].
      apply Hc2 in i. lia. }
    rewrite <- HC. specialize (Hcm b Hb).
    destruct (in_dec N.eq_dec b foot) as [Hin|].
    + destruct (Hf b Hin) as (_ & Hb0 & _). rewrite Hb0. lia.
    + lia.
Qed.

Lemma undamaged_walk : forall eng d depth root kvs foot path (s : wst V),
  tree c d true depth root kvs foot -> NoDup foot -> increasing (map fst kvs) ->
  map_ok (w_sm s) -> (forall b, In b foot -> b < wsm_nr (w_sm s) /\ wcount (w_sm s) b = 0 /\ eng b = Some (d b)) ->
  exists s' calls, walk c inf eng accept_all path root s = (s', None) /\ w_log s' = w_log s ++ calls ++ [CEnd] /\
    flat_map call_entries calls = kvs /\ Forall leaf_call calls /\ ends calls None /\ (kvs <> [] -> Forall full_call calls) /\
    forall b, b < wsm_nr (w_sm s) -> wcount (w_sm s') b = wcount (w_sm s) b + (if in_dec N.eq_dec b foot then 1 else 0).
Proof.
  intros eng d depth root kvs foot path s HT HN Hi HV Hf.
  destruct (undamaged_walk_sm eng d depth root kvs foot path s HT HN Hi HV Hf) as (s' & calls & A & B & C & D & E & F & _ & G). exists s', calls. auto 8.
Qed.

(** A walk of a well-formed tree: no error, the entries are handed over leaf by leaf in
    key order, each within the key range it is given, and every block is counted once. *)
Theorem C54_undamaged_tree : forall eng d depth root kvs foot path (s : wst V),
  tree c d true depth root kvs foot -> NoDup foot -> increasing (map fst kvs) ->
  map_ok (w_sm s) -> (forall b, In b foot -> b < wsm_nr (w_sm s) /\ wcount (w_sm s) b = 0 /\ eng b = Some (d b)) ->
  exists s' calls, walk c inf eng accept_all path root s = (s', None) /\ w_log s' = w_log s ++ calls ++ [CEnd] /\
    flat_map call_entries calls = kvs /\ Forall leaf_call calls /\
    forall b, b < wsm_nr (w_sm s) -> wcount (w_sm s') b = wcount (w_sm s) b + (if in_dec N.eq_dec b foot then 1 else 0).
Proof.
  intros eng d depth root kvs foot path s HT HN Hi HV Hf.
  destruct (undamaged_walk eng d depth root kvs foot path s HT HN Hi HV Hf) as (s' & calls & A & B & C & D & _ & _ & E). exists s', calls. auto.
Qed.

(** btree_to_map gives exactly the entries of the tree, in key order. *)
Theorem C54_btree_to_map : forall eng d depth root kvs foot nr,
  tree c d true depth root kvs foot -> NoDup foot -> increasing (map fst kvs) -> nr < 2 ^ 64 ->
  (forall b, In b foot -> b < nr /\ eng b = Some (d b)) ->
  btree_to_map c nr eng inf root = Ok kvs.
Proof.
  intros eng d depth root kvs foot nr HT HN Hi Hnr Hf. unfold btree_to_map.
  destruct (C54_undamaged_tree eng d depth root kvs foot [0] (walker_new nr) HT HN Hi) as (s' & calls & E & L & K & _ & _).
  - unfold map_ok, walker_new, rsm_new. cbn [w_sm wsm_nr wmax wcount r_nr r_bits]. split; [auto|split; [lia|intros; lia]].
  - intros b Hb. cbn. destruct (Hf b Hb). auto.
  - unfold accept_all in E. rewrite E. f_equal. unfold collect_values. rewrite L. cbn [walker_new w_log app].
    rewrite fold_left_app. cbn [fold_left].
    rewrite collect_log; cbn [app]; rewrite ?K; auto.
Qed.
End Tree.

(** ** Where the walker falls short *)
Definition packed (n : node N) : list N :=
  match write_checksum (firstn 4096 (pack_node u64_codec n ++ repeat 0 4096)) NODE with Ok b => b | _ => [] end.
(** An internal root with two children, the second beyond the end of the device. *)
Definition ex_leaf : list N := packed (Leaf (mknh 1 true 84 252 8) (map (fun i => 2 * i) (nseq 0 84)) (nseq 0 84)).
Definition ex_root : list N := packed (Internal (mknh 3 false 2 252 8) [0; 500] [1; 99]).
Definition ex_eng (b : N) : option (list N) := match b with 1 => Some ex_leaf | 3 => Some ex_root | _ => None end.

(** A child pointer beyond the end of the device is skipped: the walk succeeds although
    a whole subtree was never seen. *)
Theorem C54_out_of_range_child_skipped_refuted :
  match walk u64_codec false ex_eng accept_all [0] 3 (walker_new 10) with
  | (s', r) => r = None /\ flat_map call_entries (w_log s') = combine (map (fun i => 2 * i) (nseq 0 84)) (nseq 0 84)
  end /\
  kids u64_codec false ex_eng (root_place [0] 3) = [mkplace [0; 3] (mkkr (Some 0) (Some 500)) 1 false; mkplace [0; 3] (mkkr (Some 500) None) 99 false] /\
  ex_eng 99 = None.
Proof. conj; vm_compute; auto. Qed.

(** An unreadable root is not remembered: the second walk of it succeeds. *)
Theorem C54_unreadable_root_forgotten_refuted : forall path root nr, root < nr -> nr < 2 ^ 64 ->
  let '(s1, r1) := walk u64_codec false (fun _ => None) accept_all path root (walker_new nr) in
  let '(s2, r2) := walk u64_codec false (fun _ => None) accept_all path root s1 in
  r1 = Some (EIoRoot path) /\ r2 = None.
Proof.
  intros path root nr Hr Hn.
  assert (HV : map_ok (w_sm (@walker_new N nr))). { unfold map_ok, walker_new, rsm_new. cbn [w_sm wsm_nr wmax wcount r_nr r_bits]. split; [auto|split; [lia|intros; lia]]. }
  unfold walk at 1. destruct (w_sm_inc root (walker_new nr)) as [s1 rr] eqn:Ei.
  destruct (w_sm_inc_spec root _ s1 rr HV Ei) as (F1 & L1 & K1 & V1 & C1 & Hrr).
  destruct Hrr as [[_ ->]|[_ Hs]]; [|destruct (Hs Hr); discriminate].
  change (0 <? wcount (w_sm (walker_new nr)) root) with false. cbv iota.
  destruct (walk u64_codec false (fun _ => None) accept_all path root s1) as [s2 r2] eqn:E2.
  split; auto. destruct K1 as (K1 & K2 & K3).
  assert (Hrs : exists m, w_sm s1 = WRestricted m) by (destruct (w_sm s1) as [m|m]; [discriminate|eauto]).
  destruct (C54_known_root u64_codec false (fun _ => None) path root s1 s2 r2) as (-> & _); auto.
  - rewrite K1. exact Hr.
  - rewrite C1 by exact Hr. rewrite N.eqb_refl. cbn. lia.
  - rewrite F1. auto.
Qed.

(** The error of end_walk is lost when the walk itself succeeded. *)
Theorem C54_end_walk_error_dropped_refuted :
  snd (walk u64_codec false ex_eng (fun _ x => match x with CEnd => false | _ => true end) [0] 1 (walker_new 10)) = None.
Proof. vm_compute. auto. Qed.

(** ** The hypotheses can be met *)
Example C54_example_damage :
  match walk u64_codec false (fun b => match b with 1 => Some (repeat 0 4096) | _ => ex_eng b end) accept_all [0] 3 (walker_new 100) with
  | (s', r) => r = Some (EAgg [ENode [0; 3; 1] (mkkr (Some 0) (Some 500)); EIo [0; 3] (mkkr (Some 500) None)])
  end.
Proof. vm_compute. auto. Qed.
Example C54_example_shared :
  let root := packed (Internal (mknh 3 false 2 252 8) [0; 500] [1; 1]) in
  match walk u64_codec false (fun b => match b with 3 => Some root | _ => ex_eng b end) accept_all [0] 3
      (mkwst (WCore (sm_new 10 255)) (fun _ => None) []) with
  | (s', r) => r = None /\ wcount (w_sm s') 1 = 2 /\ wcount (w_sm s') 3 = 1 /\ agains 1 (w_log s') = 1
  end.
Proof. vm_compute. auto. Qed.
Example C54_example_tree : tree u64_codec (fun _ => ex_leaf) true 0 1 (combine (map (fun i => 2 * i) (nseq 0 84)) (nseq 0 84)) [1].
Proof.
  exists (mknh 1 true 84 252 8), (map (fun i => 2 * i) (nseq 0 84)), (nseq 0 84).
  split.
  - split; [|split].
    + assert (H : forallb (fun x => x <? 256) ex_leaf = true) by (vm_compute; auto).
      rewrite forallb_forall in H. apply Forall_forall.
      intros x Hx. apply N.ltb_lt, H, Hx.
    + vm_compute. auto.
    + intros [|] [|] _; vm_compute; auto.
  - conj; try (vm_compute; auto; fail). all: vm_compute; intros; discriminate.
Qed.
Print Assumptions C54_walk.
Print Assumptions C54_success_visits_exactly_the_reachable_blocks.
Print Assumptions C54_undamaged_tree.
