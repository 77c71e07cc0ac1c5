(** Walking an undamaged tree. *)
From Verif Require Import Base Csum_Model Codec_Model SpaceMap_Model SpaceMap_Spec SpaceMap_Proofs Utils_Model Utils_Spec
  Utils_Proofs UtilsNum_Proofs Pack_Proofs Batcher_Model Builder_Model Builder_Spec BtreeRead_Proofs Walker_Model Walker_Spec Walker_Proofs.

Section Tree.
Context {V : Type} (c : codec V) (inf : bool) (eng : N -> option (list N)) (d : disk).
Notation yes := (fun (_ : list (wcall V)) (_ : wcall V) => true).
Notation state := (wst V).

Lemma see_fresh path : forall krs bs (s : state), wvalid (w_sm s) -> length krs = length bs -> NoDup bs ->
  (forall b, In b bs -> b < nrb s /\ cnt s b = 0) ->
  exists s1, see_children yes path krs bs s = (s1, [], combine krs bs) /\ counts bs s s1 /\
    w_fail s1 = w_fail s /\ w_log s1 = w_log s.
Proof.
  induction krs as [|kr krs IH]; intros [|b bs] s HV HL HN Hz; try discriminate.
  - exists s. conj; auto. apply (counts_refl eng); auto.
  - cbn [see_children combine]. destruct (Hz b (or_introl eq_refl)) as [Hb Hb0].
    destruct (w_sm_inc b s) as [sa r] eqn:Ei.
    destruct (w_sm_inc_spec b s sa r HV Ei) as (Fa & La & Ka & Va & Ca & Hr).
    destruct Hr as [[_ ->]|[_ Hs]]; [|destruct (Hs Hb); destruct HV as (_ & ? & _); unfold cnt in Hb0; lia].
    fold (cnt s b). rewrite Hb0. cbn [N.eqb].
    assert (CA : counts [b] s sa).
    { split; auto. split; auto. intros x Hx. unfold cnt. rewrite Ca by auto. rewrite counted_cons, counted_nil. f_equal. lia. }
    inversion HN as [|? ? HN1 HN2]; subst.
    assert (HL2 : length krs = length bs) by (cbn in HL; congruence).
    destruct (IH bs sa Va HL2 HN2) as (s1 & E1 & C1 & F1 & L1).
    { intros x Hx. destruct (Hz x (or_intror Hx)) as [Hlt Hx0]. rewrite (counts_nr _ _ _ CA). split; auto.
      destruct CA as (_ & _ & C). rewrite C by auto. rewrite counted_cons, counted_nil.
      destruct (N.eqb_spec b x); [subst; tauto|]. lia. }
    rewrite E1. exists s1. conj; auto; try congruence. exact (counts_trans eng [b] bs s sa s1 CA C1).
Qed.

Lemma first_key_in (kvs : list (N * V)) : kvs <> [] -> In (first_key kvs) (map fst kvs).
Proof. destruct kvs as [|[k v] r]; [congruence|]. left; auto. Qed.
Lemma first_key_le (kvs : list (N * V)) k : increasing (map fst kvs) -> In k (map fst kvs) -> first_key kvs <= k.
Proof.
  destruct kvs as [|[k0 v] r]; cbn [map fst first_key]; [intros _ []|]. intros Hi [->|Hk]; [lia|].
  apply increasing_strong in Hi as [Hi _]. specialize (Hi k Hk). lia.
Qed.

Lemma increasing_concat_head (subs : list (list (N * V))) s r : subs = s :: r -> increasing (map fst (concat subs)) ->
  increasing (map fst s) /\ increasing (map fst (concat r)) /\ (forall k k', In k (map fst s) -> In k' (map fst (concat r)) -> k < k').
Proof. intros -> H. cbn [concat] in H. rewrite map_app in H. apply increasing_app in H. tauto. Qed.

(** The ranges of the children of a node, and their keys. *)
Lemma children_ranges : forall (children : list (N * N)) (subs : list (list (N * V) * list N)) k0 b0 s0 e,
  Forall2 (fun kb sub => fst sub <> [] /\ fst kb = first_key (fst sub)) ((k0, b0) :: children) (s0 :: subs) ->
  increasing (map fst (concat (map fst (s0 :: subs)))) ->
  (forall k, In k (map fst (concat (map fst (s0 :: subs)))) -> below k e) ->
  increasing (k0 :: map fst children) /\ (forall k, In k (map fst children) -> below k e) /\
  Forall2 (fun kr sub => forall k, In k (map fst (fst sub)) -> in_kr kr k) (ranges_of k0 (map fst children) e) (s0 :: subs).
Proof.
  induction children as [|[k1 b1] children IH]; intros subs k0 b0 s0 e F Hi He.
  - inversion F as [|? ? ? ? [H1 H2] F']; subst. inversion F'; subst. cbn [map ranges_of]. conj.
    + cbn; auto.
    + intros k [].
    + constructor; [|constructor]. intros k Hk. cbn [fst] in *. split; cbn [kr_start kr_end].
      * rewrite H2. apply first_key_le; auto. cbn in Hi. rewrite app_nil_r in Hi. auto.
      * apply He. cbn. rewrite app_nil_r. auto.
  - inversion F as [|? ? ? ? [H1 H2] F']; subst. destruct subs as [|s1 subs]; [inversion F'|].
    cbn [map] in Hi, He. cbn [concat] in Hi, He.
    rewrite map_app in Hi. apply increasing_app in Hi as (Hi0 & Hi1 & Hi2).
    destruct (IH subs k1 b1 s1 e F') as (J1 & J2 & J3).
    { exact Hi1. }
    { intros k Hk. apply He. rewrite map_app. apply in_or_app. right. exact Hk. }
    inversion F' as [|? ? ? ? [G1 G2] F'']; subst. cbn [fst] in *.
    assert (Hk1in : In (first_key (fst s1)) (map fst (fst s1 ++ concat (map fst subs)))).
    { rewrite map_app. apply in_or_app. left. apply first_key_in; auto. }
    cbn [map fst ranges_of]. conj.
    + rewrite increasing_cons. split; [|exact J1]. rewrite H2, G2. apply Hi2; [apply first_key_in; auto|exact Hk1in].
    + intros k [<-|Hk]; [|apply J2; auto]. apply He. rewrite map_app. apply in_or_app. right. rewrite G2. exact Hk1in.
    + constructor; [|exact J3]. intros k Hk. split; cbn [kr_start kr_end].
      * rewrite H2. apply first_key_le; auto.
      * rewrite G2. apply Hi2; auto.
Qed.

Lemma tree_blocks : forall depth isr b kvs foot, tree c d isr depth b kvs foot -> exists r, foot = b :: r /\ (depth < length foot)%nat.
Proof.
  induction depth as [|dp IH]; intros isr b kvs foot H; cbn [tree] in H.
  - destruct H as (h & ks & vs & _ & _ & _ & _ & _ & _ & _ & ->). exists []. cbn. auto.
  - destruct H as (h & children & subs & _ & _ & _ & H2 & _ & F & _ & ->). eexists. split; [reflexivity|].
    inversion F as [|kb sub ch sb (_ & _ & Ht) F']; subst; [unfold nlen in H2; cbn in H2; lia|].
    destruct (IH _ _ _ _ Ht) as (r & _ & Hl). cbn [length map concat]. rewrite app_length. lia.
Qed.

Lemma counted_nodup (l : list N) b : NoDup l -> counted l b <= 1.
Proof. intros H. unfold counted. pose proof (proj1 (NoDup_count_occ N.eq_dec l) H b). lia. Qed.

(** The end of the key range of each leaf is the first key after it. *)
Definition call_end (x : wcall V) : option N := match x with CVisit _ kr _ _ _ => kr_end kr | _ => None end.
Definition next_key (kvs : list (N * V)) (e : option N) : option N := match kvs with (k, _) :: _ => Some k | [] => e end.
Fixpoint ends (calls : list (wcall V)) (e : option N) : Prop :=
  match calls with
  | [] => True
  | x :: r => call_end x = next_key (flat_map call_entries r) e /\ ends r e
  end.
(** Every call hands over at least one entry. *)
Definition full_call (x : wcall V) : Prop := call_entries x <> [].
Lemma next_key_app a b e : next_key (a ++ b) e = next_key a (next_key b e).
Proof. destruct a as [|[k v] a]; auto. Qed.
Lemma ends_app a b e : ends a (next_key (flat_map call_entries b) e) -> ends b e -> ends (a ++ b) e.
Proof.
  induction a as [|x a IH]; cbn [ends app]; auto. intros [H1 H2] Hb. split; auto.
  rewrite flat_map_app, next_key_app. auto.
Qed.
Fixpoint range_ends (kbs : list (key_range * N)) (subs : list (list (N * V) * list N)) (e : option N) : Prop :=
  match kbs, subs with
  | kb :: kbs, _ :: subs => kr_end (fst kb) = next_key (concat (map fst subs)) e /\ range_ends kbs subs e
  | _, _ => True
  end.
Lemma ranges_of_ends : forall (children : list (N * N)) (subs : list (list (N * V) * list N)) k0 bs s0 e,
  Forall2 (fun kb sub => fst sub <> [] /\ fst kb = first_key (fst sub)) children subs ->
  range_ends (combine (ranges_of k0 (map fst children) e) bs) (s0 :: subs) e.
Proof.
  induction children as [|[k1 b1] children IH]; intros subs k0 bs s0 e F; inversion F as [|? s1 ? subs' [H1 H2] F']; subst; cbn [map ranges_of combine].
  - destruct bs as [|b bs]; cbn [combine range_ends]; auto.
  - destruct bs as [|b bs]; cbn [combine range_ends]; auto. cbn [fst kr_end map concat]. split; [|apply IH; auto].
    cbn [fst] in H2. destruct (fst s1) as [|[k v] r]; [congruence|]. cbn in *. congruence.
Qed.

Theorem tree_walk : forall depth isr b kvs foot, tree c d isr depth b kvs foot ->
  forall fuel path kr s, (depth < fuel)%nat -> wvalid (w_sm s) -> NoDup foot -> (forall x, In x foot -> x < nrb s) ->
  (forall x, In x (tl foot) -> cnt s x = 0) -> (forall x, In x foot -> eng x = Some (d x)) ->
  increasing (map fst kvs) -> (forall k, In k (map fst kvs) -> in_kr kr k) ->
  exists s' calls, walk_node c inf eng yes fuel path kr b (d b) isr s = (s', None) /\
    counts (tl foot) s s' /\ w_fail s' = w_fail s /\ w_log s' = w_log s ++ calls /\
    flat_map call_entries calls = kvs /\ Forall leaf_call calls /\ ends calls (kr_end kr) /\ (kvs <> [] -> Forall full_call calls).
Proof.
  induction depth as [|dp IH]; intros isr b kvs foot HT fuel path kr s Hf HV HN Hlt Hz He Hi Hk;
    (destruct fuel as [|fuel]; [lia|]); cbn [tree] in HT; cbn [walk_node].
  - destruct HT as (h & ks & vs & (_ & _ & Hh) & Hl & -> & Hn & Hm & Hmx & Hr & ->).
    rewrite Hh.
    2:{ intros _ ->. cbn [get_header]. rewrite Hm, Hn. specialize (Hr eq_refl).
        pose proof (N.div_le_compat_l (calc_max_entries c) 2 3). lia. }
    cbn [call]. eexists _, [_]. split; [reflexivity|]. cbn [w_sm w_fail w_log tl]. conj; auto.
    + apply (counts_eq [] s s); auto. apply (counts_refl eng); auto.
    + cbn. apply app_nil_r.
    + constructor; [|constructor]. cbn. split; auto. rewrite Forall_forall. intros k Hkk. apply Hk.
      assert (HE : map fst (combine ks vs) = ks).
      { clear - eng inf Hl. revert vs Hl. induction ks as [|x ks IHk]; intros [|v vs] Hl; cbn in *; try discriminate; auto. f_equal; auto. }
      rewrite HE. auto.
    + cbn. auto.
  - destruct HT as (h & children & subs & (_ & _ & Hh) & Hn & Hm & H2 & Hr & F & -> & ->).
    rewrite Hh.
    2:{ intros _ ->. cbn [get_header]. rewrite Hm, Hn. specialize (Hr eq_refl).
        pose proof (N.div_le_compat_l (calc_max_entries u64_codec) 2 3). lia. }
    assert (F0 : Forall2 (fun (kb : N * N) (sub : list (N * V) * list N) => fst sub <> [] /\ fst kb = first_key (fst sub)) children subs).
    { clear - eng inf F. induction F as [|kb sub ch sb (? & ? & ?) F IHF]; constructor; auto. }
    destruct children as [|[k0 b0] children]; [unfold nlen in H2; cbn in H2; lia|].
    destruct subs as [|s0 subs]; [inversion F|].
    destruct (children_ranges children subs k0 b0 s0 (kr_end kr) F0 Hi) as (J1 & J2 & J3).
    { intros k Hkk. apply Hk in Hkk. destruct Hkk as [_ Hkk]. exact Hkk. }
    set (chs := (k0, b0) :: children) in *. set (sbs := s0 :: subs) in *.
    assert (ES : split_key_ranges kr (map fst chs) = Ok (ranges_of k0 (map fst children) (kr_end kr))).
    { cbn [chs map fst split_key_ranges]. apply split_loop_iff. auto. }
    rewrite ES. set (krs := ranges_of k0 (map fst children) (kr_end kr)) in *.
    assert (HL : length krs = length (map snd chs)).
    { rewrite (split_length _ _ _ ES), !map_length. auto. }
    cbn [tl] in *.
    assert (Hin : forall x, In x (map snd chs) -> In x (concat (map snd sbs))).
    { clear - eng inf F. induction F as [|kb sub ch sb (_ & _ & Ht) F IHF]; [intros x []|]. cbn [map concat]. intros x [<-|Hx]; apply in_or_app; [left|right; auto].
      destruct (tree_blocks _ _ _ _ _ Ht) as (r & -> & _). left; auto. }
    assert (HN0 : NoDup (concat (map snd sbs))) by (inversion HN; auto).
    assert (Hnd : NoDup (map snd chs)).
    { clear - eng inf F HN0 Hin. revert HN0. induction F as [|kb sub ch sb (_ & _ & Ht) F IHF]; intros HN0; [constructor|].
      cbn [map concat] in *. destruct (tree_blocks _ _ _ _ _ Ht) as (r & Er & _). rewrite Er in HN0. cbn [app] in HN0.
      inversion HN0; subst. 
      assert (Hin' : forall x, In x (map snd ch) -> In x (concat (map snd sb))).
      { clear - eng inf F. induction F as [|kb sub ch sb (_ & _ & Ht) F IHF]; [intros x []|]. cbn [map concat]. intros x [<-|Hx]; apply in_or_app; [left|right; auto].
        destruct (tree_blocks _ _ _ _ _ Ht) as (r & -> & _). left; auto. }
      constructor.
      - intros Hi. apply H1. apply in_or_app. right. apply Hin'. auto.
      - apply IHF; auto. clear - eng inf H2. induction r; cbn in *; [auto|]. inversion H2; auto. }
    destruct (see_fresh (path ++ [b]) krs (map snd chs) s HV HL Hnd) as (s1 & E1 & C1 & F1 & L1).
    { intros x Hx. apply Hin in Hx. split; [apply Hlt; right; auto|apply Hz; auto]. }
    rewrite E1.
    (* the children one after the other *)
    assert (HWL : forall kbs chs' sbs' s2, Forall2 (fun (kb : N * N) (sub : list (N * V) * list N) =>
         fst sub <> [] /\ fst kb = first_key (fst sub) /\ tree c d false dp (snd kb) (fst sub) (snd sub)) chs' sbs' ->
       map snd kbs = map snd chs' -> Forall2 (fun (kb : key_range * N) sub => forall k, In k (map fst (fst sub)) -> in_kr (fst kb) k) kbs sbs' ->
       wvalid (w_sm s2) -> nrb s2 = nrb s -> NoDup (concat (map snd sbs')) ->
       (forall x, In x (concat (map snd sbs')) -> x < nrb s /\ eng x = Some (d x)) ->
       (forall x, In x (concat (map (fun sub => tl (snd sub)) sbs')) -> cnt s2 x = 0) ->
       Forall (fun sub => increasing (map fst (fst sub))) sbs' -> forall e0, range_ends kbs sbs' e0 ->
       exists s' calls, walk_list eng (fun kr0 b0 data0 s0 => walk_node c inf eng yes fuel (path ++ [b]) kr0 b0 data0 false s0) (path ++ [b]) kbs s2 = (s', []) /\
         counts (concat (map (fun sub => tl (snd sub)) sbs')) s2 s' /\ w_fail s' = w_fail s2 /\ w_log s' = w_log s2 ++ calls /\
         flat_map call_entries calls = concat (map fst sbs') /\ Forall leaf_call calls /\ ends calls e0 /\ Forall full_call calls).
    { clear - eng inf IH Hf. intros kbs chs' sbs' s2 F. revert kbs s2. induction F as [|kb sub ch sb (Hne & _ & Ht) F IHF]; intros kbs s2 HM HK HV Hnr HN Hlt Hz HI e0 HRE.
      - destruct kbs; [|discriminate]. exists s2, []. cbn. rewrite app_nil_r. conj; auto. apply (counts_refl eng); auto.
      - destruct kbs as [|[kr1 b1] kbs]; [discriminate|]. cbn [map] in HM. injection HM as Eb HM. cbn [snd] in Eb. subst b1.
        inversion HK as [|? ? ? ? HK1 HK2]; subst. inversion HI as [|? ? HI1 HI2]; subst. cbn [walk_list].
        cbn [map concat] in HN, Hlt, Hz.
        destruct (tree_blocks _ _ _ _ _ Ht) as (r & Er & _).
        assert (Hin1 : In (snd kb) (snd sub)) by (rewrite Er; left; auto).
        destruct (Hlt (snd kb)) as [_ He1]; [apply in_or_app; auto|]. rewrite He1.
        apply NoDup_app_iff_local in HN as (HNa & HNb & HNc).
        destruct (IH false (snd kb) (fst sub) (snd sub) Ht fuel (path ++ [b]) kr1 s2) as (s3 & calls3 & E3 & C3 & F3 & L3 & K3 & J3 & N3 & U3); auto; try lia.
        { intros x Hx. rewrite Hnr. apply Hlt. apply in_or_app; auto. }
        { intros x Hx. apply Hz. apply in_or_app; auto. }
        { intros x Hx. apply Hlt. apply in_or_app; auto. }
        rewrite E3.
        destruct (IHF kbs s3) with (e0 := e0) as (s4 & calls4 & E4 & C4 & F4 & L4 & K4 & J4 & N4 & U4); auto.
        { apply C3. }
        { rewrite (counts_nr _ _ _ C3). auto. }
        { intros x Hx. apply Hlt. apply in_or_app; auto. }
        { intros x Hx.
          assert (Hx' : In x (concat (map snd sb))).
          { clear - eng inf Hx. induction sb as [|y sb IHs]; cbn [map concat] in *; [destruct Hx|]. apply in_app_or in Hx as [Hx|Hx]; apply in_or_app; auto.
            left. destruct (snd y); [destruct Hx|right; auto]. }
          destruct C3 as (_ & _ & C). rewrite C.
          2:{ rewrite Hnr. apply Hlt. apply in_or_app; auto. }
          rewrite (Hz x) by (apply in_or_app; auto).
          destruct (counted (tl (snd sub)) x) eqn:Ec; [lia|]. exfalso. apply (HNc x); auto.
          assert (In x (tl (snd sub))) as Hxx by (apply counted_in; lia).
          rewrite Er in *. right; auto. }
        { cbn [range_ends] in HRE. apply HRE. }
        rewrite E4. exists s4, (calls3 ++ calls4). cbn [map concat]. conj; auto.
        + exact (counts_trans eng _ _ s2 s3 s4 C3 C4).
        + congruence.
        + rewrite L4, L3, <- app_assoc. auto.
        + rewrite flat_map_app, K3, K4. auto.
        + apply Forall_app; auto.
        + apply ends_app; auto. rewrite K4. cbn [range_ends fst] in HRE. destruct HRE as [HRE _]. rewrite <- HRE. auto.
        + apply Forall_app; auto. }
    assert (Htl : forall x, In x (concat (map (fun sub : list (N * V) * list N => tl (snd sub)) sbs)) -> In x (concat (map snd sbs)) /\ ~ In x (map snd chs)).
    { clear - eng inf F HN0 Hin. intros x Hx. revert HN0. induction F as [|kb sub ch sb (_ & _ & Ht) F IHF]; [destruct Hx|]. intros HN0.
      cbn [map concat] in *. destruct (tree_blocks _ _ _ _ _ Ht) as (r & Er & _). rewrite Er in *. cbn [tl] in Hx.
      assert (Hin' : forall x, In x (map snd ch) -> In x (concat (map snd sb))).
      { clear - eng inf F. induction F as [|kb sub ch sb (_ & _ & Ht) F IHF]; [intros x []|]. cbn [map concat]. intros x [<-|Hx]; apply in_or_app; [left|right; auto].
        destruct (tree_blocks _ _ _ _ _ Ht) as (r & -> & _). left; auto. }
      apply NoDup_app_iff_local in HN0 as (HNa & HNb & HNc).
      apply in_app_or in Hx as [Hx|Hx].
      - split; [apply in_or_app; left; right; auto|]. intros [Hb|Hb].
        + inversion HNa; subst. auto.
        + apply (HNc x); [right; auto|]. apply Hin'; auto.
      - destruct (IHF Hin' Hx HNb) as [I1 I2]. split; [apply in_or_app; auto|]. intros [Hb|Hb]; [|tauto].
        apply (HNc (snd kb)); [left; auto|]. rewrite Hb. auto. }
    destruct (HWL (combine krs (map snd chs)) chs sbs s1 F) with (e0 := kr_end kr) as (s2 & calls & E2 & C2 & F2 & L2 & K2 & J4' & N4' & U4'); auto.
    { apply map_snd_combine'; auto. }
    { clear - eng inf J3 HL. revert HL. generalize (map snd chs). induction J3 as [|kr0 sub krs sb Hx J3 IHJ]; intros l HL; destruct l; try discriminate; cbn [combine]; constructor; auto. }
    { apply C1. }
    { apply (counts_nr _ _ _ C1). }
    { intros x Hx. split; [apply Hlt; right; auto|apply He; right; auto]. }
    { intros x Hx. destruct (Htl x Hx) as [Hx1 Hx2]. destruct C1 as (_ & _ & C). rewrite C by (apply Hlt; right; auto).
      rewrite Hz by auto. destruct (counted (map snd chs) x) eqn:Ec; [lia|]. exfalso. apply Hx2. apply counted_in. lia. }
    { clear - eng inf Hi. induction sbs as [|y sb IHs]; [constructor|]. cbn [map concat] in Hi. rewrite map_app in Hi. apply increasing_app in Hi as (? & ? & _). constructor; auto. }
    { inversion F0; subst. apply ranges_of_ends; auto. }
    rewrite E2. cbn [app build_aggregate]. exists s2, calls. conj; auto; try congruence.
    pose proof (counts_trans eng _ _ _ _ _ C1 C2) as (KK & VV & CC). split; auto. split; auto. intros x Hx. rewrite (CC x Hx). f_equal. f_equal.
    clear - eng inf F. induction F as [|kb sub ch sb (_ & _ & Ht) F IHF]; [auto|]. cbn [map concat].
    destruct (tree_blocks _ _ _ _ _ Ht) as (r & Er & _). rewrite Er. cbn [tl app].
    rewrite counted_app in IHF. rewrite counted_cons. change ((snd kb :: map snd ch) ++ r ++ concat (map (fun sub0 => tl (snd sub0)) sb)) with (snd kb :: map snd ch ++ r ++ concat (map (fun sub0 => tl (snd sub0)) sb)). rewrite counted_cons, !counted_app. lia.
Qed.
End Tree.
