(** summarize_tree. *)
From Verif Require Import Base Codec_Model Utils_Model Utils_Spec Props_Utils Walker_Model IoMany_Proofs ThinCheck_Model ThinCheck_Spec.

Definition inner_of (nodes : nmap) (b : N) : option (list N * list N) :=
  match nm_get_type nodes b with
  | NTInternal => match hv_get (nm_info nodes) b with Ok (Some x) => Some x | _ => None end
  | _ => None
  end.

Lemma nlen_app {A} (a b : list A) : nlen (a ++ b) = nlen a + nlen b.
Proof. unfold nlen. rewrite app_length. lia. Qed.
Lemma nlen_nil {A} (l : list A) : nlen l = 0 -> l = [].
Proof. destruct l; [auto|]. unfold nlen. cbn [length]. lia. Qed.
Lemma nlen_cons {A} (x : A) l : nlen (x :: l) = nlen l + 1.
Proof. unfold nlen. cbn [length]. lia. Qed.
Lemma last_app2 (a b : list N) : b <> [] -> last (a ++ b) 0 = last b 0.
Proof.
  intros H. induction a as [|x a IH]; auto. cbn [app]. destruct (a ++ b) eqn:E; [|rewrite <- IH; auto].
  destruct a; [cbn in E; congruence|discriminate].
Qed.
Lemma hd_app2 (a b : list N) : a <> [] -> hd 0 (a ++ b) = hd 0 a.
Proof. destruct a; [congruence|auto]. Qed.
Lemma last_in2 (a : list N) : a <> [] -> In (last a 0) a.
Proof.
  induction a as [|x a IH]; [congruence|]. intros _. destruct a as [|y a]; [left; auto|].
  right. change (last (x :: y :: a) 0) with (last (y :: a) 0). apply IH. discriminate.
Qed.
(** In an increasing list the first is the least, the last the greatest. *)
Lemma inc_hd_le l x : increasing l -> In x l -> hd 0 l <= x.
Proof.
  destruct l as [|a l]; [intros _ []|]. intros H [->|Hx]; [cbn; lia|]. cbn [hd]. pose proof (increasing_head_lt _ _ _ H Hx). lia.
Qed.
Lemma inc_le_last l : forall x, increasing l -> In x l -> x <= last l 0.
Proof.
  induction l as [|a l IH]; intros x H Hx; [destruct Hx|]. destruct l as [|b l].
  - destruct Hx as [->|[]]. cbn. lia.
  - change (last (a :: b :: l) 0) with (last (b :: l) 0).
    assert (Hl : increasing (b :: l)) by (apply (increasing_app [a] (b :: l)) in H; apply H).
    destruct Hx as [->|Hx]; [|auto]. pose proof (increasing_head_lt _ _ _ H (or_introl eq_refl : In b (b :: l))).
    pose proof (IH b Hl (or_introl eq_refl)). lia.
Qed.
Lemma inc_join a b : increasing a -> increasing b -> (a <> [] -> b <> [] -> last a 0 < hd 0 b) -> increasing (a ++ b).
Proof.
  intros Ha Hb H. apply increasing_app. conj; auto. intros x y Hx Hy.
  assert (a <> []) by (intros ->; destruct Hx). assert (b <> []) by (intros ->; destruct Hy).
  pose proof (inc_le_last a x Ha Hx). pose proof (inc_hd_le b y Hb Hy). specialize (H H0 H1). lia.
Qed.

Section Sum.
Context (nodes : nmap) (inf : bool) (leaf : N -> option (list N)) (inner : N -> option (list N * list N)).
Hypothesis Hnodes : forall b x, inner_of nodes b = Some x -> inner b = Some x.
Hypothesis Hdisj : forall b ks, leaf b = Some ks -> inner b = None.
Hypothesis Hleaf : forall b ks, leaf b = Some ks -> increasing ks /\ nlen ks < 256.
Hypothesis Hinner : forall b ks cs, inner b = Some (ks, cs) -> length ks = length cs /\ nlen ks < 256.
Notation hold := (holds leaf inner).
Notation snd_tree := (sound leaf inner (negb inf)).
Notation ents := (entries leaf inner).

Definition ends (keys : list N) (s : summary) : Prop := keys <> [] -> s_low s = hd 0 keys /\ s_high s = last keys 0.
(** what a stored summary says *)
Definition justified (b : N) (s : summary) : Prop := forall keys, hold b keys ->
  s_nr s <= nlen keys /\ (s_errors s = 0 -> s_nr s = nlen keys -> snd_tree b keys /\ ends keys s /\ s_entries s = ents b).
Definition Inv (ss : sums) : Prop :=
  forall b s, ss b = Some s -> (exists ks, leaf b = Some ks /\ s = sum_leaf ks) \/ (leaf b = None /\ justified b s).
(** what is found out about a child *)
Definition good (kr : key_range) (b : N) (kk : list N) : Prop :=
  snd_tree b kk /\ (forall x, In x kk -> match kr_end kr with Some e => x <= e | None => True end) /\
  (leaf b <> None -> forall x, In x kk -> match kr_start kr with Some e => e <= x | None => True end).
Definition result (is_root : bool) (kr : key_range) (b : N) (s : summary) : Prop := forall keys, hold b keys ->
  s_nr s <= nlen keys /\ (s_errors s = 0 -> s_nr s = nlen keys ->
    good kr b keys /\ ends keys s /\ (inf = false -> is_root = false -> 84 <= ents b)).
Definition correct (rec : key_range -> N -> sums -> option (sums * summary)) (is_root : bool) : Prop :=
  forall kr b ss ss' s, Inv ss -> rec kr b ss = Some (ss', s) -> Inv ss' /\ result is_root kr b s.

Definition accok (acc : summary) (dk : list N) (n : N) : Prop :=
  s_nr acc <= nlen dk /\ (s_errors acc = 0 -> s_nr acc = nlen dk -> increasing dk /\ ends dk acc /\ s_entries acc = n mod 256).
Fixpoint all3 (krs : list key_range) (bs : list N) (kss : list (list N)) : Prop :=
  match krs, bs, kss with
  | kr :: krs, b :: bs, kk :: kss => good kr b kk /\ (inf = false -> 84 <= ents b) /\ all3 krs bs kss
  | [], [], [] => True
  | _, _, _ => False
  end.
Lemma sound_inc b keys : snd_tree b keys -> increasing keys.
Proof using Hleaf Hinner Hnodes Hdisj. intros H. inversion H; auto. Qed.

Lemma append_ok acc c dk kk n : accok acc dk n ->
  s_nr c <= nlen kk -> (s_errors c = 0 -> s_nr c = nlen kk -> increasing kk /\ ends kk c) ->
  let acc' := match sum_append acc c with Some a => a | None => acc end in
  accok acc' (dk ++ kk) (n + 1) /\
  (s_errors acc' = 0 -> s_nr acc' = nlen (dk ++ kk) -> s_errors acc = 0 /\ s_nr acc = nlen dk /\ s_errors c = 0 /\ s_nr c = nlen kk).
Proof using Hleaf Hinner Hnodes Hdisj.
  intros [A1 A2] C1 C2 acc'.
  assert (E0 : ((s_entries acc + 1) mod 256) = ((n + 1) mod 256) \/ s_entries acc <> n mod 256).
  { destruct (N.eq_dec (s_entries acc) (n mod 256)) as [E|E]; [left|right; auto]. rewrite E. apply N.add_mod_idemp_l. lia. }
  assert (F : forall low high, acc' = mksum low high ((s_nr acc + s_nr c) mod W64) ((s_entries acc + 1) mod 256) (N.min (s_errors acc + s_errors c) 255) ->
     (s_nr acc = nlen dk -> s_nr c = nlen kk -> increasing dk -> ends dk acc -> increasing kk -> ends kk c ->
        increasing (dk ++ kk) /\ ends (dk ++ kk) acc') ->
     accok acc' (dk ++ kk) (n + 1) /\
     (s_errors acc' = 0 -> s_nr acc' = nlen (dk ++ kk) -> s_errors acc = 0 /\ s_nr acc = nlen dk /\ s_errors c = 0 /\ s_nr c = nlen kk)).
  { intros low high -> HJ. unfold accok. cbn [s_nr s_errors s_entries]. rewrite nlen_app.
    assert (M : (s_nr acc + s_nr c) mod W64 <= s_nr acc + s_nr c) by (apply N.mod_le; discriminate).
    assert (G : N.min (s_errors acc + s_errors c) 255 = 0 -> (s_nr acc + s_nr c) mod W64 = nlen dk + nlen kk ->
                s_errors acc = 0 /\ s_nr acc = nlen dk /\ s_errors c = 0 /\ s_nr c = nlen kk) by (intros; lia).
    split; [split; [lia|]|exact G]. intros H1 H2. destruct (G H1 H2) as (G1 & G2 & G3 & G4).
    destruct (A2 G1 G2) as (I1 & I2 & I3). destruct (C2 G3 G4) as [I4 I5]. destruct (HJ G2 G4 I1 I2 I4 I5) as [J1 J2].
    conj; auto. destruct E0; congruence. }
  unfold sum_append in acc'. destruct (N.eqb_spec (s_nr acc) 0) as [Z|Z].
  - eapply F; [reflexivity|]. intros G2 G4 I1 I2 I4 I5. assert (dk = []) by (apply nlen_nil; congruence). subst dk.
    split; [exact I4|]. exact I5.
  - destruct (N.ltb_spec 0 (s_nr c)) as [Zc|Zc].
    + destruct (N.leb_spec (s_low c) (s_high acc)) as [O|O].
      * unfold acc', accok. rewrite nlen_app. split; [split; [lia|]|]; intros; lia.
      * eapply F; [reflexivity|]. intros G2 G4 I1 I2 I4 I5.
        assert (dk <> []) by (intros ->; apply Z; rewrite G2; reflexivity). assert (kk <> []) by (intros ->; unfold nlen in G4; cbn [length] in G4; lia).
        destruct (I2 H) as [L1 L2]. destruct (I5 H0) as [L3 L4]. split.
        -- apply inc_join; auto. intros _ _. rewrite <- L2, <- L3. auto.
        -- intros _. unfold acc'. cbn [s_low s_high]. rewrite hd_app2, last_app2 by auto. auto.
    + eapply F; [reflexivity|]. intros G2 G4 I1 I2 I4 I5. assert (kk = []) by (apply nlen_nil; lia). subst kk.
      rewrite app_nil_r. split; [exact I1|]. exact I2.
Qed.

Lemma children_ok rec (Hrec : correct rec false) : forall krs bs acc ss ss' s, Inv ss -> length krs = length bs ->
  sum_children rec krs bs acc ss = Some (ss', s) -> Inv ss' /\
  forall kss dk n, Forall2 hold bs kss -> accok acc dk n ->
    accok s (dk ++ concat kss) (n + nlen bs) /\
    (s_errors s = 0 -> s_nr s = nlen (dk ++ concat kss) -> s_errors acc = 0 /\ s_nr acc = nlen dk /\ all3 krs bs kss).
Proof using Hleaf Hinner Hnodes Hdisj.
  induction krs as [|kr krs IH]; intros [|b bs] acc ss ss' s HI Hl E; try discriminate; cbn [sum_children] in E.
  - assert (ss' = ss /\ s = acc) as [-> ->] by (split; congruence). split; [auto|]. intros kss dk n F A. inversion F; subst kss.
    cbn [concat all3]. rewrite app_nil_r. replace (n + nlen []) with n by (unfold nlen; cbn [length]; lia). split; [auto|]. intros; conj; auto.
  - destruct (rec kr b ss) as [[ss1 c]|] eqn:Er; [|discriminate]. destruct (Hrec _ _ _ _ _ HI Er) as [I1 R1].
    destruct (IH bs _ _ _ _ I1 ltac:(cbn [length] in Hl; lia) E) as [I2 R2]. split; [auto|].
    intros kss dk n F A. inversion F as [|? kk ? kss' Hb Hbs]; subst kss. destruct (R1 kk Hb) as [C1 C2].
    destruct (append_ok acc c dk kk n A C1) as [B1 B2].
    { intros Z1 Z2. destruct (C2 Z1 Z2) as (G & Hends & _). split; [apply (sound_inc b), G|auto]. }
    destruct (R2 kss' (dk ++ kk) (n + 1) Hbs B1) as [D1 D2]. cbn [concat]. rewrite app_assoc.
    replace (n + nlen (b :: bs)) with (n + 1 + nlen bs) by (rewrite nlen_cons; lia). split; [exact D1|].
    intros Z1 Z2. destruct (D2 Z1 Z2) as (D3 & D4 & D5). destruct (B2 D3 D4) as (B3 & B4 & B5 & B6).
    destruct (C2 B5 B6) as (G & _ & Hf). conj; auto. cbn [all3]. conj; auto.
Qed.

(** the ranges of the children place their keys *)
Lemma all3_placed ks : forall k0 e bs kss, length (k0 :: ks) = length bs ->
  all3 (ranges_of k0 ks e) bs kss -> placed leaf (k0 :: ks) bs kss.
Proof using Hleaf Hinner Hnodes Hdisj.
  induction ks as [|k ks IH]; intros k0 e [|b bs] kss Hl H; cbn [length] in Hl; try discriminate; cbn [ranges_of all3] in H;
    (destruct kss as [|kk kss]; [destruct H|]); destruct H as ((_ & U & L) & _ & H).
  - destruct bs; [|discriminate]. destruct kss; [|destruct H]. cbn [placed]. conj; auto.
  - specialize (IH k e bs kss ltac:(cbn [length]; lia) H). change (placed leaf (k0 :: k :: ks) (b :: bs) (kk :: kss)) with
      ((forall x, In x kk -> x <= k) /\ (leaf b <> None -> forall x, In x kk -> k0 <= x) /\ placed leaf (k :: ks) bs kss).
    conj; auto.
Qed.
Lemma all3_upper ks : forall k0 e bs kss, (forall k, In k ks -> below k e) -> all3 (ranges_of k0 ks e) bs kss ->
  forall x, In x (concat kss) -> match e with Some e => x <= e | None => True end.
Proof using Hleaf Hinner Hnodes Hdisj.
  induction ks as [|k ks IH]; intros k0 e bs kss Hb H x Hx; cbn [ranges_of all3] in H;
    (destruct bs as [|b bs]; [destruct H|]); (destruct kss as [|kk kss]; [destruct H|]); destruct H as ((_ & U & _) & _ & H); cbn [concat] in Hx;
    apply in_app_iff in Hx.
  - destruct bs; [|destruct H]. destruct kss; [|destruct H]. destruct Hx as [Hx|[]]. apply (U x Hx).
  - destruct Hx as [Hx|Hx].
    + specialize (U x Hx). cbn [kr_end] in U. specialize (Hb k (or_introl eq_refl)). unfold below in Hb. destruct e; [lia|auto].
    + apply (IH k e bs kss); auto. intros y Hy. apply Hb. right. auto.
Qed.
Lemma all3_sound : forall krs bs kss, all3 krs bs kss -> Forall2 snd_tree bs kss /\ (inf = false -> forall c, In c bs -> 84 <= ents c).
Proof using Hleaf Hinner Hnodes Hdisj.
  induction krs as [|kr krs IH]; intros [|b bs] [|kk kss] H; cbn [all3] in H; try destruct H.
  - split; [constructor|intros _ c []].
  - destruct H0 as [Hf H0]. destruct (IH _ _ H0) as [I1 I2]. split; [constructor; [apply H|auto]|].
    intros Hi c [<-|Hc]; auto.
Qed.

Lemma leaf_justified b ks : leaf b = Some ks -> forall keys, hold b keys -> keys = ks /\ snd_tree b keys /\ ends keys (sum_leaf ks) /\ s_nr (sum_leaf ks) = nlen keys /\
  s_entries (sum_leaf ks) = ents b.
Proof using Hleaf.
  intros Hb keys H. inversion H as [? ks' E1|? ? ? ? E1|? E1]; subst; try congruence. assert (keys = ks) by congruence. subst.
  destruct (Hleaf b ks Hb) as [Hi Hn]. conj; auto.
  - constructor; auto.
  - intros Hne. unfold sum_leaf. cbn [s_low s_high]. destruct ks; auto.
  - unfold sum_leaf, ents. cbn [s_entries]. rewrite Hb. apply N.mod_small. auto.
Qed.

Lemma summarize_correct fuel : forall is_root, correct (summarize_tree nodes inf fuel is_root) is_root.
Proof using Hleaf Hinner Hnodes Hdisj.
  induction fuel as [|fuel IH]; intros is_root kr b ss ss' s HI E; cbn [summarize_tree] in E; [discriminate|].
  assert (Herr : forall keys : list N, s_nr sum_error <= nlen keys /\ (s_errors sum_error = 0 -> s_nr sum_error = nlen keys ->
     good kr b keys /\ ends keys sum_error /\ (inf = false -> is_root = false -> 84 <= ents b))).
  { intros keys. split; [cbn; lia|]. cbn. discriminate. }
  destruct (ss b) as [sum|] eqn:Es.
  - assert (J : justified b sum).
    { destruct (HI b sum Es) as [(ks & El & ->)|[_ J]]; [|exact J].
      intros keys Hk. destruct (leaf_justified b ks El keys Hk) as (_ & L1 & L2 & L3 & L4). split; [lia|auto]. }
    assert (E1 : ss' = ss) by congruence. apply (f_equal (fun x => match x with Some (_, y) => y | None => s end)) in E. rewrite E1. split; [auto|].
    cbv beta iota in E. subst s. intros keys Hk. destruct (J keys Hk) as [J1 J2].
    destruct (_ && (s_entries sum <? MIN_ENTRIES)) eqn:Eu; [apply Herr|].
    destruct ((0 <? s_nr sum) && _) eqn:Ek; [apply Herr|]. split; [auto|]. intros Z1 Z2.
    destruct (J2 Z1 Z2) as (J3 & J4 & J5). pose proof (sound_inc b keys J3) as Hinc.
    assert (K : keys <> [] -> (match kr_start kr with Some n => n <= hd 0 keys | None => True end) /\
                              (match kr_end kr with Some n => last keys 0 <= n | None => True end)).
    { intros Hne. destruct (J4 Hne) as [L1 L2]. rewrite <- L1, <- L2. apply Bool.andb_false_iff in Ek. destruct Ek as [Ek|Ek].
      - apply N.ltb_ge in Ek. destruct keys; [congruence|]. rewrite nlen_cons in Z2. lia.
      - apply Bool.orb_false_iff in Ek. destruct Ek as [Ek1 Ek2]. split.
        + destruct (kr_start kr); [apply N.ltb_ge; auto|auto].
        + destruct (kr_end kr); [apply N.ltb_ge; auto|auto]. }
    conj; auto.
    + unfold good. conj; auto.
      * intros x Hx. assert (Hne : keys <> []) by (intros ->; destruct Hx). destruct (K Hne) as [_ K2].
        destruct (kr_end kr); [|auto]. pose proof (inc_le_last keys x Hinc Hx). lia.
      * intros _ x Hx. assert (Hne : keys <> []) by (intros ->; destruct Hx). destruct (K Hne) as [K1 _].
        destruct (kr_start kr); [|auto]. pose proof (inc_hd_le keys x Hinc Hx). lia.
    + intros Hi Hr. rewrite Hi, Hr in Eu. cbn [negb andb] in Eu. apply N.ltb_ge in Eu. unfold MIN_ENTRIES in Eu. lia.
  - assert (Q : Some (ss, sum_error) = Some (ss', s) -> Inv ss' /\ result is_root kr b s).
    { intros H. assert (ss' = ss /\ s = sum_error) as [-> ->] by (split; congruence). split; [auto|]. intros keys _. apply Herr. }
    destruct (nm_get_type nodes b) eqn:Et; try (apply Q; exact E).
    destruct (hv_get (nm_info nodes) b) as [[[ks cs]|]| |] eqn:Eh; try (apply Q; exact E).
    assert (Hin : inner b = Some (ks, cs)) by (apply Hnodes; unfold inner_of; rewrite Et, Eh; auto).
    assert (Hnl : leaf b = None).
    { destruct (leaf b) as [ks0|] eqn:El; [|auto]. rewrite (Hdisj b ks0 El) in Hin. discriminate. }
    destruct (_ && (nlen ks <? MIN_ENTRIES)) eqn:Eu; [apply Q; exact E|].
    destruct (split_key_ranges kr ks) as [krs| |] eqn:Esp; try (apply Q; exact E).
    destruct (sum_children _ krs cs sum_default ss) as [[ss1 sum]|] eqn:Ec; [|discriminate].
    assert (ss' = upd ss1 b (Some sum) /\ s = sum) as [-> ->] by (split; congruence).
    apply C48_split_keys in Esp. destruct Esp as (k0 & ks' & -> & Hinc & Hbel & ->).
    destruct (Hinner b _ cs Hin) as [Hlen H252].
    assert (Hlk : length (ranges_of k0 ks' (kr_end kr)) = length cs).
    { rewrite <- Hlen. clear. revert k0. induction ks' as [|k ks' IHk]; intros k0; cbn [ranges_of length]; auto. rewrite IHk. auto. }
    destruct (children_ok _ (IH false) _ _ _ _ _ _ HI Hlk Ec) as [I1 R1].
    assert (Hfull : forall keys, hold b keys -> s_nr sum <= nlen keys /\ (s_errors sum = 0 -> s_nr sum = nlen keys ->
       good kr b keys /\ ends keys sum /\ s_entries sum = ents b)).
    { intros keys Hk. inversion Hk as [? ? E1|? ks1 cs1 kss _ E1 F|? _ E1]; subst; try congruence.
      assert (ks1 = k0 :: ks' /\ cs1 = cs) as [-> ->] by (split; congruence).
      destruct (R1 kss [] 0 F) as [[A1 A2] A3].
      { split; [cbn; lia|]. intros _ _. conj; [exact I|intros H; congruence|reflexivity]. }
      cbn [app] in A1, A2, A3. split; [exact A1|]. intros Z1 Z2. destruct (A2 Z1 Z2) as (B1 & B2 & B3). destruct (A3 Z1 Z2) as (_ & _ & C3).
      destruct (all3_sound _ _ _ C3) as [D1 D2].
      assert (Hs : snd_tree b (concat kss)).
      { eapply sound_inner; eauto.
        - eapply all3_placed; eauto.
        - intros Hi c Hc. apply D2; auto. destruct inf; [discriminate|auto]. }
      conj; auto.
      - unfold good. conj; auto; [|intros; congruence]. exact (all3_upper _ _ _ _ _ Hbel C3).
      - rewrite B3. unfold ents. rewrite Hnl, Hin. rewrite N.add_0_l. replace (nlen cs) with (nlen (k0 :: ks')) by (unfold nlen; rewrite Hlen; reflexivity).
        apply N.mod_small. auto. }
    split.
    + intros b' s0 Hs0. unfold upd in Hs0. destruct (N.eqb_spec b' b) as [Eq|Eq]; [|apply (I1 b' s0 Hs0)].
        subst b'. assert (s0 = sum) by congruence. subst s0. right. split; [exact Hnl|].
        intros keys Hk. destruct (Hfull keys Hk) as [F1 F2]. split; [auto|]. intros Z1 Z2. destruct (F2 Z1 Z2) as ((F3 & _) & F4 & F5). auto.
    + intros keys Hk. destruct (Hfull keys Hk) as [F1 F2]. split; [auto|]. intros Z1 Z2. destruct (F2 Z1 Z2) as (F3 & F4 & F5).
      conj; auto. intros Hi Hr. rewrite Hi, Hr in Eu. cbn [negb andb] in Eu. apply N.ltb_ge in Eu. unfold ents. rewrite Hnl, Hin. exact Eu.
Qed.

Lemma count_inv fuel roots : forall ss ss', Inv ss -> count_mapped_blocks nodes inf fuel roots ss = Some ss' -> Inv ss'.
Proof using Hleaf Hinner Hnodes Hdisj.
  induction roots as [|r roots IH]; intros ss ss' HI E; cbn [count_mapped_blocks] in E; [assert (ss' = ss) by congruence; subst; exact HI|].
  destruct (summarize_tree _ _ _ _ _ _ _) as [[ss1 s]|] eqn:Es; [|discriminate].
  destruct (summarize_correct fuel true _ _ _ _ _ HI Es) as [I1 _]. exact (IH _ _ I1 E).
Qed.
End Sum.
