From Verif Require Import Base ThinOut_Model ThinOut2_Proofs Pack_Proofs Runs_Model Runs_Spec.

(** ** Sets *)
Lemma set_insert_in x l a : In a (snd (set_insert x l)) <-> a = x \/ In a l.
Proof.
  induction l as [|y r IH]; cbn [set_insert]; [cbn; intuition|].
  destruct (N.ltb_spec x y); [cbn; intuition|].
  destruct (N.eqb_spec x y); [subst; cbn; intuition|].
  destruct (set_insert x r) as [n0 r'] eqn:E. cbn [snd] in *. cbn [In]. rewrite IH. intuition.
Qed.
Lemma set_insert_inc x l : increasing l -> increasing (snd (set_insert x l)).
Proof.
  induction l as [|y r IH]; intros Hl; cbn [set_insert]; [cbn; auto|].
  destruct (N.ltb_spec x y).
  { cbn [snd]. apply increasing_strong. split; [|auto]. intros z [<-|Hz]; auto.
    apply increasing_strong in Hl as [Hl _]. specialize (Hl z Hz). lia. }
  destruct (N.eqb_spec x y); [auto|].
  apply increasing_strong in Hl as [H1 H2]. specialize (IH H2).
  pose proof (set_insert_in x r) as HI.
  destruct (set_insert x r) as [n0 r'] eqn:E. cbn [snd] in *. apply increasing_strong. split; [|auto].
  intros z Hz. apply HI in Hz as [->|Hz]; [lia|auto].
Qed.
Lemma set_insert_new x l : increasing l -> fst (set_insert x l) = true <-> ~ In x l.
Proof.
  induction l as [|y r IH]; intros Hl; cbn [set_insert]; [cbn; intuition|].
  apply increasing_strong in Hl as [H1 H2].
  destruct (N.ltb_spec x y).
  { cbn. split; auto. intros _ [->|Hz]; [lia|]. specialize (H1 x Hz). lia. }
  destruct (N.eqb_spec x y).
  { subst. cbn. split; [discriminate|intros HH; exfalso; apply HH; auto]. }
  destruct (set_insert x r) as [m r'] eqn:E. cbn [fst] in *. rewrite IH by auto. cbn [In]. intuition.
Qed.

(** ** The visits: (predecessor in its sequence, block) *)
Notation visit := (option N * N)%type.
Definition visit_dec : forall a b : visit, {a = b} + {a <> b}.
Proof. repeat decide equality. Defined.

Record gi (nr : N) (H : list visit) (E : list N) (g : gatherer) : Prop := mkgi {
  gi_ent : forall b, (exists l, g_entries g b = Some l) <-> exists p, In (p, b) H;
  gi_nb : forall p l, g_entries g p = Some l -> increasing l /\ forall n, In n l <-> In (Some p, n) H;
  gi_dom : forall p n, In (Some p, n) H -> exists q, In (q, p) H;
  gi_back : forall b, match g_back g b with
                      | Some p => In (Some p, b) H
                      | None => forall p, ~ In (Some p, b) H end;
  gi_heads : forall b, g_heads g b = true <->
      In (None, b) H \/ exists p p', p <> p' /\ In (Some p, b) H /\ In (Some p', b) H;
  gi_tails : forall b, g_tails g b = true <-> In b E;
  gi_sh1 : forall b, g_shared g b = true -> (2 <= count_occ N.eq_dec (map snd H) b)%nat;
  gi_sh2 : forall p b, (2 <= count_occ visit_dec H (p, b))%nat -> g_shared g b = true;
  gi_lt : forall p b, In (p, b) H -> b < nr;
  gi_prev : forall p, g_prev g = Some p -> exists q, In (q, p) H }.

Lemma gi_new nr : gi nr [] [] g_new.
Proof.
  split; cbn.
  - intros b. split; [intros [l ?]; discriminate|intros [p []]].
  - discriminate.
  - tauto.
  - tauto.
  - intros b. split; [discriminate|]. intros [[]|(p & p' & _ & [] & _)].
  - intros b. split; [discriminate|tauto].
  - discriminate.
  - intros; lia.
  - tauto.
  - discriminate.
Qed.

Lemma fb_put_ok nr s b : b < nr -> fb_put nr s b = Ok (s b, upd s b true).
Proof. intros. unfold fb_put. destruct (N.ltb_spec b nr); [auto|lia]. Qed.

Lemma mark_head_ok nr b g : b < nr ->
  exists s, mark_head nr b g = Ok (mkg (g_prev g) (upd (g_heads g) b true) (g_tails g) (g_entries g) (g_back g) s)
    /\ forall x, s x = g_shared g x || (g_heads g b && (x =? b)).
Proof.
  intros Hb. unfold mark_head. rewrite fb_put_ok by auto. cbn [bind].
  destruct (g_heads g b).
  - rewrite fb_put_ok by auto. cbn [bind]. eexists. split; [reflexivity|]. intros x. unfold upd.
    destruct (N.eqb_spec x b); destruct (g_shared g x); auto.
  - eexists. split; [reflexivity|]. intros x. cbn. destruct (g_shared g x); auto.
Qed.

Lemma new_seq_gi nr H E g : gi nr H E g -> exists g', new_seq nr g = Ok g' /\ g_prev g' = None /\
  gi nr H (match g_prev g with Some p => p :: E | None => E end) g'.
Proof.
  intros G. unfold new_seq. destruct (g_prev g) as [p|] eqn:Ep.
  - destruct (gi_prev _ _ _ _ G p Ep) as [q Hq]. pose proof (gi_lt _ _ _ _ G _ _ Hq) as Hp.
    unfold mark_tail. rewrite fb_put_ok by auto. cbn [bind set_prev]. eexists. split; [reflexivity|].
    split; [reflexivity|]. destruct G. split; cbn; auto; [|discriminate].
    intros b. unfold upd. destruct (N.eqb_spec b p); [subst; intuition|]. rewrite gi_tails0. intuition congruence.
  - cbn [bind]. eexists. split; [reflexivity|]. split; [reflexivity|]. destruct G; split; cbn; auto. discriminate.
Qed.

Lemma count_snd_two (H : list visit) x y b : x <> y -> In x H -> In y H -> snd x = b -> snd y = b ->
  (2 <= count_occ N.eq_dec (map snd H) b)%nat.
Proof.
  intros Hne. induction H as [|z H IH]; cbn [In map count_occ]; [tauto|].
  intros Hx Hy Ex Ey.
  assert (Hone : forall w, In w H -> snd w = b -> (1 <= count_occ N.eq_dec (map snd H) b)%nat).
  { intros w Hw E. apply (count_occ_In N.eq_dec). rewrite <- E. apply in_map; auto. }
  destruct (N.eq_dec (snd z) b) as [Ez|Ez].
  - destruct Hx as [->|Hx]; [destruct Hy as [->|Hy]; [congruence|]|].
    + specialize (Hone y Hy Ey). lia.
    + specialize (Hone x Hx Ex). lia.
  - destruct Hx as [->|Hx]; [congruence|]. destruct Hy as [->|Hy]; [congruence|]. auto.
Qed.
Lemma count_one_in (H : list visit) v : (1 <= count_occ visit_dec H v)%nat <-> In v H.
Proof. rewrite (count_occ_In visit_dec). lia. Qed.

Lemma g_next_gi nr H E g b : gi nr H E g -> b < nr -> exists g', g_next nr b g = Ok g' /\ g_prev g' = Some b /\
  gi nr ((g_prev g, b) :: H) E g'.
Proof.
  intros G Hb. unfold g_next.
  destruct (g_prev g) as [p|] eqn:Ep.
  - (* with a predecessor *)
    destruct (gi_prev _ _ _ _ G p Ep) as [q Hq].
    destruct (proj2 (gi_ent _ _ _ _ G p) (ex_intro _ q Hq)) as [nbs En]. rewrite En.
    destruct (gi_nb _ _ _ _ G p nbs En) as [Hinc Hnb].
    pose proof (set_insert_in b nbs) as SI. pose proof (set_insert_inc b nbs Hinc) as SI2.
    pose proof (set_insert_new b nbs Hinc) as SI3.
    destruct (set_insert b nbs) as [added nbs'] eqn:Es. cbn [fst snd] in *.
    set (es := upd (g_entries g) p (Some nbs')).
    assert (Hs : exists s, (if added then Ok (g_shared g) else ' (_, s) <- fb_put nr (g_shared g) b ;; Ok s) = Ok s
        /\ forall x, s x = g_shared g x || (negb added && (x =? b))).
    { destruct added.
      - eexists; split; [reflexivity|]. intros x. cbn. destruct (g_shared g x); auto.
      - rewrite fb_put_ok by auto. cbn [bind]. eexists; split; [reflexivity|]. intros x. unfold upd. cbn.
        destruct (N.eqb_spec x b); destruct (g_shared g x); auto. }
    destruct Hs as (s & Es' & Hs). rewrite Es'. cbn [bind].
    (* heads and sharing after the step *)
    assert (K : exists hd bk sh,
      match g_back g b with
      | Some back => if negb (back =? p) then mark_head nr b (mkg (Some p) (g_heads g) (g_tails g) es (g_back g) s)
                     else Ok (mkg (Some p) (g_heads g) (g_tails g) es (g_back g) s)
      | None => Ok (mkg (Some p) (g_heads g) (g_tails g) es (upd (g_back g) b (Some p)) s)
      end = Ok (mkg (Some p) hd (g_tails g) es bk sh) /\
      (forall c, hd c = true <-> g_heads g c = true \/ (c = b /\ exists p', p' <> p /\ In (Some p', b) H)) /\
      (forall c, match bk c with Some p' => In (Some p', c) ((Some p, b) :: H)
                            | None => forall p', ~ In (Some p', c) ((Some p, b) :: H) end) /\
      (forall c, s c = true -> sh c = true) /\
      (forall c, sh c = true -> s c = true \/ (c = b /\ g_heads g b = true))).
    { pose proof (gi_back _ _ _ _ G) as GB. pose proof (GB b) as GBb.
      destruct (g_back g b) as [back|] eqn:Eb.
      - destruct (N.eqb_spec back p) as [->|Hne]; cbn [negb].
        + do 3 eexists. split; [reflexivity|]. conj; auto.
          * intros c. split; auto. intros [?|(-> & p' & Hne & Hin)]; auto.
            apply (gi_heads _ _ _ _ G). right. exists p, p'. auto.
          * intros c. specialize (GB c). destruct (g_back g c) as [p'|] eqn:Ec.
            { right; auto. }
            { intros p' [[= -> <-]|Hin]; [|apply (GB p' Hin)]. congruence. }
        + destruct (mark_head_ok nr b (mkg (Some p) (g_heads g) (g_tails g) es (g_back g) s) Hb) as (sh & Em & Hsh).
          cbn [g_prev g_heads g_tails g_entries g_back g_shared] in *.
          do 3 eexists. split; [exact Em|]. conj.
          * intros c. unfold upd. destruct (N.eqb_spec c b) as [->|?].
            { split; auto. intros _. right. split; auto. exists back. auto. }
            { split; auto. intros [?|[? _]]; [auto|congruence]. }
          * intros c. specialize (GB c). destruct (g_back g c) as [p'|] eqn:Ec.
            { right; auto. }
            { intros p' [[= -> <-]|Hin]; [|apply (GB p' Hin)]. congruence. }
          * intros c Hc. rewrite Hsh, Hc. auto.
          * intros c Hc. rewrite Hsh in Hc. apply orb_true_iff in Hc as [?|Hc]; auto.
            apply andb_true_iff in Hc as [? Hc]. apply N.eqb_eq in Hc. auto.
      - do 3 eexists. split; [reflexivity|]. conj; auto.
        + intros c. split; auto. intros [?|(-> & p' & Hne & Hin)]; auto. exfalso. apply (GBb p' Hin).
        + intros c. unfold upd. destruct (N.eqb_spec c b) as [->|?]; [left; auto|].
          specialize (GB c). destruct (g_back g c) as [p'|] eqn:Ec; [right; auto|].
          intros p' [[= -> <-]|Hin]; [congruence|apply (GB p' Hin)]. }
    cbn [g_prev g_heads g_tails g_entries g_back g_shared].
    destruct K as (hd & bk & sh & EK & K1 & K2 & K3 & K4). rewrite EK. cbn [bind g_prev g_heads g_tails g_entries g_back g_shared].
    eexists. split; [reflexivity|]. split; [reflexivity|].
    assert (Hadd : added = true <-> ~ In (Some p, b) H) by (rewrite SI3, Hnb; reflexivity).
    split; cbn [g_prev g_heads g_tails g_entries g_back g_shared].
    + (* entries *)
      intros c. unfold es.
      assert (Hc : (exists l, upd (g_entries g) p (Some nbs') c = Some l) <-> exists p', In (p', c) H).
      { unfold upd. destruct (N.eqb_spec c p) as [->|]; [|apply (gi_ent _ _ _ _ G)]. split; eauto. }
      destruct (N.eq_dec c b) as [->|Hcb].
      * split; [intros _; exists (Some p); left; auto|intros _].
        destruct (upd (g_entries g) p (Some nbs') b) eqn:Eub; [eauto|rewrite upd_same; eauto].
      * assert (HR : match upd (g_entries g) p (Some nbs') b with
             | Some _ => upd (g_entries g) p (Some nbs')
             | None => upd (upd (g_entries g) p (Some nbs')) b (Some []) end c = upd (g_entries g) p (Some nbs') c).
        { destruct (upd (g_entries g) p (Some nbs') b); [auto|]. apply upd_other; auto. }
        rewrite HR, Hc. split; intros [p' Hp']; exists p'; [right; auto|].
        destruct Hp' as [Hp'|]; [congruence|auto].
    + intros c l.
      destruct (N.eq_dec c p) as [->|Hcp].
      * assert (HR : match es b with Some _ => es | None => upd es b (Some []) end p = Some nbs').
        { destruct (es b) eqn:Eeb; [unfold es; apply upd_same|].
          rewrite upd_other; [unfold es; apply upd_same|]. intros ->. unfold es in Eeb. rewrite upd_same in Eeb. discriminate. }
        rewrite HR. intros [= <-]. split; auto. intros n. rewrite SI, Hnb. cbn [In]. intuition congruence.
      * assert (HR : match es b with Some _ => es | None => upd es b (Some []) end c =
                     match g_entries g c with Some l' => Some l' | None => if c =? b then Some [] else None end).
        { assert (Hec : es c = g_entries g c) by (unfold es; apply upd_other; auto).
          destruct (N.eqb_spec c b) as [->|Hcb].
          - rewrite Hec. destruct (g_entries g b); [rewrite Hec; auto|apply upd_same].
          - destruct (es b); [|rewrite upd_other by auto]; rewrite Hec; destruct (g_entries g c); auto. }
        rewrite HR. destruct (g_entries g c) as [l'|] eqn:Egc.
        { intros [= <-]. destruct (gi_nb _ _ _ _ G c l' Egc) as [? HH]. split; auto. intros n. rewrite HH. cbn [In].
          split; [auto|]. intros [[= ? ?]|]; [congruence|auto]. }
        destruct (c =? b); [|discriminate]. intros [= <-]. split; [cbn; auto|]. intros n. split; [intros []|].
        intros [[= ? ?]|Hin]; [congruence|]. exfalso.
        destruct (proj2 (gi_ent _ _ _ _ G c) (gi_dom _ _ _ _ G _ _ Hin)). congruence.
    + intros p0 n [[= <- <-]|Hin]; [exists q; right; auto|].
      destruct (gi_dom _ _ _ _ G _ _ Hin) as [q' ?]. exists q'; right; auto.
    + exact K2.
    + intros c. rewrite K1, (gi_heads _ _ _ _ G). cbn [In]. split.
      * intros [[?|(p1 & p2 & ? & ? & ?)]|(-> & p' & ? & ?)]; [auto|right; exists p1, p2; auto|right; exists p, p'; auto].
      * intros [[?|?]|(p1 & p2 & Hne & [[= -> ->]|H1] & [[= E2]|H2])]; auto; try congruence.
        -- right. split; [auto|]. exists p2. auto.
        -- right. subst. split; [auto|]. exists p1. split; auto.
        -- left. right. exists p1, p2. auto.
    + apply (gi_tails _ _ _ _ G).
    + intros c Hc. cbn [map snd count_occ]. destruct (K4 c Hc) as [Hsc|[-> Hh]].
      * rewrite Hs in Hsc. apply orb_true_iff in Hsc as [Hsc|Hsc].
        { pose proof (gi_sh1 _ _ _ _ G c Hsc). destruct (N.eq_dec b c); lia. }
        apply andb_true_iff in Hsc as [Ha Hsc]. apply N.eqb_eq in Hsc as ->.
        destruct (N.eq_dec b b); [|congruence].
        assert (Hin : In (Some p, b) H).
        { destruct (in_dec visit_dec (Some p, b) H); auto. apply Hadd in n. subst added. discriminate. }
        assert (1 <= count_occ N.eq_dec (map snd H) b)%nat; [|lia].
        apply (count_occ_In N.eq_dec). apply (in_map snd _ _ Hin).
      * destruct (N.eq_dec b b); [|congruence].
        assert (1 <= count_occ N.eq_dec (map snd H) b)%nat; [|lia].
        apply (count_occ_In N.eq_dec). apply (gi_heads _ _ _ _ G) in Hh as [Hh|(? & ? & _ & Hh & _)]; apply (in_map snd _ _ Hh).
    + intros p0 c Hc. apply K3. rewrite Hs. cbn [count_occ] in Hc.
      destruct (visit_dec (Some p, b) (p0, c)) as [[= <- <-]|Hne].
      * assert (Hin : In (Some p, b) H) by (apply count_one_in; lia).
        destruct added; [exfalso; apply (proj1 Hadd eq_refl Hin)|]. rewrite N.eqb_refl. destruct (g_shared g b); auto.
      * rewrite (gi_sh2 _ _ _ _ G p0 c Hc). auto.
    + intros p0 c [[= <- <-]|Hin]; [auto|apply (gi_lt _ _ _ _ G _ _ Hin)].
    + intros p0 [= <-]. exists (Some p). left; auto.
  - destruct (mark_head_ok nr b g Hb) as (sh & Em & Hsh). rewrite Em, Ep. cbn [bind g_prev g_heads g_tails g_entries g_back g_shared].
    eexists. split; [reflexivity|]. split; [reflexivity|].
    split; cbn [g_prev g_heads g_tails g_entries g_back g_shared].
    + intros c. destruct (N.eq_dec c b) as [->|Hcb].
      * split; [intros _; exists None; left; auto|intros _].
        destruct (g_entries g b) eqn:Eub; [eauto|rewrite upd_same; eauto].
      * assert (HR : match g_entries g b with Some _ => g_entries g | None => upd (g_entries g) b (Some []) end c = g_entries g c).
        { destruct (g_entries g b); [auto|]. apply upd_other; auto. }
        rewrite HR, (gi_ent _ _ _ _ G). split; intros [p' Hp']; exists p'; [right; auto|].
        destruct Hp' as [Hp'|]; [congruence|auto].
    + intros c l.
      assert (HR : match g_entries g b with Some _ => g_entries g | None => upd (g_entries g) b (Some []) end c =
                   match g_entries g c with Some l' => Some l' | None => if c =? b then Some [] else None end).
      { destruct (N.eqb_spec c b) as [->|Hcb].
        - destruct (g_entries g b) eqn:Egb; [auto|apply upd_same].
        - destruct (g_entries g b); [|rewrite upd_other by auto]; destruct (g_entries g c); auto. }
      rewrite HR. destruct (g_entries g c) as [l'|] eqn:Egc.
      { intros [= <-]. destruct (gi_nb _ _ _ _ G c l' Egc) as [? HH]. split; auto. intros n. rewrite HH. cbn [In].
        split; [auto|]. intros [[= ? ?]|]; auto. }
      destruct (c =? b); [|discriminate]. intros [= <-]. split; [cbn; auto|]. intros n. split; [intros []|].
      intros [[= ?]|Hin]. exfalso.
      destruct (proj2 (gi_ent _ _ _ _ G c) (gi_dom _ _ _ _ G _ _ Hin)). congruence.
    + intros p0 n [[= ?]|Hin]. destruct (gi_dom _ _ _ _ G _ _ Hin) as [q' ?]. exists q'; right; auto.
    + intros c. pose proof (gi_back _ _ _ _ G c) as GB. destruct (g_back g c); [right; auto|].
      intros p' [[= ?]|Hin]. apply (GB p' Hin).
    + intros c. unfold upd. destruct (N.eqb_spec c b) as [->|Hcb].
      * split; auto. intros _. left. left. auto.
      * rewrite (gi_heads _ _ _ _ G). cbn [In]. split.
        { intros [?|(p1 & p2 & ? & ? & ?)]; [auto|right; exists p1, p2; auto]. }
        { intros [[[= ?]|?]|(p1 & p2 & ? & [[= ?]|?] & [[= ?]|?])]; auto; [congruence|]. right. exists p1, p2. auto. }
    + apply (gi_tails _ _ _ _ G).
    + intros c Hc. cbn [map snd count_occ]. rewrite Hsh in Hc. apply orb_true_iff in Hc as [Hc|Hc].
      * pose proof (gi_sh1 _ _ _ _ G c Hc). destruct (N.eq_dec b c); lia.
      * apply andb_true_iff in Hc as [Hh Hc]. apply N.eqb_eq in Hc as ->.
        destruct (N.eq_dec b b); [|congruence].
        assert (1 <= count_occ N.eq_dec (map snd H) b)%nat; [|lia].
        apply (count_occ_In N.eq_dec). apply (gi_heads _ _ _ _ G) in Hh as [Hh|(? & ? & _ & Hh & _)]; apply (in_map snd _ _ Hh).
    + intros p0 c Hc. rewrite Hsh. cbn [count_occ] in Hc.
      destruct (visit_dec (None, b) (p0, c)) as [[= <- <-]|Hne].
      * assert (Hin : In (None, b) H) by (apply count_one_in; lia).
        rewrite N.eqb_refl, (proj2 (gi_heads _ _ _ _ G b) (or_introl Hin)). destruct (g_shared g b); auto.
      * rewrite (gi_sh2 _ _ _ _ G p0 c Hc). auto.
    + intros p0 c [[= <- <-]|Hin]; [auto|apply (gi_lt _ _ _ _ G _ _ Hin)].
    + intros p0 [= <-]. exists None. left; auto.
Qed.

(** ** Gathering the devices *)
Fixpoint visits_from (p : option N) (d : list N) : list visit :=
  match d with [] => [] | b :: r => (p, b) :: visits_from (Some b) r end.
Lemma visits_snd p d : map snd (visits_from p d) = d.
Proof. revert p. induction d as [|b r IH]; intros p; cbn; [auto|]. f_equal. apply IH. Qed.
Lemma visits_in p d q b : In (q, b) (visits_from p d) -> In b d.
Proof. intros Hi. apply (in_map snd) in Hi. rewrite visits_snd in Hi. exact Hi. Qed.
Lemma visits_pair p l1 b n l2 : In (Some b, n) (visits_from p (l1 ++ b :: n :: l2)).
Proof. revert p. induction l1 as [|x l1 IH]; intros p; cbn; auto. Qed.
Lemma visits_some p d b : In b d -> exists q, In (q, b) (visits_from p d).
Proof.
  revert p. induction d as [|x r IH]; intros p; cbn; [tauto|]. intros [->|Hi]; [eauto|].
  destruct (IH (Some x) Hi) as [q ?]. eauto.
Qed.

Definition ends (d : list N) (b : N) : Prop := exists l, d = l ++ [b].
Definition pend (E : list N) (g : gatherer) : list N :=
  match g_prev g with Some p => p :: E | None => E end.

Lemma gather_entries_gi nr d : forall H E g, gi nr H E g -> Forall (fun b => b < nr) d ->
  exists g', gather_entries_ nr g (map EnLeaf d) = Ok g' /\ gi nr (rev (visits_from (g_prev g) d) ++ H) E g' /\
    (forall b, g_prev g' = Some b <-> ends d b \/ (d = [] /\ g_prev g = Some b)).
Proof.
  induction d as [|x r IH]; intros H E g G Hd; cbn [map gather_entries_ visits_from].
  - exists g. conj; auto. intros b. split; auto. intros [[l Hl]|[_ ?]]; [destruct l; discriminate|auto].
  - inversion Hd; subst. destruct (g_next_gi nr H E g x G H2) as (g1 & E1 & P1 & G1). rewrite E1. cbn [bind].
    destruct (IH _ _ _ G1 H3) as (g2 & E2 & G2 & P2). exists g2. rewrite P1 in *. conj; [auto| |].
    + cbn [rev]. rewrite <- app_assoc. exact G2.
    + intros b. rewrite P2. split.
      * intros [[l ->]|[-> [= <-]]]; left; [exists (x :: l); auto|exists []; auto].
      * intros [[l Hl]|[? _]]; [|discriminate]. destruct l as [|y l]; injection Hl as -> ->; [auto|]. left. exists l; auto.
Qed.

Lemma gather_devs_gi nr ds : forall H E g, gi nr H E g -> Forall (Forall (fun b => b < nr)) ds ->
  exists H' E' g', gather_devs nr g (map (map EnLeaf) ds) = Ok g' /\ gi nr H' E' g' /\
    (forall v, In v H' <-> In v H \/ exists d, In d ds /\ In v (visits_from None d)) /\
    (forall b, count_occ N.eq_dec (map snd H') b = (count_occ N.eq_dec (map snd H) b + count_occ N.eq_dec (concat ds) b)%nat) /\
    (forall b, In b (pend E' g') <-> In b (pend E g) \/ exists d, In d ds /\ ends d b).
Proof.
  induction ds as [|d ds IH]; intros H E g G Hd; cbn [map gather_devs].
  - exists H, E, g. conj; auto.
    + intros v. split; auto. intros [?|(? & [] & _)]; auto.
    + intros b. split; auto. intros [?|(? & [] & _)]; auto.
  - inversion Hd; subst. unfold gather_entries.
    destruct (new_seq_gi nr H E g G) as (g1 & E1 & P1 & G1). fold (pend E g) in G1. rewrite E1. cbn [bind].
    destruct (gather_entries_gi nr d _ _ _ G1 H2) as (g2 & E2 & G2 & P2). rewrite E2. cbn [bind]. rewrite P1 in *.
    destruct (IH _ _ _ G2 H3) as (H' & E' & g' & E3 & G3 & A & B & C).
    exists H', E', g'. conj; auto.
    + intros v. rewrite A, in_app_iff, <- in_rev. cbn [In]. split.
      * intros [[?|?]|(d' & ? & ?)]; [right; exists d; auto|auto|right; exists d'; auto].
      * intros [?|(d' & [->|?] & ?)]; [auto|auto|right; exists d'; auto].
    + intros b. rewrite B. cbn [concat]. rewrite map_app, map_rev, visits_snd, !count_occ_app, count_occ_rev. lia.
    + intros b. rewrite C. cbn [In].
      assert (Hp : In b (pend (pend E g) g2) <-> In b (pend E g) \/ ends d b).
      { unfold pend at 1. specialize (P2 b). destruct (g_prev g2) as [p|].
        - cbn [In]. split.
          + intros [->|?]; auto. destruct (proj1 P2 eq_refl) as [?|[_ ?]]; [auto|discriminate].
          + intros [?|He]; auto. left. assert (Some p = Some b) by (apply P2; auto). congruence.
        - split; auto. intros [?|He]; auto. assert (None = Some b) by (apply P2; auto). discriminate. }
      rewrite Hp. split.
      * intros [[?|?]|(d' & ? & ?)]; [auto|right; exists d; auto|right; exists d'; auto].
      * intros [?|(d' & [->|?] & ?)]; [auto|auto|right; exists d'; auto].
Qed.

(** ** Completing heads and tails *)
Lemma put_heads_ok nr ns : forall g, Forall (fun b => b < nr) ns ->
  exists g', put_heads nr g ns = Ok g' /\ g_tails g' = g_tails g /\ g_entries g' = g_entries g /\
    (forall x, g_heads g' x = true <-> g_heads g x = true \/ In x ns) /\
    (forall x, g_shared g' x = true <-> g_shared g x = true \/ (g_heads g x = true /\ In x ns) \/
       (2 <= count_occ N.eq_dec ns x)%nat).
Proof.
  induction ns as [|n r IH]; intros g Hn; cbn [put_heads].
  - exists g. conj; auto; intros x; cbn; [tauto|]. split; [auto|]. intros [?|[[_ []]|?]]; [auto|lia].
  - inversion Hn; subst. destruct (mark_head_ok nr n g H1) as (s & Em & Hs). rewrite Em. cbn [bind].
    destruct (IH (mkg (g_prev g) (upd (g_heads g) n true) (g_tails g) (g_entries g) (g_back g) s) H2) as (g' & E' & T & EE & HH & SS).
    cbn [g_tails g_entries g_heads g_shared] in *. exists g'. conj; auto.
    + intros x. rewrite HH. unfold upd. cbn [In]. destruct (N.eqb_spec x n); [subst; intuition|intuition congruence].
    + intros x. rewrite SS, Hs. unfold upd. cbn [In count_occ].
      destruct (N.eqb_spec x n) as [->|Hne].
      * destruct (N.eq_dec n n) as [_|?]; [|congruence]. rewrite andb_true_r, orb_true_iff.
        assert (HI : In n r <-> (1 <= count_occ N.eq_dec r n)%nat) by (rewrite (count_occ_In N.eq_dec); lia).
        split.
        { intros [[?|?]|[[_ Hr]|?]]; [auto|auto|right; right; apply HI in Hr; lia|right; right; lia]. }
        { intros [?|[[? _]|?]]; auto. right. left. split; auto. apply HI. lia. }
      * destruct (N.eq_dec n x); [congruence|]. rewrite andb_false_r, orb_false_r.
        intuition congruence.
Qed.

Lemma count_flat_map_two (f : N -> list N) ts n : NoDup ts -> (forall t, In t ts -> NoDup (f t)) ->
  (2 <= count_occ N.eq_dec (flat_map f ts) n)%nat -> exists t t', t <> t' /\ In t ts /\ In t' ts /\ In n (f t) /\ In n (f t').
Proof.
  induction ts as [|t r IH]; cbn [flat_map]; intros Hd Hf Hc; [cbn in Hc; lia|].
  inversion Hd as [|? ? HA HB]; subst. rewrite count_occ_app in Hc.
  pose proof (proj1 (NoDup_count_occ N.eq_dec (f t)) (Hf t (or_introl eq_refl)) n) as HO.
  destruct (count_occ N.eq_dec (f t) n) eqn:E.
  - destruct (IH HB (fun t Ht => Hf t (or_intror Ht)) ltac:(lia)) as (a & b & ? & ? & ? & ? & ?).
    exists a, b. cbn; auto 10.
  - assert (HI : In n (flat_map f r)) by (apply (count_occ_In N.eq_dec); lia).
    apply in_flat_map in HI as (t' & Ht' & Hn). exists t, t'. cbn [In]. conj; auto; [congruence|].
    apply (count_occ_In N.eq_dec). lia.
Qed.

(** What the Gatherer knows once everything has been gathered. *)
Record fin (nr : N) (ds : list (list N)) (g : gatherer) : Prop := mkfin {
  f_start : forall n l, In (n :: l) ds -> g_heads g n = true;
  f_step : forall l1 b n l2, In (l1 ++ b :: n :: l2) ds -> g_tails g b = true -> g_heads g n = true;
  f_link : forall l1 b l2, In (l1 ++ b :: l2) ds -> g_tails g b = false ->
      exists n l2', l2 = n :: l2' /\ g_entries g b = Some [n] /\ g_heads g n = false /\
        (forall d p, In d ds -> In (p, n) (visits_from None d) -> p = Some b);
  f_heads : forall b, g_heads g b = true -> exists d, In d ds /\ In b d;
  f_shared : forall b, g_heads g b = true -> (g_shared g b = true <-> (2 <= times ds b)%nat) }.

Lemma existsb_eqb b l : existsb (N.eqb b) l = true <-> In b l.
Proof. rewrite existsb_exists. split; [intros (x & Hx & He); apply N.eqb_eq in He; congruence|exists b; rewrite N.eqb_refl; auto]. Qed.

Lemma complete_fin nr ds : Forall (Forall (fun b => b < nr)) ds ->
  exists g0 g1 g2, gather_devs nr g_new (map (map EnLeaf) ds) = Ok g0 /\ new_seq nr g0 = Ok g1 /\
    complete_heads_and_tails nr g1 = Ok g2 /\ fin nr ds g2.
Proof.
  intros Hd. destruct (gather_devs_gi nr ds [] [] g_new (gi_new nr) Hd) as (H & E & g0 & E0 & G0 & A & B & C).
  destruct (new_seq_gi _ _ _ _ G0) as (g1 & E1 & P1 & G). fold (pend E g0) in G. set (E' := pend E g0) in *.
  assert (A' : forall v, In v H <-> exists d, In d ds /\ In v (visits_from None d)).
  { intros v. rewrite A. cbn. split; [intros [[]|?]; auto|auto]. }
  assert (C' : forall b, In b E' <-> exists d, In d ds /\ ends d b).
  { intros b. rewrite C. cbn. split; [intros [[]|?]; auto|auto]. }
  assert (B' : forall b, count_occ N.eq_dec (map snd H) b = times ds b) by (intros b; apply (B b)).
  exists g0, g1. unfold complete_heads_and_tails.
  set (gt := mkg (g_prev g1) (g_heads g1) (fun b => g_tails g1 b || existsb (N.eqb b) (filter (extra_tail g1) (range 0 nr)))
                (g_entries g1) (g_back g1) (g_shared g1)).
  set (nb := fun t => match g_entries gt t with Some nbs => nbs | None => [] end).
  assert (Hnb : forall t n, In n (nb t) <-> In (Some t, n) H).
  { intros t n. unfold nb. cbn [g_entries gt]. destruct (g_entries g1 t) as [l|] eqn:El.
    - apply (gi_nb _ _ _ _ G t l El).
    - split; [intros []|]. intros Hin. destruct (proj2 (gi_ent _ _ _ _ G t) (gi_dom _ _ _ _ G _ _ Hin)). congruence. }
  assert (Hlt : forall b, (exists p, In (p, b) H) -> b < nr) by (intros b [p Hp]; eapply (gi_lt _ _ _ _ G); eauto).
  assert (Ht : forall b, g_tails gt b = true <-> In b E' \/ extra_tail g1 b = true).
  { intros b. cbn [g_tails gt]. rewrite orb_true_iff, (gi_tails _ _ _ _ G), existsb_eqb, filter_In, in_range.
    split; [tauto|]. intros [?|He]; auto. right. split; auto. split; [lia|]. apply Hlt. apply (gi_ent _ _ _ _ G).
    unfold extra_tail in He. destruct (g_entries g1 b); [eauto|discriminate]. }
  assert (HtV : forall b, g_tails gt b = true -> b < nr).
  { intros b Hb. apply Hlt. apply Ht in Hb as [Hb|Hb].
    - apply C' in Hb as (d & Hdd & l & ->). destruct (visits_some None (l ++ [b]) b) as [q Hq].
      { apply in_or_app; right; left; auto. } exists q. apply A'. eauto.
    - apply (gi_ent _ _ _ _ G). unfold extra_tail in Hb. destruct (g_entries g1 b); [eauto|discriminate]. }
  set (L := flat_map nb (fb_ones nr (g_tails gt))).
  assert (HL : forall n, In n L <-> exists t, g_tails gt t = true /\ In (Some t, n) H).
  { intros n. unfold L. rewrite in_flat_map. split.
    - intros (t & Ht1 & Ht2). apply filter_In in Ht1 as [_ Ht1]. apply Hnb in Ht2. eauto.
    - intros (t & Ht1 & Ht2). exists t. split; [|apply Hnb; auto]. apply filter_In. rewrite in_range. split; auto.
      split; [lia|]. auto. }
  destruct (put_heads_ok nr L gt) as (g2 & E2 & T2 & EE2 & H2 & S2).
  { rewrite Forall_forall. intros n Hn. apply HL in Hn as (t & _ & Hn). apply Hlt. eauto. }
  exists g2. split; [exact E0|]. split; [exact E1|]. split; [exact E2|].
  cbn [g_heads g_shared gt] in H2, S2.
  (* a predecessor of a head is a tail *)
  assert (Htail : forall q b, In (Some q, b) H -> g_heads g1 b = true -> g_tails gt q = true).
  { intros q b Hq Hh. apply Ht. right. unfold extra_tail.
    destruct (proj2 (gi_ent _ _ _ _ G q) (gi_dom _ _ _ _ G _ _ Hq)) as [l El]. rewrite El.
    destruct (gi_nb _ _ _ _ G q l El) as [_ Hl]. apply Hl in Hq.
    destruct l as [|n [|n' l]]; cbn; auto. destruct Hq as [->|[]]. exact Hh. }
  assert (H2' : forall b, g_heads g2 b = true <-> g_heads g1 b = true \/ exists t, g_tails gt t = true /\ In (Some t, b) H).
  { intros b. rewrite H2, HL. reflexivity. }
  split.
  - intros n l Hin. apply H2'. left. apply (gi_heads _ _ _ _ G). left. apply A'. exists (n :: l). cbn; auto.
  - intros l1 b n l2 Hin Hb. rewrite T2 in Hb. apply H2'. right. exists b. split; auto. apply A'. exists (l1 ++ b :: n :: l2).
    split; auto. apply visits_pair.
  - intros l1 b l2 Hin Hb. rewrite T2 in Hb. rewrite EE2.
    assert (Hno : ~ (In b E' \/ extra_tail g1 b = true)) by (rewrite <- Ht; congruence).
    destruct l2 as [|n l2].
    { exfalso. apply Hno. left. apply C'. exists (l1 ++ [b]). split; auto. exists l1; auto. }
    assert (HP : In (Some b, n) H).
    { apply A'. exists (l1 ++ b :: n :: l2). split; auto. apply visits_pair. }
    exists n, l2. split; auto. cbn [g_entries gt].
    destruct (proj2 (gi_ent _ _ _ _ G b) (gi_dom _ _ _ _ G _ _ HP)) as [l El].
    destruct (gi_nb _ _ _ _ G b l El) as [_ Hl]. pose proof (proj2 (Hl n) HP) as Hnl.
    assert (Hex : extra_tail g1 b = false) by (destruct (extra_tail g1 b); [exfalso; apply Hno; auto|auto]).
    unfold extra_tail in Hex. rewrite El in Hex. apply orb_false_iff in Hex as [Hx1 Hx2].
    apply negb_false_iff in Hx1. apply Nat.eqb_eq in Hx1.
    destruct l as [|n' [|? ?]]; try discriminate. destruct Hnl as [->|[]].
    assert (Huniq : forall p, In (p, n) H -> p = Some b).
    { intros p Hp. destruct p as [p|].
      - destruct (N.eq_dec p b); [congruence|]. exfalso.
        assert (g_heads g1 n = true); [|congruence]. apply (gi_heads _ _ _ _ G). right. exists p, b. auto.
      - exfalso. assert (g_heads g1 n = true); [|congruence]. apply (gi_heads _ _ _ _ G). auto. }
    conj; auto.
    + destruct (g_heads g2 n) eqn:Eh; auto. apply H2' in Eh as [Eh|(t & Ht1 & Ht2)]; [congruence|].
      apply Huniq in Ht2. congruence.
    + intros d p Hdd Hv. apply Huniq. apply A'. eauto.
  - intros b Hb. assert (Hv : exists p, In (p, b) H).
    { apply H2' in Hb as [Hb|(t & _ & Hb)]; [|eauto].
      apply (gi_heads _ _ _ _ G) in Hb as [?|(p & _ & _ & ? & _)]; eauto. }
    destruct Hv as [p Hv]. apply A' in Hv as (d & Hdd & Hv). exists d. split; auto. eapply visits_in; eauto.
  - intros b Hb. rewrite <- B'. rewrite S2. split.
    + intros [Hs|[[Hh HIL]|Hc]].
      * apply (gi_sh1 _ _ _ _ G _ Hs).
      * apply HL in HIL as (t & _ & Ht2). apply (gi_heads _ _ _ _ G) in Hh as [Hh|(p & p' & Hne & Hp & Hp')].
        -- apply (count_snd_two H (None, b) (Some t, b)); auto. discriminate.
        -- apply (count_snd_two H (Some p, b) (Some p', b)); auto. congruence.
      * apply count_flat_map_two in Hc as (t & t' & Hne & _ & _ & Hn & Hn').
        -- apply Hnb in Hn, Hn'. apply (count_snd_two H (Some t, b) (Some t', b)); auto. congruence.
        -- apply NoDup_filter. apply increasing_NoDup, range_increasing.
        -- intros t _. unfold nb. cbn [g_entries gt]. destruct (g_entries g1 t) eqn:El; [|constructor].
           apply increasing_NoDup. apply (gi_nb _ _ _ _ G t l El).
    + intros Hc.
      (* two visits of b *)
      assert (HV : exists p p', In (p, b) H /\ In (p', b) H /\ (p <> p' \/ (2 <= count_occ visit_dec H (p, b))%nat)).
      { clear - Hc. induction H as [|[p c] H IH]; cbn [map snd count_occ] in Hc; [lia|].
        destruct (N.eq_dec c b) as [->|Hne].
        - assert (HI : In b (map snd H)) by (apply (count_occ_In N.eq_dec); lia).
          apply in_map_iff in HI as ([p' c'] & Ec & HI). cbn in Ec. subst c'.
          exists p, p'. conj; [left; auto|right; auto|]. cbn [count_occ].
          destruct (visit_dec (p, b) (p, b)); [|congruence].
          destruct (visit_dec (p, b) (p', b)) as [[= <-]|Hn]; [|left; congruence].
          right. apply count_one_in in HI. lia.
        - destruct (IH Hc) as (q & q' & ? & ? & Hor). exists q, q'. conj; [right; auto|right; auto|].
          destruct Hor; [auto|]. right. cbn [count_occ]. destruct (visit_dec (p, c) (q, b)); lia. }
      destruct HV as (p & p' & Hp & Hp' & [Hne|H2c]).
      2:{ left. apply (gi_sh2 _ _ _ _ G p b H2c). }
      assert (HK : forall q, In (Some q, b) H -> g_heads g1 b = true -> g_shared g1 b = true \/ g_heads g1 b = true /\ In b L \/ (2 <= count_occ N.eq_dec L b)%nat).
      { intros q Hq Hh. right. left. split; auto. apply HL. exists q. split; auto. eapply Htail; eauto. }
      destruct p as [p|], p' as [p'|]; [| | |congruence].
      * apply (HK p Hp). apply (gi_heads _ _ _ _ G). right. exists p, p'. conj; auto. congruence.
      * apply (HK p Hp). apply (gi_heads _ _ _ _ G). auto.
      * apply (HK p' Hp'). apply (gi_heads _ _ _ _ G). auto.
Qed.

(** ** The runs *)
Section Runs.
Context (nr : N) (ds : list (list N)) (g : gatherer) (F : fin nr ds g)
  (Hnr : Forall (Forall (fun b => b < nr)) ds).

Definition only_pred (b n : N) : Prop :=
  (exists d, In d ds /\ In (Some b, n) (visits_from None d)) /\
  (forall d p, In d ds -> In (p, n) (visits_from None d) -> p = Some b).
Inductive ext : N -> list N -> Prop :=
| ext_last b : g_tails g b = true -> ext b [b]
| ext_more b n r : g_tails g b = false -> g_entries g b = Some [n] -> g_heads g n = false -> only_pred b n ->
    ext n r -> ext b (b :: r).

Lemma ext_exists l2 : forall l1 b, In (l1 ++ b :: l2) ds ->
  exists r l2', ext b r /\ b :: l2 = r ++ l2' /\ (l2' = [] \/ exists n l3, l2' = n :: l3 /\ g_heads g n = true).
Proof.
  induction l2 as [|m l2 IH]; intros l1 b Hin; destruct (g_tails g b) eqn:Et.
  - exists [b], []. conj; auto. constructor; auto.
  - destruct (f_link _ _ _ F _ _ _ Hin Et) as (n & l' & ? & _). discriminate.
  - exists [b], (m :: l2). conj; auto; [constructor; auto|]. right. exists m, l2. split; auto.
    apply (f_step _ _ _ F _ _ _ _ Hin Et).
  - destruct (f_link _ _ _ F _ _ _ Hin Et) as (n & l' & [= <- <-] & He & Hh & Hu).
    destruct (IH (l1 ++ [b]) m) as (r & l2' & He' & Er & Hl); [rewrite <- app_assoc; exact Hin|].
    exists (b :: r), l2'. conj; auto; [|cbn; congruence]. econstructor; eauto. split; auto.
    exists (l1 ++ b :: m :: l2). split; auto. apply visits_pair.
Qed.

Lemma ext_det b r r' : ext b r -> ext b r' -> r = r'.
Proof.
  intros H. revert r'. induction H as [b Ht|b n r Ht He Hh Hp Hr IH]; intros r' H'; inversion H'; subst; auto; try congruence.
  f_equal. apply IH. congruence.
Qed.
Lemma ext_head b r : ext b r -> exists r', r = b :: r'.
Proof. intros H; inversion H; subst; eauto. Qed.
Lemma ext_nth b r : ext b r -> forall i x, nth_error r (S i) = Some x ->
  g_heads g x = false /\ exists y, nth_error r i = Some y /\ only_pred y x.
Proof.
  induction 1 as [b Ht|b n r Ht He Hh Hp Hr IH]; intros i x Hx; [destruct i; discriminate|].
  cbn [nth_error] in Hx. destruct i as [|i].
  - destruct (ext_head _ _ Hr) as [r' ->]. injection Hx as <-. split; auto. exists b. auto.
  - apply IH in Hx. exact Hx.
Qed.
Lemma ext_index h h' r r' : ext h r -> ext h' r' -> g_heads g h = true -> g_heads g h' = true ->
  forall i j x, nth_error r i = Some x -> nth_error r' j = Some x -> i = j /\ h = h'.
Proof.
  intros E1 E2 H1 H2. pose proof (ext_head _ _ E1) as [t1 ->]. pose proof (ext_head _ _ E2) as [t2 ->].
  induction i as [|i IH]; intros j x Hi Hj.
  - cbn in Hi. injection Hi as <-. destruct j as [|j]; [cbn in Hj; split; congruence|].
    destruct (ext_nth _ _ E2 j h Hj) as [? _]. congruence.
  - destruct (ext_nth _ _ E1 i x Hi) as (Hh & y & Hy & (d & Hd & Hv) & _).
    destruct j as [|j]; [cbn in Hj; congruence|].
    destruct (ext_nth _ _ E2 j x Hj) as (_ & y' & Hy' & _ & Hu). specialize (Hu d _ Hd Hv). injection Hu as ->.
    destruct (IH j y' Hy Hy'). split; [lia|auto].
Qed.
Lemma ext_nodup h r : ext h r -> g_heads g h = true -> NoDup r.
Proof.
  intros E1 H1. apply NoDup_nth_error. intros i j Hi Hij.
  destruct (nth_error r i) as [x|] eqn:Ei; [|apply nth_error_None in Ei; lia].
  apply (ext_index h h r r E1 E1 H1 H1 i j x Ei); auto.
Qed.
Lemma ext_disjoint h h' r r' x : ext h r -> ext h' r' -> g_heads g h = true -> g_heads g h' = true ->
  In x r -> In x r' -> h = h'.
Proof.
  intros E1 E2 H1 H2 I1 I2. apply In_nth_error in I1 as [i Hi]. apply In_nth_error in I2 as [j Hj].
  eapply ext_index; eauto.
Qed.

Lemma extract_ext b r : ext b r -> forall fuel, (length r <= fuel)%nat -> extract_loop g fuel b = Ok r.
Proof.
  induction 1 as [b Ht|b n r Ht He Hh Hp Hr IH]; intros fuel Hf; (destruct fuel as [|fuel]; [cbn in Hf; lia|]); cbn [extract_loop]; rewrite Ht; auto.
  rewrite He, IH by (cbn in Hf; lia). reflexivity.
Qed.

Definition runf (h : N) : list N := match extract_loop g (N.to_nat nr) h with Ok r => r | _ => [] end.

Lemma nodup_lt_length (l : list N) : NoDup l -> (forall x, In x l -> x < nr) -> (length l <= N.to_nat nr)%nat.
Proof.
  intros Hn Hl. rewrite <- (Nat.sub_0_r (N.to_nat nr)). replace (N.to_nat nr - 0)%nat with (length (range 0 nr)) by (rewrite range_length; lia).
  apply NoDup_incl_length; auto. intros x Hx. apply in_range. specialize (Hl x Hx). lia.
Qed.

Lemma runf_ext h : g_heads g h = true -> extract_seq nr g h = Ok (runf h) /\ ext h (runf h).
Proof.
  intros Hh. destruct (f_heads _ _ _ F h Hh) as (d & Hd & Hi). apply in_split in Hi as (l1 & l2 & ->).
  destruct (ext_exists _ _ _ Hd) as (r & l2' & He & Er & _).
  assert (Hl : extract_loop g (N.to_nat nr) h = Ok r).
  { apply extract_ext; auto. apply nodup_lt_length; [eapply ext_nodup; eauto|].
    intros x Hx. rewrite Forall_forall in Hnr. specialize (Hnr _ Hd). rewrite Forall_forall in Hnr. apply Hnr.
    apply in_or_app. right. rewrite Er. apply in_or_app; auto. }
  unfold extract_seq, runf. rewrite Hh, Hl. auto.
Qed.

Lemma heads_lt h : g_heads g h = true -> h < nr.
Proof.
  intros Hh. destruct (f_heads _ _ _ F h Hh) as (d & Hd & Hi).
  rewrite Forall_forall in Hnr. specialize (Hnr _ Hd). rewrite Forall_forall in Hnr. auto.
Qed.

Definition hs : list N := fb_ones nr (g_heads g).
Definition rmap : run_map := map (fun h => (h, (runf h, g_shared g h))) hs.
Lemma in_hs h : In h hs <-> g_heads g h = true.
Proof. unfold hs, fb_ones. rewrite filter_In, in_range. split; [tauto|]. intros Hh. pose proof (heads_lt h Hh). split; [lia|auto]. Qed.
Lemma hs_nodup : NoDup hs.
Proof. apply NoDup_filter, increasing_NoDup, range_increasing. Qed.

Lemma gather_heads_ok l : (forall h, In h l -> g_heads g h = true) ->
  exists rs, gather_heads nr g l = Ok rs /\ key_runs rs = Ok (map (fun h => (h, (runf h, g_shared g h))) l).
Proof.
  induction l as [|h l IH]; intros Hl; cbn [gather_heads].
  - exists []. auto.
  - destruct (runf_ext h (Hl h (or_introl eq_refl))) as [E1 E2]. rewrite E1. cbn [bind].
    destruct IH as (rs & E3 & E4); [intros; apply Hl; right; auto|]. rewrite E3. cbn [bind].
    eexists. split; [reflexivity|]. cbn [key_runs]. destruct (ext_head _ _ E2) as [r' Er]. rewrite Er, E4. cbn [bind map].
    rewrite Er. reflexivity.
Qed.

Lemma run_get_ok b : run_get rmap b = if g_heads g b then Some (runf b, g_shared g b) else None.
Proof.
  unfold rmap. assert (HG : forall l, run_get (map (fun h => (h, (runf h, g_shared g h))) l) b =
     if existsb (N.eqb b) l then Some (runf b, g_shared g b) else None).
  { induction l as [|h l IH]; cbn [map run_get existsb]; [auto|]. rewrite (N.eqb_sym b h). destruct (N.eqb_spec h b); [subst; auto|auto]. }
  rewrite HG. destruct (existsb (N.eqb b) hs) eqn:E.
  - apply existsb_eqb, in_hs in E. rewrite E. auto.
  - destruct (g_heads g b) eqn:Eh; auto. apply in_hs in Eh. apply existsb_eqb in Eh. congruence.
Qed.

Definition outf (h : N) : list entry := if g_shared g h then [EnRef h] else map EnLeaf (runf h).

Lemma etr_skip m es : forall k, entries_to_runs_ m k es = entries_to_runs_ m 0 (skipn k es).
Proof.
  induction es as [|e r IH]; intros k; [destruct k; auto|]. destruct k as [|k]; [auto|]. cbn [entries_to_runs_ skipn]. apply IH.
Qed.

Lemma decompose n : forall s l1, (length s <= n)%nat -> In (l1 ++ s) ds ->
  (s = [] \/ exists b l, s = b :: l /\ g_heads g b = true) ->
  exists D, Forall (fun h => g_heads g h = true) D /\ s = concat (map runf D) /\
    entries_to_runs_ rmap 0 (map EnLeaf s) = concat (map outf D).
Proof.
  induction n as [|n IH]; intros s l1 Hn Hin Hs.
  - destruct s; [|cbn in Hn; lia]. exists []. auto.
  - destruct Hs as [->|(b & l2 & -> & Hb)]; [exists []; auto|].
    destruct (runf_ext b Hb) as [_ He].
    destruct (ext_exists _ _ _ Hin) as (r & l2' & He' & Er & Hl). rewrite (ext_det _ _ _ He' He) in Er.
    destruct (ext_head _ _ He) as [r' Er'].
    assert (E2 : l2 = r' ++ l2') by (rewrite Er' in Er; cbn in Er; congruence).
    destruct (IH l2' (l1 ++ runf b)) as (D & HD & ED & EO); auto.
    { subst l2. cbn [length] in Hn. rewrite app_length in Hn. lia. }
    { rewrite <- app_assoc, <- Er. exact Hin. }
    exists (b :: D). conj; [constructor; auto|cbn; rewrite <- ED; exact Er|].
    cbn [map entries_to_runs_]. rewrite run_get_ok, Hb. cbn [concat]. unfold outf at 1.
    f_equal. rewrite etr_skip, Er', E2, map_app. cbn [length].
    replace (S (length r') - 1)%nat with (length (map EnLeaf r')) by (rewrite map_length; lia).
    rewrite skipn_app, skipn_all, Nat.sub_diag. exact EO.
Qed.

Lemma decompose_dev d : In d ds -> exists D, Forall (fun h => g_heads g h = true) D /\ d = concat (map runf D) /\
    entries_to_runs rmap (map EnLeaf d) = concat (map outf D).
Proof.
  intros Hd. apply (decompose (length d) d []); auto. destruct d as [|b l]; [auto|]. right. exists b, l. split; auto.
  apply (f_start _ _ _ F _ _ Hd).
Qed.

Lemma decompose_all l : incl l ds -> exists Ds, Forall (Forall (fun h => g_heads g h = true)) Ds /\
   l = map (fun D => concat (map runf D)) Ds /\
   map (entries_to_runs rmap) (map (map EnLeaf) l) = map (fun D => concat (map outf D)) Ds.
Proof.
  induction l as [|d l IH]; intros Hl; [exists []; auto|].
  destruct (decompose_dev d) as (D & H1 & H2 & H3); [apply Hl; left; auto|].
  destruct IH as (Ds & H4 & H5 & H6); [intros x Hx; apply Hl; right; auto|].
  exists (D :: Ds). conj; [constructor; auto| |]; cbn [map]; congruence.
Qed.

Lemma count_runs D x h : Forall (fun h => g_heads g h = true) D -> g_heads g h = true -> In x (runf h) ->
  count_occ N.eq_dec (concat (map runf D)) x = count_occ N.eq_dec D h.
Proof.
  intros HD Hh Hx. induction HD as [|h' D Hh' HD IH]; [auto|]. cbn [map concat count_occ]. rewrite count_occ_app, IH.
  destruct (runf_ext h Hh) as [_ Eh]. destruct (runf_ext h' Hh') as [_ Eh'].
  destruct (N.eq_dec h' h) as [->|Hne].
  - pose proof (proj1 (NoDup_count_occ N.eq_dec _) (ext_nodup _ _ Eh Hh) x).
    apply (count_occ_In N.eq_dec) in Hx. lia.
  - rewrite (proj1 (count_occ_not_In N.eq_dec _ _)); auto. intros Hx'. apply Hne. eapply ext_disjoint; eauto.
Qed.
Lemma nodup_runs D : NoDup D -> Forall (fun h => g_heads g h = true) D -> NoDup (concat (map runf D)).
Proof.
  intros Hn HD. apply (NoDup_count_occ N.eq_dec). intros x. destruct (in_dec N.eq_dec x (concat (map runf D))) as [Hi|Hi].
  - pose proof Hi as Hi'. apply in_concat in Hi' as (r & Hr & Hx). apply in_map_iff in Hr as (h & <- & Hh).
    rewrite (count_runs D x h HD); auto; [apply (NoDup_count_occ N.eq_dec); auto|].
    rewrite Forall_forall in HD; auto.
  - rewrite (proj1 (count_occ_not_In N.eq_dec _ _)); auto.
Qed.
End Runs.
