From Verif Require Import Base Csum_Model Codec_Model SpaceMap_Model SpaceMap_Spec SpaceMap_Proofs Utils_Model Utils_Spec
  UtilsNum_Proofs Pack_Proofs BtreeRead_Proofs Walker_Model Walker_Spec.

Definition wrestr (s : wsm) : bool := match s with WCore _ => false | WRestricted _ => true end.
Definition wvalid (s : wsm) : Prop :=
  wsm_nr s < W64 /\ 1 <= wmax s /\ forall b, b < wsm_nr s -> wcount s b <= wmax s.
(** the same kind of map *)
Definition wkind (s s' : wsm) : Prop := wsm_nr s' = wsm_nr s /\ wmax s' = wmax s /\ wrestr s' = wrestr s.

Lemma counted_nil b : counted [] b = 0. Proof. reflexivity. Qed.
Lemma counted_cons x l b : counted (x :: l) b = (if x =? b then 1 else 0) + counted l b.
Proof. unfold counted. cbn [count_occ]. destruct (N.eq_dec x b), (N.eqb_spec x b); try congruence; lia. Qed.
Lemma counted_app l m b : counted (l ++ m) b = counted l b + counted m b.
Proof. unfold counted. rewrite count_occ_app. lia. Qed.
Lemma counted_in l b : 0 < counted l b <-> In b l.
Proof. unfold counted. rewrite (count_occ_In N.eq_dec). lia. Qed.

Lemma w_sm_inc_spec {V} b (s : wst V) s' r : wvalid (w_sm s) -> w_sm_inc b s = (s', r) ->
  w_fail s' = w_fail s /\ w_log s' = w_log s /\ wkind (w_sm s) (w_sm s') /\ wvalid (w_sm s') /\
  (forall x, x < wsm_nr (w_sm s) -> wcount (w_sm s') x = N.min (wmax (w_sm s)) (wcount (w_sm s) x + (if b =? x then 1 else 0))) /\
  ((b < wsm_nr (w_sm s) /\ r = Ok (wcount (w_sm s) b)) \/
   (r = Err /\ (b < wsm_nr (w_sm s) -> wrestr (w_sm s) = false /\ wcount (w_sm s) b = wmax (w_sm s)))).
Proof.
  intros (Hn & Hm & Hc) E. unfold w_sm_inc in E. destruct s as [sm f l]; cbn [w_sm w_fail w_log] in *.
  destruct sm as [sm|sm]; cbn [wsm_get wsm_inc wsm_nr wmax wcount wrestr] in *.
  - unfold sm_get in E. destruct (N.leb_spec (sm_nr sm) b).
    { injection E as <- <-. cbn [w_sm w_fail w_log wsm_nr wmax wcount wrestr]. conj; auto.
      - unfold wkind; auto.
      - unfold wvalid; auto.
      - intros x Hx. destruct (N.eqb_spec b x); [lia|]. specialize (Hc x Hx). lia.
      - right. split; auto. lia. }
    unfold sm_inc in E. rewrite N.mod_small in E by (unfold W64 in *; lia).
    destruct (N.ltb_spec (sm_nr sm) (b + 1)); [lia|].
    rewrite range_cons, range_nil in E by lia. cbn [sm_inc_loop] in E.
    destruct (N.leb_spec (sm_max sm) (sm_counts sm b)).
    + injection E as <- <-. cbn [w_sm w_fail w_log wsm_nr wmax wcount wrestr]. conj; auto.
      * unfold wkind; auto.
      * unfold wvalid; auto.
      * intros x Hx. specialize (Hc x Hx). destruct (N.eqb_spec b x); [subst|]; lia.
      * right. split; auto. intros _. split; auto. specialize (Hc b). lia.
    + injection E as <- <-. unfold wkind, wvalid. cbn [w_sm w_fail w_log wsm_nr wmax wcount wrestr sm_nr sm_max sm_counts]. conj; auto.
      * intros x Hx. rewrite upd_spec. specialize (Hc x Hx). destruct (N.eqb_spec x b); [subst|]; lia.
      * intros x Hx. rewrite upd_spec, N.eqb_sym. specialize (Hc x Hx). destruct (N.eqb_spec b x); [subst|]; lia.
  - unfold rsm_get in E. destruct (N.leb_spec (r_nr sm) b).
    { injection E as <- <-. cbn [w_sm w_fail w_log wsm_nr wmax wcount wrestr]. conj; auto.
      - unfold wkind; auto.
      - unfold wvalid; auto.
      - intros x Hx. destruct (N.eqb_spec b x); [lia|]. specialize (Hc x Hx). lia.
      - right. split; auto. lia. }
    unfold rsm_inc in E. rewrite (N.mod_small (b + 1)) in E by (unfold W64 in *; lia).
    replace ((b + 1 + (W64 - 1)) mod W64) with b in E.
    2:{ replace (b + 1 + (W64 - 1)) with (b + 1 * W64) by (unfold W64; lia). rewrite N.mod_add by (unfold W64; lia).
        rewrite N.mod_small by (unfold W64 in *; lia). auto. }
    destruct (N.leb_spec (r_nr sm) b); [lia|]. rewrite range_cons, range_nil in E by lia. cbn [fold_left] in E.
    injection E as <- <-. unfold wkind, wvalid. cbn [w_sm w_fail w_log].
    destruct (r_bits sm b) eqn:Eb; cbn [wsm_nr wmax wcount wrestr r_nr r_bits]; conj; auto.
    + intros x Hx. specialize (Hc x Hx). destruct (N.eqb_spec b x); [subst; rewrite Eb|destruct (r_bits sm x)]; lia.
    + intros x Hx. rewrite upd_spec. specialize (Hc x Hx). destruct (x =? b); [lia|auto].
    + intros x Hx. rewrite upd_spec, N.eqb_sym. destruct (N.eqb_spec b x); [subst; rewrite Eb|destruct (r_bits sm x)]; lia.
Qed.

(** ** The walk *)
Section Walk.
Context {V : Type} (c : codec V) (inf : bool) (eng : N -> option (list N)).
Notation yes := (fun (_ : list (wcall V)) (_ : wcall V) => true).
Notation content_of := (content_of c inf eng).
Notation kids := (kids c inf eng).
Notation pointers := (pointers c inf eng).
Notation damage := (damage c inf eng).
Notation visits := (visits c inf eng).
Notation state := (wst V).
Definition cnt (s : state) (b : N) : N := wcount (w_sm s) b.
Definition nrb (s : state) : N := wsm_nr (w_sm s).

(** Blocks not seen yet. *)
Definition unseen (s : state) : nat := length (filter (fun b => cnt s b =? 0) (range 0 (nrb s))).

(** [s'] is [s] with the references [refs] counted. *)
Definition counts (refs : list N) (s s' : state) : Prop :=
  wkind (w_sm s) (w_sm s') /\ wvalid (w_sm s') /\
  forall b, b < nrb s -> cnt s' b = N.min (wmax (w_sm s)) (cnt s b + counted refs b).

Lemma counts_refl s : wvalid (w_sm s) -> counts [] s s.
Proof.
  intros H. pose proof H as (_ & _ & H3). split; [unfold wkind; auto|]. split; auto. intros b Hb.
  rewrite counted_nil. specialize (H3 b Hb). unfold cnt. lia.
Qed.
Lemma counts_trans r1 r2 s1 s2 s3 : counts r1 s1 s2 -> counts r2 s2 s3 -> counts (r1 ++ r2) s1 s3.
Proof.
  intros (K1 & V1 & C1) (K2 & V2 & C2). destruct K1 as (A1 & A2 & A3), K2 as (B1 & B2 & B3).
  split; [unfold wkind; conj; congruence|]. split; auto. intros b Hb. unfold nrb in *. rewrite C2 by congruence.
  rewrite C1 by auto. rewrite counted_app, A2. lia.
Qed.
Lemma counts_eq refs s s' t t' : counts refs s s' -> w_sm t = w_sm s -> w_sm t' = w_sm s' -> counts refs t t'.
Proof. unfold counts, cnt, nrb. intros H -> ->. exact H. Qed.
Lemma counts_mono refs s s' b : counts refs s s' -> b < nrb s -> 0 < cnt s b -> 0 < cnt s' b.
Proof.
  intros ((_ & K & _) & (_ & Hm & _) & C) Hb Hp. rewrite C by auto. lia.
Qed.
Lemma counts_seen refs s s' b : counts refs s s' -> b < nrb s -> In b refs -> 0 < cnt s' b.
Proof.
  intros ((_ & K & _) & (_ & Hm & _) & C) Hb Hp. rewrite C by auto. apply counted_in in Hp. lia.
Qed.
Lemma counts_nr refs s s' : counts refs s s' -> nrb s' = nrb s.
Proof. intros ((K & _) & _). exact K. Qed.

Lemma filter_shrink {A} (f g : A -> bool) l : (forall x, In x l -> g x = true -> f x = true) ->
  (length (filter g l) <= length (filter f l))%nat /\
  ((exists x, In x l /\ f x = true /\ g x = false) -> (length (filter g l) < length (filter f l))%nat).
Proof.
  induction l as [|a l IH]; intros H; cbn [filter].
  - split; [lia|]. intros (x & [] & _).
  - destruct IH as [I1 I2]; [intros; apply H; auto; right; auto|].
    pose proof (H a (or_introl eq_refl)) as Ha.
    split.
    + destruct (g a); [rewrite Ha by auto; cbn; lia|]. destruct (f a); cbn; lia.
    + intros (x & [->|Hx] & Hf & Hg).
      * rewrite Hf, Hg. cbn. lia.
      * assert (length (filter g l) < length (filter f l))%nat by (apply I2; eauto).
        destruct (g a); [rewrite Ha by auto; cbn; lia|]. destruct (f a); cbn; lia.
Qed.
Lemma unseen_mono refs s s' : counts refs s s' -> (unseen s' <= unseen s)%nat /\
  ((exists b, b < nrb s /\ cnt s b = 0 /\ In b refs) -> (unseen s' < unseen s)%nat).
Proof.
  intros C. unfold unseen. rewrite (counts_nr _ _ _ C).
  destruct (filter_shrink (fun b => cnt s b =? 0) (fun b => cnt s' b =? 0) (range 0 (nrb s))) as [F1 F2].
  - intros x Hx Hz. apply in_range in Hx. apply N.eqb_eq in Hz. apply N.eqb_eq.
    destruct (N.eq_dec (cnt s x) 0); auto. pose proof (counts_mono _ _ _ x C ltac:(lia)). lia.
  - split; auto. intros (b & Hb & Hz & Hi). apply F2. exists b. conj.
    + apply in_range; lia.
    + apply N.eqb_eq; auto.
    + apply N.eqb_neq. pose proof (counts_seen _ _ _ b C Hb Hi). lia.
Qed.

Definition zero (s : state) (b : N) : N := if cnt s b =? 0 then 1 else 0.
Definition unsat (s : state) (b : N) : Prop := wrestr (w_sm s) = true \/ cnt s b < wmax (w_sm s).

Lemma agains_app b (l m : list (wcall V)) : agains b (l ++ m) = agains b l + agains b m.
Proof. unfold agains, nlen. rewrite filter_app, app_length. lia. Qed.

Record seen (krs : list key_range) (bs : list N) (s s1 : state) (errs : list werr) (todo : list (key_range * N)) : Prop := mkseen {
  sn_counts : counts bs s s1;
  sn_fail : w_fail s1 = w_fail s;
  sn_log : exists new, w_log s1 = w_log s ++ new /\ filter is_visit new = [] /\
     (errs = [] -> forall b, b < nrb s -> unsat s1 b -> agains b new = counted bs b - zero s b);
  sn_nodup : NoDup (map snd todo);
  sn_todo : forall kb, In kb todo -> In kb (combine krs bs) /\ snd kb < nrb s /\ cnt s (snd kb) = 0;
  sn_all : forall b, b < nrb s -> cnt s b = 0 -> In b bs -> In b (map snd todo);
  sn_err : forall e, In e errs -> exists b, In b bs /\ w_fail s b = Some e;
  sn_ok : errs = [] -> wrestr (w_sm s) = true -> forall b, In b bs -> b < nrb s -> 0 < cnt s b -> w_fail s b = None }.

Lemma see_spec path : forall krs bs s s1 errs todo, wvalid (w_sm s) -> length krs = length bs ->
  see_children yes path krs bs s = (s1, errs, todo) -> seen krs bs s s1 errs todo.
Proof.
  induction krs as [|kr krs IH]; intros bs s s1 errs todo HV HL E; destruct bs as [|b bs]; try discriminate.
  - injection E as <- <- <-. split; cbn; try tauto; auto.
    + apply counts_refl; auto.
    + exists []. rewrite app_nil_r. conj; auto.
    + constructor.
  - cbn [see_children] in E. destruct (w_sm_inc b s) as [sa r] eqn:Ei.
    destruct (w_sm_inc_spec b s sa r HV Ei) as (Fa & La & Ka & Va & Ca & Hr).
    assert (CA : counts [b] s sa).
    { split; auto. split; auto. intros x Hx. unfold cnt. rewrite Ca by auto. rewrite counted_cons, counted_nil. f_equal. lia. }
    set (X := match r with
              | Ok rc => if rc =? 0 then (sa, [], [(kr, b)])
                   else match w_fail sa b with
                        | None => let '(s2, ok) := call yes (CAgain path b) sa in (s2, if ok then [] else [EAgain path b], [])
                        | Some e => (sa, [e], []) end
              | _ => (sa, [], []) end) in E.
    assert (HX : exists sb e1 t1, X = (sb, e1, t1) /\ w_sm sb = w_sm sa /\ w_fail sb = w_fail s /\
      (exists new, w_log sb = w_log s ++ new /\ filter is_visit new = [] /\
          (e1 = [] -> unsat sa b -> b < nrb s -> agains b new = 1 - zero s b) /\ (forall x, x <> b -> agains x new = 0)) /\
      ((t1 = [(kr, b)] /\ b < nrb s /\ cnt s b = 0) \/ (t1 = [] /\ (b < nrb s -> 0 < cnt s b))) /\
      (forall e, In e e1 -> w_fail s b = Some e) /\
      (e1 = [] -> wrestr (w_sm s) = true -> b < nrb s -> 0 < cnt s b -> w_fail s b = None)).
    { unfold X. destruct HV as (_ & Hm & _). destruct Hr as [[Hb ->]|[-> Hsat]].
      - fold (cnt s b). destruct (N.eqb_spec (cnt s b) 0) as [Hz|Hz].
        + do 3 eexists. split; [reflexivity|]. conj; auto.
          * exists []. rewrite app_nil_r. conj; auto. intros _ _ _. unfold zero. rewrite Hz. reflexivity.
          * intros e [].
          * lia.
        + rewrite Fa. destruct (w_fail s b) as [e|] eqn:Ef.
          * do 3 eexists. split; [reflexivity|]. conj; auto.
            -- exists []. rewrite app_nil_r. conj; auto. discriminate.
            -- right. split; auto. lia.
            -- intros e' [<-|[]]; auto.
            -- discriminate.
          * do 3 eexists. split; [reflexivity|]. cbn [w_sm w_fail w_log]. conj; auto.
            -- exists [CAgain path b]. rewrite La. conj; auto.
               ++ intros _ _ _. unfold agains, zero. cbn [filter]. rewrite N.eqb_refl.
                  destruct (N.eqb_spec (cnt s b) 0); [lia|]. reflexivity.
               ++ intros x Hx. unfold agains. cbn [filter]. destruct (N.eqb_spec b x); [congruence|]. reflexivity.
            -- right. split; auto. lia.
            -- intros e [].
      - do 3 eexists. split; [reflexivity|]. conj; auto.
        + exists []. rewrite app_nil_r. conj; auto. intros _ [Hu|Hu] Hb.
          * destruct (Hsat Hb). destruct Ka as (_ & _ & Ka). congruence.
          * destruct (Hsat Hb) as [_ Hs]. unfold cnt in Hu. rewrite (Ca b Hb), N.eqb_refl in Hu. destruct Ka as (_ & Ka & _). rewrite Ka in Hu. lia.
        + right. split; auto. intros Hb. destruct (Hsat Hb). unfold cnt. lia.
        + intros e [].
        + intros _ Hre Hb. destruct (Hsat Hb). congruence. }
    destruct HX as (sb & e1 & t1 & EX & Sb & Fb & (new1 & L1 & Q1 & A1 & A1') & T1 & R1 & O1).
    assert (EE : (let '(s0, errs0, todo0) := X in let '(s2, errs', todo') := see_children yes path krs bs s0 in (s2, errs0 ++ errs', todo0 ++ todo')) = (s1, errs, todo)).
    { unfold X. destruct r; exact E. }
    rewrite EX in EE. destruct (see_children yes path krs bs sb) as [[sc e2] t2] eqn:Es. injection EE as <- <- <-.
    assert (CB : counts [b] s sb) by (apply (counts_eq [b] s sa); auto).
    assert (Vb : wvalid (w_sm sb)) by (rewrite Sb; auto).
    specialize (IH bs sb sc e2 t2 Vb ltac:(cbn in HL; lia) Es). destruct IH as [I1 I2 (new2 & L2 & Q2 & A2) I4 I5 I6 I7 I8].
    pose proof (counts_nr _ _ _ CB) as Nb.
    assert (Hcb : forall x, x < nrb s -> cnt sb x = 0 <-> cnt s x = 0 /\ x <> b).
    { intros x Hx. destruct CB as ((_ & KM & _) & (_ & Hmm & _) & CC). rewrite (CC x Hx), counted_cons, counted_nil.
      destruct (N.eqb_spec b x); lia. }
    assert (Kb : wkind (w_sm s) (w_sm sb)) by apply CB.
    split.
    + apply (counts_trans [b] bs s sb sc); auto.
    + congruence.
    + exists (new1 ++ new2). rewrite L2, L1, <- app_assoc, filter_app, Q1, Q2. conj; auto.
      intros He x Hx Hu. apply app_eq_nil in He as [-> ->]. rewrite agains_app, counted_cons.
      assert (Hu1 : unsat sa x).
      { unfold unsat in *. destruct Hu as [Hu|Hu]; [left|right].
        - destruct I1 as ((_ & _ & K) & _). destruct Ka as (_ & _ & K'). destruct Kb as (_ & _ & K''). congruence.
        - destruct I1 as ((_ & K & _) & _ & CC). rewrite (CC x ltac:(congruence)) in Hu. destruct Ka as (_ & K' & _).
          destruct Kb as (_ & K'' & _). unfold cnt in *. rewrite Sb in *. lia. }
      rewrite (A2 eq_refl x ltac:(congruence) Hu).
      destruct (N.eqb_spec b x) as [<-|Hne].
      * rewrite (A1 eq_refl Hu1 Hx). unfold zero. destruct (N.eqb_spec (cnt sb b) 0) as [Hz|Hz]; [apply Hcb in Hz; [|auto]; lia|].
        destruct (N.eqb_spec (cnt s b) 0); lia.
      * rewrite (A1' x) by auto. unfold zero. destruct (N.eqb_spec (cnt sb x) 0) as [Hz|Hz], (N.eqb_spec (cnt s x) 0) as [Hz'|Hz']; try lia.
        -- apply Hcb in Hz; [|auto]. lia.
        -- exfalso. apply Hz. apply Hcb; auto.
    + rewrite map_app. destruct T1 as [(-> & Hb & Hz)|[-> _]]; [|exact I4]. cbn. constructor; auto.
      intros Hi. apply in_map_iff in Hi as ([kr' b'] & Hbb & Hi). cbn in Hbb. subst b'. apply I5 in Hi as (_ & Hlt & Hz'). cbn in *.
      apply Hcb in Hz'; [|congruence]. tauto.
    + intros kb Hi. apply in_app_or in Hi as [Hi|Hi].
      * destruct T1 as [(-> & Hb & Hz)|[-> _]]; [|destruct Hi]. destruct Hi as [<-|[]]. cbn. auto.
      * apply I5 in Hi as (Hc & Hlt & Hz). rewrite Nb in Hlt. apply Hcb in Hz; [|auto]. cbn [combine In]. conj; auto. tauto.
    + intros x Hx Hz [->|Hi].
      * rewrite map_app. apply in_or_app. left. destruct T1 as [(-> & _)|[_ Hp]]; [left; auto|]. specialize (Hp Hx). lia.
      * rewrite map_app. apply in_or_app. destruct (N.eq_dec x b) as [->|Hne].
        { left. destruct T1 as [(-> & _)|[_ Hp]]; [left; auto|]. specialize (Hp Hx). lia. }
        right. apply I6; auto; [congruence|]. apply Hcb; auto.
    + intros e Hi. apply in_app_or in Hi as [Hi|Hi]; [exists b; split; [left|]; auto|].
      apply I7 in Hi as (x & Hx & Hf). exists x. split; [right; auto|]. congruence.
    + intros He Hre x Hi Hx Hp. apply app_eq_nil in He as [-> ->]. destruct Hi as [->|Hi]; [auto|].
      rewrite <- Fb. apply I8; auto; try congruence.
      * destruct Kb as (_ & _ & K). congruence.
      * apply (counts_mono _ _ _ x CB Hx Hp).
Qed.

(** ** What a (partial) walk has done *)
Record post (T W : list place) (s s' : state) (E : list werr) : Prop := mkpost {
  po_counts : counts (pointers W) s s';
  po_nodup : NoDup (map p_block W);
  po_T : incl T W;
  po_fresh : forall p, In p W -> In p T \/ (p_block p < nrb s /\ cnt s (p_block p) = 0);
  po_all : forall b, b < nrb s -> cnt s b = 0 -> In b (pointers W) -> In b (map p_block W);
  po_parent : forall p, In p W -> In p T \/ exists q, In q W /\ In p (kids q);
  po_log : exists new, w_log s' = w_log s ++ new /\ filter is_visit new = flat_map visits W /\
     (E = [] -> forall b, b < nrb s -> unsat s' b -> agains b new = counted (pointers W) b - zero s b);
  po_fail : forall b, ~ In b (map p_block W) -> w_fail s' b = w_fail s b;
  po_fail2 : forall b e, w_fail s' b = Some e -> w_fail s b = Some e \/ incl (names e) (flat_map names E);
  po_fail3 : E = [] -> forall b, w_fail s' b = w_fail s b;
  po_err1 : forall p, In p W -> incl (damage p) (flat_map names E);
  po_err2 : forall n, In n (flat_map names E) -> (exists p, In p W /\ In n (damage p)) \/
       (exists b e, In b (pointers W) /\ w_fail s b = Some e /\ In n (names e));
  po_err3 : (forall p, In p W -> damage p = []) -> (forall b, w_fail s b = None) -> E = [];
  po_err4 : E = [] -> forall p, In p W -> damage p = [];
  po_err5 : E = [] -> wrestr (w_sm s) = true -> forall b, In b (pointers W) -> b < nrb s -> 0 < cnt s b -> w_fail s b = None }.

Definition marked (T : list place) (s : state) : Prop :=
  forall p, In p T -> p_block p < nrb s /\ 0 < cnt s (p_block p).

Lemma pointers_app W1 W2 : pointers (W1 ++ W2) = pointers W1 ++ pointers W2.
Proof. apply flat_map_app. Qed.
Lemma in_pointers p q W : In q W -> In p (kids q) -> In (p_block p) (pointers W).
Proof. intros Hq Hp. unfold Walker_Spec.pointers. apply in_flat_map. exists q. split; auto. apply in_map; auto. Qed.

Lemma post_seen T W s s' E p : post T W s s' E -> marked T s -> In p W -> p_block p < nrb s /\ 0 < cnt s' (p_block p).
Proof.
  intros P M Hp. pose proof (po_counts _ _ _ _ _ P) as C.
  destruct (po_fresh _ _ _ _ _ P p Hp) as [Ht|[Hlt Hz]].
  - destruct (M p Ht). split; auto. eapply counts_mono; eauto.
  - split; auto. destruct (po_parent _ _ _ _ _ P p Hp) as [Ht|(q & Hq & Hk)].
    + destruct (M p Ht). lia.
    + eapply counts_seen; eauto. eapply in_pointers; eauto.
Qed.

Lemma unsat_back refs s s' b : counts refs s s' -> b < nrb s -> unsat s' b -> unsat s b.
Proof.
  intros ((_ & K & R) & _ & C) Hb [Hu|Hu]; [left; congruence|]. rewrite (C b Hb) in Hu. rewrite K in Hu.
  right. lia.
Qed.

Lemma post_nil s : wvalid (w_sm s) -> post [] [] s s [].
Proof.
  intros HV. split; cbn; try tauto; auto.
  - apply counts_refl; auto.
  - constructor.
  - intros p [].
  - exists []. rewrite app_nil_r. conj; auto.
Qed.

Lemma post_seq T1 T2 W1 W2 s s1 s2 E1 E2 : post T1 W1 s s1 E1 -> post T2 W2 s1 s2 E2 ->
  marked T1 s -> marked T2 s -> NoDup (map p_block (T1 ++ T2)) -> post (T1 ++ T2) (W1 ++ W2) s s2 (E1 ++ E2).
Proof.
  intros P1 P2 M1 M2 HN. pose proof (po_counts _ _ _ _ _ P1) as C1. pose proof (po_counts _ _ _ _ _ P2) as C2.
  pose proof (counts_nr _ _ _ C1) as N1.
  assert (D : forall p q, In p W1 -> In q W2 -> p_block p <> p_block q).
  { intros p q Hp Hq Heq. destruct (post_seen _ _ _ _ _ p P1 M1 Hp) as [Hlt Hpos].
    destruct (po_fresh _ _ _ _ _ P2 q Hq) as [Ht|[_ Hz]]; [|rewrite Heq in Hpos; lia].
    destruct (po_fresh _ _ _ _ _ P1 p Hp) as [Ht1|[_ Hz]].
    - rewrite map_app in HN. clear - HN Ht Ht1 Heq.
      induction T1 as [|a T1 IH]; [destruct Ht1|]. cbn in HN. inversion HN; subst. destruct Ht1 as [->|Ht1]; auto.
      apply H1. apply in_or_app. right. rewrite Heq. apply in_map; auto.
    - destruct (M2 q Ht). rewrite <- Heq in *. lia. }
  split.
  - rewrite pointers_app. eapply counts_trans; eauto.
  - rewrite map_app. pose proof (po_nodup _ _ _ _ _ P1) as X1. pose proof (po_nodup _ _ _ _ _ P2) as X2.
    clear - D X1 X2. induction W1 as [|a W1 IH]; [exact X2|]. cbn in *. inversion X1; subst. constructor.
    + intros Hi. apply in_app_or in Hi as [Hi|Hi]; [auto|]. apply in_map_iff in Hi as (q & Hq & Hi).
      apply (D a q); auto.
    + apply IH; auto.
  - intros p Hp. apply in_or_app. apply in_app_or in Hp as [Hp|Hp]; [left; apply (po_T _ _ _ _ _ P1); auto|right; apply (po_T _ _ _ _ _ P2); auto].
  - intros p Hp. rewrite in_app_iff. apply in_app_or in Hp as [Hp|Hp].
    + destruct (po_fresh _ _ _ _ _ P1 p Hp); auto.
    + destruct (po_fresh _ _ _ _ _ P2 p Hp) as [?|[Hlt Hz]]; auto. right. rewrite N1 in Hlt. split; auto.
      destruct (N.eq_dec (cnt s (p_block p)) 0); auto. pose proof (counts_mono _ _ _ _ C1 Hlt). lia.
  - intros b Hb Hz Hi. rewrite pointers_app in Hi. rewrite map_app. apply in_or_app.
    destruct (in_dec N.eq_dec b (pointers W1)) as [Hi1|Hi1]; [left; apply (po_all _ _ _ _ _ P1); auto|].
    apply in_app_or in Hi as [Hi|Hi]; [tauto|]. right. apply (po_all _ _ _ _ _ P2); auto; [congruence|].
    destruct C1 as (_ & _ & C). rewrite C by auto. destruct (counted (pointers W1) b) eqn:Ec; [lia|].
    exfalso. apply Hi1. apply counted_in. lia.
  - intros p Hp. rewrite in_app_iff. apply in_app_or in Hp as [Hp|Hp].
    + destruct (po_parent _ _ _ _ _ P1 p Hp) as [?|(q & ? & ?)]; auto. right. exists q. rewrite in_app_iff. auto.
    + destruct (po_parent _ _ _ _ _ P2 p Hp) as [?|(q & ? & ?)]; auto. right. exists q. rewrite in_app_iff. auto.
  - destruct (po_log _ _ _ _ _ P1) as (n1 & L1 & F1 & A1). destruct (po_log _ _ _ _ _ P2) as (n2 & L2 & F2 & A2).
    exists (n1 ++ n2). rewrite L2, L1, <- app_assoc, filter_app, flat_map_app, F1, F2. conj; auto.
    intros HE b Hb Hu. apply app_eq_nil in HE as [-> ->].
    rewrite agains_app, pointers_app, counted_app, (A2 eq_refl b ltac:(congruence) Hu).
    rewrite (A1 eq_refl b Hb); [|apply (unsat_back _ _ _ b C2); [congruence|auto]].
    pose proof C1 as (_ & (_ & Hm & _) & C). unfold zero. rewrite (C b Hb). destruct C1 as ((_ & K & _) & _).
    destruct (N.eqb_spec (cnt s b) 0), (N.eqb_spec (N.min (wmax (w_sm s)) (cnt s b + counted (pointers W1) b)) 0); lia.
  - intros b Hb. rewrite map_app in Hb. rewrite (po_fail _ _ _ _ _ P2), (po_fail _ _ _ _ _ P1); auto; intros Hi; apply Hb; apply in_or_app; auto.
  - intros b e Hf. rewrite flat_map_app. destruct (po_fail2 _ _ _ _ _ P2 b e Hf) as [Hf1|Hi].
    + destruct (po_fail2 _ _ _ _ _ P1 b e Hf1) as [?|Hi]; auto. right. apply incl_appl; auto.
    + right. apply incl_appr; auto.
  - intros HE b. apply app_eq_nil in HE as [HE1 HE2]. rewrite (po_fail3 _ _ _ _ _ P2 HE2). apply (po_fail3 _ _ _ _ _ P1 HE1).
  - intros p Hp. rewrite flat_map_app. apply in_app_or in Hp as [Hp|Hp].
    + apply incl_appl, (po_err1 _ _ _ _ _ P1 p Hp).
    + apply incl_appr, (po_err1 _ _ _ _ _ P2 p Hp).
  - intros n Hn. rewrite flat_map_app in Hn. rewrite pointers_app.
    assert (K1 : In n (flat_map names E1) -> (exists p, In p (W1 ++ W2) /\ In n (damage p)) \/
       (exists b e, In b (pointers W1 ++ pointers W2) /\ w_fail s b = Some e /\ In n (names e))).
    { intros Hn1. destruct (po_err2 _ _ _ _ _ P1 n Hn1) as [(p & ? & ?)|(b & e & ? & ? & ?)].
      - left. exists p. rewrite in_app_iff. auto.
      - right. exists b, e. rewrite in_app_iff. auto. }
    apply in_app_or in Hn as [Hn|Hn]; [auto|].
    destruct (po_err2 _ _ _ _ _ P2 n Hn) as [(p & ? & ?)|(b & e & Hb & Hf & Hne)].
    + left. exists p. rewrite in_app_iff. auto.
    + destruct (po_fail2 _ _ _ _ _ P1 b e Hf) as [Hf0|Hi].
      * right. exists b, e. rewrite in_app_iff. auto.
      * apply K1. apply Hi. auto.
  - intros HW Hf. assert (E1 = []) as ->.
    { apply (po_err3 _ _ _ _ _ P1); auto. intros p Hp. apply HW. apply in_or_app; auto. }
    cbn. apply (po_err3 _ _ _ _ _ P2).
    + intros p Hp. apply HW. apply in_or_app; auto.
    + intros b. rewrite (po_fail3 _ _ _ _ _ P1); auto.
  - intros HE p Hp. apply app_eq_nil in HE as [HE1 HE2]. apply in_app_or in Hp as [Hp|Hp].
    + apply (po_err4 _ _ _ _ _ P1); auto.
    + apply (po_err4 _ _ _ _ _ P2); auto.
  - intros HE HR b Hi Hb Hp. apply app_eq_nil in HE as [HE1 HE2]. rewrite pointers_app in Hi. apply in_app_or in Hi as [Hi|Hi].
    + apply (po_err5 _ _ _ _ _ P1); auto.
    + rewrite <- (po_fail3 _ _ _ _ _ P1 HE1). apply (po_err5 _ _ _ _ _ P2); auto.
      * destruct C1 as ((_ & _ & R) & _). congruence.
      * congruence.
      * apply (counts_mono _ _ _ b C1 Hb Hp).
Qed.

(** A place with no children. *)
Lemma post_one p s s' E : wvalid (w_sm s) -> w_sm s' = w_sm s -> kids p = [] ->
  w_log s' = w_log s ++ visits p ->
  (E = [] -> forall b, w_fail s' b = w_fail s b) ->
  (forall b, b <> p_block p -> w_fail s' b = w_fail s b) ->
  (forall e, w_fail s' (p_block p) = Some e -> w_fail s (p_block p) = Some e \/ incl (names e) (flat_map names E)) ->
  flat_map names E = damage p -> (damage p = [] -> E = []) -> post [p] [p] s s' E.
Proof.
  intros HV Hsm Hk Hl Hf Hf1 Hf2 Hd He.
  assert (HP : pointers [p] = []) by (unfold Walker_Spec.pointers; cbn; rewrite Hk; auto).
  split; rewrite ?HP; auto.
  - apply (counts_eq [] s s); auto. apply counts_refl; auto.
  - cbn. constructor; [tauto|constructor].
  - apply incl_refl.
  - intros b _ _ [].
  - exists (visits p). cbn [flat_map]. rewrite app_nil_r. conj; auto.
    + unfold Walker_Spec.visits. destruct (content_of p); auto.
    + intros _ b _ _. rewrite counted_nil. unfold agains, Walker_Spec.visits. destruct (content_of p); cbn; lia.
  - intros b Hb. apply Hf1. intros ->. apply Hb. left; auto.
  - intros b e Hb. destruct (N.eq_dec b (p_block p)) as [->|Hne]; auto. rewrite Hf1 in Hb by auto. auto.
  - intros q [->|[]]. rewrite Hd. apply incl_refl.
  - intros n Hn. rewrite Hd in Hn. left. exists p. cbn; auto.
  - intros HW _. apply He. apply HW. left; auto.
  - intros -> q [->|[]]. cbn in Hd. auto.
  - intros _ _ b [].
Qed.

Definition place_of (path : list N) (kb : key_range * N) : place := mkplace path (fst kb) (snd kb) false.

Definition oerr (e : option werr) : list werr := match e with Some e => [e] | None => [] end.

Lemma walk_list_post (f : key_range -> N -> list N -> state -> state * option werr) path n
  (Hf : forall kr b data s s' e, wvalid (w_sm s) -> b < nrb s -> 0 < cnt s b -> (unseen s < n)%nat -> eng b = Some data ->
     f kr b data s = (s', e) -> exists W, post [mkplace path kr b false] W s s' (oerr e)) :
  forall todo s s' es, wvalid (w_sm s) -> marked (map (place_of path) todo) s -> NoDup (map snd todo) -> (unseen s < n)%nat ->
  walk_list eng f path todo s = (s', es) -> exists W, post (map (place_of path) todo) W s s' es.
Proof.
  induction todo as [|[kr b] todo IH]; intros s s' es HV HM HN Hu E; cbn [walk_list] in E.
  - injection E as <- <-. exists []. apply post_nil; auto.
  - destruct (HM (place_of path (kr, b))) as [Hb Hp]; [left; auto|]. cbn in Hb, Hp.
    set (X := match eng b with None => (set_fail b (EIo path kr) s, Some (EIo path kr)) | Some data => f kr b data s end) in E.
    destruct X as [s1 e] eqn:EX. destruct (walk_list eng f path todo s1) as [s2 es2] eqn:E2. injection E as <- <-.
    assert (HX : exists W, post [place_of path (kr, b)] W s s1 (oerr e)).
    { unfold X in EX. destruct (eng b) as [data|] eqn:Ee.
      - eapply Hf; eauto.
      - injection EX as <- <-. exists [place_of path (kr, b)].
        assert (HC : content_of (place_of path (kr, b)) = Unreadable).
        { unfold Walker_Spec.content_of. cbn [place_of p_block fst snd]. rewrite Ee. auto. }
        apply post_one; auto.
        + unfold Walker_Spec.kids. rewrite HC. auto.
        + unfold Walker_Spec.visits. rewrite HC. cbn. rewrite app_nil_r; auto.
        + discriminate.
        + intros x Hx. cbn. apply upd_other; auto.
        + intros e. cbn [place_of p_block fst snd set_fail w_fail]. rewrite upd_same. intros [= <-]. right. cbn. apply incl_refl.
        + unfold Walker_Spec.damage. rewrite HC. auto.
        + unfold Walker_Spec.damage. rewrite HC. discriminate. }
    destruct HX as [W1 P1]. pose proof (po_counts _ _ _ _ _ P1) as C1. inversion HN as [|? ? HN1 HN2]; subst.
    destruct (IH s1 s2 es2) as [W2 P2]; auto.
    + apply C1.
    + intros p Hp'. destruct (HM p) as [Hlt Hpos]; [right; auto|]. rewrite (counts_nr _ _ _ C1). split; auto.
      eapply counts_mono; eauto.
    + destruct (unseen_mono _ _ _ C1). lia.
    + exists (W1 ++ W2). replace (match e with Some e => e :: es2 | None => es2 end) with (oerr e ++ es2) by (destruct e; auto).
      change (map (place_of path) ((kr, b) :: todo)) with ([place_of path (kr, b)] ++ map (place_of path) todo).
      apply (post_seq _ _ _ _ _ s1 _ _ _ P1 P2).
      * intros p [<-|[]]. apply HM. left; auto.
      * intros p Hp'. apply HM. right; auto.
      * cbn [app map]. rewrite map_map. cbn [place_of p_block fst snd]. constructor; auto.
Qed.

Lemma split_length kr ks krs : split_key_ranges kr ks = Ok krs -> length krs = length ks.
Proof.
  destruct ks as [|k0 ks]; [discriminate|]. cbn [split_key_ranges]. rewrite split_loop_iff. intros [-> _]. clear.
  revert k0. induction ks as [|k ks IH]; intros k0; cbn [ranges_of length]; [auto|]. f_equal. apply IH.
Qed.
Lemma unpack_lengths b data isr h ks vs : check_and_unpack_node c (mkblock b data) inf isr = Ok (Internal h ks vs) -> length ks = length vs.
Proof.
  unfold check_and_unpack_node. destruct (metadata_block_type _); try discriminate. intros H. inv_bind H.
  destruct (negb _); [discriminate|]. apply Ok_inj in H. subst a. apply raw_facts in E. tauto.
Qed.
Lemma map_snd_combine' {A B} (l : list A) (m : list B) : length l = length m -> map snd (combine l m) = m.
Proof. revert m. induction l; destruct m; cbn; intros; try discriminate; auto. f_equal. auto. Qed.

Theorem walk_node_post : forall fuel path kr b data isr s s' e,
  wvalid (w_sm s) -> b < nrb s -> 0 < cnt s b -> (unseen s < fuel)%nat -> eng b = Some data ->
  walk_node c inf eng yes fuel path kr b data isr s = (s', e) ->
  exists W, post [mkplace path kr b isr] W s s' (oerr e).
Proof.
  induction fuel as [|fuel IH]; intros path kr b data isr s s' e HV Hb Hp Hu He E; [lia|].
  cbn [walk_node] in E. set (p := mkplace path kr b isr).
  assert (HC : content_of p = match check_and_unpack_node c (mkblock b data) inf isr with
      | Ok (Internal _ ks bs) => match split_key_ranges kr ks with
          | Ok krs => Inner (map (place_of (path ++ [b])) (combine krs bs)) | _ => BadKeys end
      | Ok (Leaf h ks vs) => Entries h ks vs
      | _ => Malformed end).
  { unfold Walker_Spec.content_of. cbn [p p_block p_root p_kr p_path]. rewrite He. reflexivity. }
  assert (HBad : content_of p = Malformed -> (s', e) = (set_fail b (ENode (path ++ [b]) kr) s, Some (ENode (path ++ [b]) kr)) ->
     exists W, post [p] W s s' (oerr e)).
  { intros HC' [= -> ->]. exists [p]. apply post_one; auto.
    - unfold Walker_Spec.kids. rewrite HC'. auto.
    - unfold Walker_Spec.visits. rewrite HC'. cbn. rewrite app_nil_r; auto.
    - discriminate.
    - intros x Hx. cbn. apply upd_other; auto.
    - intros e0. cbn [p p_block set_fail w_fail]. rewrite upd_same. intros [= <-]. right. cbn. apply incl_refl.
    - unfold Walker_Spec.damage. rewrite HC'. auto.
    - unfold Walker_Spec.damage. rewrite HC'. discriminate. }
  destruct (check_and_unpack_node c (mkblock b data) inf isr) as [[h ks vs|h ks vs]| |] eqn:Eu; auto.
  - destruct (split_key_ranges kr ks) as [krs| |] eqn:Ek.
    2,3: injection E as <- <-; exists [p]; apply post_one; auto;
      [ unfold Walker_Spec.kids; rewrite HC; auto | unfold Walker_Spec.visits; rewrite HC; cbn; rewrite app_nil_r; auto
      | unfold Walker_Spec.damage; rewrite HC; auto | unfold Walker_Spec.damage; rewrite HC; discriminate ].
    destruct (see_children yes (path ++ [b]) krs vs s) as [[s1 errs1] todo] eqn:Es.
    destruct (walk_list eng (fun kr0 b0 data0 s0 => walk_node c inf eng yes fuel (path ++ [b]) kr0 b0 data0 false s0) (path ++ [b]) todo s1) as [s2 errs2] eqn:El.
    assert (HL : length krs = length vs) by (rewrite (split_length _ _ _ Ek); eapply unpack_lengths; eauto).
    pose proof (see_spec _ _ _ _ _ _ _ HV HL Es) as S. pose proof (sn_counts _ _ _ _ _ _ S) as CS.
    pose proof (counts_nr _ _ _ CS) as N1.
    assert (HK : kids p = map (place_of (path ++ [b])) (combine krs vs)) by (unfold Walker_Spec.kids; rewrite HC; auto).
    assert (HKB : map p_block (kids p) = vs).
    { rewrite HK, map_map. cbn [place_of p_block]. rewrite <- (map_snd_combine' krs vs HL) at 2. apply map_ext. intros [? ?]; auto. }
    assert (Hm1 : marked (map (place_of (path ++ [b])) todo) s1).
    { intros q Hq. apply in_map_iff in Hq as (kb & <- & Hkb). destruct (sn_todo _ _ _ _ _ _ S kb Hkb) as (Hc & Hlt & Hz).
      cbn [place_of p_block]. rewrite N1. split; auto. eapply counts_seen; eauto.
      destruct kb as [k0 b0]. apply in_combine_r in Hc. exact Hc. }
    assert (HW : exists W, post (map (place_of (path ++ [b])) todo) W s1 s2 errs2).
    { destruct todo as [|t todo].
      - cbn in El. injection El as <- <-. exists []. apply post_nil. apply CS.
      - eapply (walk_list_post _ (path ++ [b]) fuel); [| | | | |exact El].
        + intros kr0 b0 data0 s0 s0' e0 V0 B0 P0 U0 D0 E0. eapply IH; eauto.
        + apply CS.
        + exact Hm1.
        + apply (sn_nodup _ _ _ _ _ _ S).
        + destruct (unseen_mono _ _ _ CS) as [_ Hlt]. enough (unseen s1 < unseen s)%nat by lia. apply Hlt.
          destruct (sn_todo _ _ _ _ _ _ S t (or_introl eq_refl)) as (Hc & Hl & Hz). exists (snd t). conj; auto.
          destruct t as [k0 b0]. apply in_combine_r in Hc. exact Hc. }
    destruct HW as [W P]. pose proof (po_counts _ _ _ _ _ P) as C2.
    assert (HA : w_sm s' = w_sm s2 /\ w_log s' = w_log s2 /\ (errs1 ++ errs2 = [] -> e = None /\ s' = s2) /\
        (errs1 ++ errs2 <> [] -> e <> None) /\
        flat_map names (oerr e) = flat_map names (errs1 ++ errs2) /\
        (forall x, x <> b -> w_fail s' x = w_fail s2 x) /\
        (forall x, w_fail s' b = Some x -> w_fail s2 b = Some x \/ oerr e = [x])).
    { unfold build_aggregate in E. destruct (errs1 ++ errs2) as [|e1 [|e2 es]].
      - injection E as <- <-. conj; auto.
      - injection E as <- <-. cbn [set_fail w_sm w_log w_fail]. conj; auto; try discriminate.
        + intros x Hx. apply upd_other; auto.
        + intros x. rewrite upd_same. intros [= <-]. auto.
      - injection E as <- <-. cbn [set_fail w_sm w_log w_fail]. conj; auto; try discriminate.
        + cbn [oerr flat_map names]. rewrite app_nil_r. reflexivity.
        + intros x Hx. apply upd_other; auto.
        + intros x. rewrite upd_same. intros [= <-]. auto. }
    destruct HA as (A1 & A2 & A3 & A3' & A4 & A5 & A6).
    assert (HdP : damage p = []) by (unfold Walker_Spec.damage; rewrite HC; auto).
    assert (HvP : visits p = []) by (unfold Walker_Spec.visits; rewrite HC; auto).
    assert (HPT : pointers (p :: W) = vs ++ pointers W) by (unfold Walker_Spec.pointers; cbn [flat_map]; rewrite HKB; auto).
    assert (Hsee : forall q, In q W -> p_block q < nrb s /\ cnt s (p_block q) = 0 /\ (In q (kids p) \/ exists q', In q' W /\ In q (kids q'))).
    { intros q Hq. assert (HQ : In q (map (place_of (path ++ [b])) todo) -> p_block q < nrb s /\ cnt s (p_block q) = 0 /\ In q (kids p)).
      { intros Ht. apply in_map_iff in Ht as (kb & <- & Hkb). destruct (sn_todo _ _ _ _ _ _ S kb Hkb) as (Hc & Hlt & Hz).
        conj; auto. rewrite HK. apply in_map; auto. }
      destruct (po_parent _ _ _ _ _ P q Hq) as [Ht|Hpar].
      - destruct (HQ Ht) as (? & ? & ?). auto.
      - destruct (po_fresh _ _ _ _ _ P q Hq) as [Ht|[Hlt Hz]].
        + destruct (HQ Ht) as (? & ? & ?). auto.
        + rewrite N1 in Hlt. conj; auto. destruct (N.eq_dec (cnt s (p_block q)) 0); auto.
          pose proof (counts_mono _ _ _ _ CS Hlt). lia. }
    assert (He0 : oerr e = [] -> errs1 = [] /\ errs2 = [] /\ s' = s2).
    { intros Hn. destruct (errs1 ++ errs2) eqn:Ee.
      - apply app_eq_nil in Ee as [-> ->]. destruct A3; auto.
      - exfalso. destruct e; [discriminate|]. apply A3'; congruence. }
    exists (p :: W). split.
    + rewrite HPT. apply (counts_eq _ s s2); auto. eapply counts_trans; eauto.
    + cbn [map]. constructor; [|apply (po_nodup _ _ _ _ _ P)]. intros Hi. apply in_map_iff in Hi as (q & Hq & Hi).
      destruct (Hsee q Hi) as (_ & Hz & _). rewrite Hq in Hz. cbn in Hz. lia.
    + intros q [<-|[]]. left; auto.
    + intros q [<-|Hq]; [left; left; auto|]. destruct (Hsee q Hq) as (? & ? & _). auto.
    + intros x Hx Hz Hi. rewrite HPT in Hi. cbn [map]. right.
      destruct (in_dec N.eq_dec x vs) as [Hv|Hv].
      * pose proof (sn_all _ _ _ _ _ _ S x Hx Hz Hv) as Ht. apply in_map_iff in Ht as (kb & <- & Ht).
        apply in_map_iff. exists (place_of (path ++ [b]) kb). split; auto. apply (po_T _ _ _ _ _ P). apply in_map; auto.
      * apply in_app_or in Hi as [Hi|Hi]; [tauto|]. apply (po_all _ _ _ _ _ P); auto; [congruence|].
        destruct CS as (_ & _ & C). rewrite C by auto. destruct (counted vs x) eqn:Ec; [lia|].
        exfalso. apply Hv. apply counted_in. lia.
    + intros q [<-|Hq]; [left; left; auto|]. right. destruct (Hsee q Hq) as (_ & _ & [Hk|(q' & ? & ?)]).
      * exists p. split; [left|]; auto.
      * exists q'. split; [right|]; auto.
    + destruct (sn_log _ _ _ _ _ _ S) as (n1 & L1 & F1 & G1). destruct (po_log _ _ _ _ _ P) as (n2 & L2 & F2 & G2).
      exists (n1 ++ n2). rewrite A2, L2, L1, <- app_assoc, filter_app, F1, F2. cbn [flat_map]. rewrite HvP. conj; auto.
      intros Hn x Hx Hus. destruct (He0 Hn) as (-> & -> & ->).
      rewrite agains_app, HPT, counted_app, (G2 eq_refl x ltac:(congruence) Hus).
      rewrite (G1 eq_refl x Hx); [|apply (unsat_back _ _ _ x C2); [congruence|auto]].
      pose proof CS as (_ & (_ & Hmm & _) & C). unfold zero. rewrite (C x Hx). destruct CS as ((_ & K & _) & _).
      destruct (N.eqb_spec (cnt s x) 0), (N.eqb_spec (N.min (wmax (w_sm s)) (cnt s x + counted vs x)) 0); lia.
    + intros x Hx. rewrite A5 by (intros ->; apply Hx; left; auto).
      rewrite (po_fail _ _ _ _ _ P) by (intros Hi; apply Hx; right; auto). rewrite (sn_fail _ _ _ _ _ _ S). auto.
    + intros x ex Hfx. assert (HG : w_fail s2 x = Some ex -> w_fail s x = Some ex \/ incl (names ex) (flat_map names (oerr e))).
      { intros Hf2. destruct (po_fail2 _ _ _ _ _ P x ex Hf2) as [Hf1|Hi].
        - rewrite (sn_fail _ _ _ _ _ _ S) in Hf1. auto.
        - right. rewrite A4, flat_map_app. apply incl_appr; auto. }
      destruct (N.eq_dec x b) as [->|Hne]; [|rewrite A5 in Hfx; auto].
      destruct (A6 ex Hfx) as [?| ->]; auto. right. cbn. rewrite app_nil_r. apply incl_refl.
    + intros Hn x. destruct (He0 Hn) as (-> & -> & ->). rewrite (po_fail3 _ _ _ _ _ P eq_refl), (sn_fail _ _ _ _ _ _ S). auto.
    + intros q [<-|Hq]; [rewrite HdP; intros ? []|]. rewrite A4, flat_map_app. apply incl_appr. apply (po_err1 _ _ _ _ _ P q Hq).
    + intros n Hn. rewrite A4, flat_map_app in Hn. rewrite HPT. apply in_app_or in Hn as [Hn|Hn].
      * apply in_flat_map in Hn as (e1 & He1 & Hn). destruct (sn_err _ _ _ _ _ _ S e1 He1) as (x & Hx & Hfx).
        right. exists x, e1. rewrite in_app_iff. auto.
      * destruct (po_err2 _ _ _ _ _ P n Hn) as [(q & ? & ?)|(x & ex & ? & ? & ?)].
        -- left. exists q. split; [right|]; auto.
        -- right. exists x, ex. rewrite in_app_iff. rewrite (sn_fail _ _ _ _ _ _ S) in *. auto.
    + intros HW Hnf. assert (errs1 = []) as ->.
      { destruct errs1 as [|e1 ?]; auto. destruct (sn_err _ _ _ _ _ _ S e1 (or_introl eq_refl)) as (x & _ & Hfx). rewrite Hnf in Hfx. discriminate. }
      assert (errs2 = []) as ->.
      { apply (po_err3 _ _ _ _ _ P); [intros; apply HW; right; auto|]. intros x. rewrite (sn_fail _ _ _ _ _ _ S). auto. }
      destruct A3 as [-> _]; auto.
    + intros Hn q [<-|Hq]; auto. destruct (He0 Hn) as (_ & -> & _). apply (po_err4 _ _ _ _ _ P eq_refl q Hq).
    + intros Hn HR x Hi Hx Hpos. destruct (He0 Hn) as (-> & -> & ->). rewrite HPT in Hi. apply in_app_or in Hi as [Hi|Hi].
      * apply (sn_ok _ _ _ _ _ _ S eq_refl HR x Hi Hx Hpos).
      * rewrite <- (sn_fail _ _ _ _ _ _ S). apply (po_err5 _ _ _ _ _ P eq_refl); auto.
        -- destruct CS as ((_ & _ & R) & _). congruence.
        -- congruence.
        -- apply (counts_mono _ _ _ x CS Hx Hpos).
  - cbn [call] in E. injection E as <- <-. exists [p]. apply post_one; auto.
    + unfold Walker_Spec.kids. rewrite HC. auto.
    + unfold Walker_Spec.visits. rewrite HC. auto.
    + unfold Walker_Spec.damage. rewrite HC. auto.
Qed.
End Walk.
