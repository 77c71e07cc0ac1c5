(** thin_ls: reading the internal nodes. *)
From Coq Require Import Permutation.
From Verif Require Import Base Csum_Model Codec_Model Codec_Spec Codec_Proofs Pack_Proofs SpaceMap_Model Utils_Model Utils_Spec Utils_Proofs Builder_Spec Builder_Proofs BtreeRead_Proofs ThinCheck_Model ThinCheck_Spec ThinSum_Proofs ThinRead_Proofs Dump_Spec Dump_Proofs Ls_Model Ls_Spec LsAlg_Proofs.

(** ** Nodes *)
Lemma raw_root {V} (c : codec V) data r n : unpack_node_raw c data false r = Ok n -> unpack_node_raw c data false true = Ok n.
Proof.
  unfold unpack_node_raw. intros H. destruct (nh_unpack data) as [[h x]| |]; try discriminate. cbn [bind] in *.
  destruct (nh_is_leaf h && _); [discriminate|]. destruct (4096 <? _); [discriminate|]. destruct (nh_max_entries h <? _); [discriminate|].
  destruct (negb false && negb (_ =? 0)); [discriminate|]. destruct (negb false && negb r && _); [discriminate|]. cbn [negb andb]. exact H.
Qed.
Lemma raw_codec {V W} (c : codec V) (c' : codec W) data i r h ks bs : unpack_node_raw c data i r = Ok (Internal h ks bs) -> unpack_node_raw c' data i r = Ok (Internal h ks bs).
Proof.
  intros H. pose proof (raw_flag _ _ _ _ _ H) as (hd & x & E & F). cbv beta iota in F. unfold unpack_node_raw in *. rewrite E in *. cbn [bind] in *. rewrite F in *. cbn [andb] in *.
  destruct (4096 <? _); [discriminate|]. destruct (nh_max_entries hd <? _); [discriminate|]. destruct (negb i && _); [discriminate|]. destruct (negb i && _ && _); [discriminate|].
  repeat match type of H with bind ?e _ = _ => destruct e as [[? ?]| |]; cbn [bind] in *; try discriminate
    | (if ?x then _ else _) = _ => destruct x; try discriminate end.
  apply Ok_inj in H. congruence.
Qed.
Lemma check_ok {V} (c : codec V) b data i r n : metadata_block_type data = NODE -> unpack_node_raw c data i r = Ok n -> nh_block (get_header n) = b ->
  check_and_unpack_node c (mkblock b data) i r = Ok n.
Proof. intros T U H. unfold check_and_unpack_node. cbn [b_data b_loc]. rewrite T, U. cbn [bind]. rewrite H, N.eqb_refl. reflexivity. Qed.
Lemma full_read eng r b n : full_node eng r b n -> exists data, eng b = Some data /\
  check_and_unpack_node bt_codec (mkblock b data) false true = Ok n /\ (forall r, check_and_unpack_node bt_codec (mkblock b data) true r = Ok n).
Proof.
  intros ((data & E & T & U) & Hb & _). exists data. conj; auto.
  - apply check_ok; auto. eapply raw_root; eauto.
  - intros r'. apply check_ok; auto. eapply raw_loose; eauto.
Qed.
Lemma full_inner eng r b h ks bs data : full_node eng r b (Internal h ks bs) -> eng b = Some data -> check_and_unpack_node u64_codec (mkblock b data) false true = Ok (Internal h ks bs).
Proof.
  intros ((data' & E & T & U) & Hb & _) E'. assert (data' = data) by congruence. subst data'. apply check_ok; auto. eapply raw_codec. eapply raw_root; eauto.
Qed.

(** ** Depth *)
Lemma depth_read eng : forall d r b kvs fuel path, thin_tree eng r d b kvs -> (d < fuel)%nat ->
  (forall p, In p path -> exists r' d' kvs', thin_tree eng r' d' p kvs' /\ (d <= d')%nat) -> forall r0, get_depth eng fuel path b r0 = Some d.
Proof.
  induction d as [|d IH]; intros r b kvs fuel path H Hf Hp r0; (destruct fuel as [|fuel]; [lia|]); cbn [get_depth].
  - destruct H as (h & ks & vs & Hn & _). destruct (full_read _ _ _ _ Hn) as (data & -> & _ & ->). reflexivity.
  - destruct H as (h & ks & bs & subs & Hn & Hne & Hc & _). destruct (full_read _ _ _ _ Hn) as (data & -> & _ & ->).
    destruct ks as [|k ks]; [congruence|]. destruct bs as [|c bs]; [destruct Hc|]. destruct subs as [|s subs]; [destruct Hc|]. cbn [children_ok] in Hc. destruct Hc as (Ht & _).
    replace (existsb (N.eqb c) path) with false.
    + rewrite (IH _ _ _ fuel (path ++ [c]) Ht); [reflexivity|lia|]. intros p Hin. apply in_app_or in Hin as [Hin|[<-|[]]].
      * destruct (Hp p Hin) as (r' & d' & kvs' & A & B). exists r', d', kvs'. split; auto. lia.
      * exists false, d, s. auto.
    + symmetry. destruct (existsb _ path) eqn:Ex; auto. apply existsb_exists in Ex as (p & Hin & Ep). apply N.eqb_eq in Ep. subst p.
      destruct (Hp c Hin) as (r' & d' & kvs' & A & B). apply thin_mapping in A, Ht. pose proof (tree_depth _ _ _ _ _ _ _ _ A Ht). lia.
Qed.

(** ** Counts *)
Definition counted (nr : N) (sm : tsm) (refs : list N) : Prop := t_nr sm = nr /\ forall b, t_counts sm b = N.min 2 (occ b refs).
Lemma counted_inc nr sm refs b : counted nr sm refs -> b < nr -> exists sm', two_inc sm b = Ok sm' /\ counted nr sm' (refs ++ [b]).
Proof.
  intros [H1 H2] Hb. unfold two_inc. rewrite H1. destruct (N.ltb_spec b nr); [|lia]. eexists. split; [reflexivity|]. unfold tsm_inc1.
  pose proof (H2 b) as Hcb. destruct (N.eqb_spec (t_counts sm b) 2) as [E2|N2]; [|destruct (N.eqb_spec (t_counts sm b) 1) as [E1|N1]];
    (split; [exact H1|]); intros x; rewrite occ_app; cbn [occ t_counts]; unfold upd; rewrite ?(N.eqb_sym x b); specialize (H2 x);
    destruct (N.eqb_spec b x) as [<-|]; lia.
Qed.
Lemma counted_get nr sm refs b : counted nr sm refs -> b < nr -> two_get sm b = N.min 2 (occ b refs).
Proof. intros [H1 H2] Hb. unfold two_get. rewrite H1. destruct (N.ltb_spec b nr); [|lia]. apply H2. Qed.
Lemma counted_ext nr sm refs refs' : counted nr sm refs -> (forall b, occ b refs = occ b refs') -> counted nr sm refs'.
Proof. intros [H1 H2] H. split; auto. intros b. rewrite <- H. auto. Qed.
Lemma seen_ok nr sm refs b : counted nr sm refs -> b < nr ->
  exists sm' seen, ls_seen b sm = Ok (sm', seen) /\ counted nr sm' (refs ++ [b]) /\ (seen = true <-> In b refs).
Proof.
  intros H Hb. destruct (counted_inc _ _ _ _ H Hb) as (sm' & E & H'). unfold ls_seen. rewrite E. cbn [bind]. exists sm', (1 <? two_get sm' b). conj; auto.
  rewrite (counted_get _ _ _ _ H' Hb), occ_app. cbn [occ]. rewrite N.eqb_refl, <- occ_in. rewrite N.ltb_lt. lia.
Qed.

Section Read.
Context (nr : N) (eng : N -> option (list N)).
Hypothesis Hdev : device_of nr eng.
Context (pool : list pool_dev) (depth : N -> nat).
Hypothesis Hpool : Forall (fun p => thin_tree eng true (depth (pd_root p)) (pd_root p) (pd_maps p)) pool.
Notation X := (unfolded eng pool depth).
Notation K := (kids eng).
Definition leafish (b : N) : Prop := exists r kvs, thin_tree eng r 0 b kvs.
Definition innerish (b : N) : Prop := exists r d kvs, thin_tree eng r (S d) b kvs.
Lemma leafish_innerish b : leafish b -> innerish b -> False.
Proof using. intros (r & kvs & H) (r' & d & kvs' & H'). apply thin_mapping in H, H'. pose proof (tree_depth _ _ _ _ _ _ _ _ H H'). lia. Qed.
Lemma X_small b : In b X -> b < nr.
Proof using Hdev Hpool. intros H. destruct (unfolded_tree _ _ _ Hpool b H) as (r & d & kvs & Ht). apply thin_mapping in Ht. eapply tree_lt; eauto. Qed.
Lemma nr_small : nr < W32.
Proof using Hdev. exact (proj1 Hdev). Qed.
Lemma X_mod b : In b X -> b mod W32 = b.
Proof using Hdev Hpool. intros H. apply X_small in H. pose proof nr_small. apply N.mod_small. lia. Qed.
Definition nkeys (b : N) : list N :=
  match eng b with Some data => match unpack_node_raw bt_codec data true true with Ok n => get_keys n | _ => [] end | None => [] end.

(** What has been counted, the nodes expanded, the internal nodes and the leaves to be looked at. *)
Definition RI (rr E P Q : list N) (s : lst2) : Prop :=
  let refs := rr ++ flat_map K E in
  counted nr (fst s) refs /\
  exists c hi, nm_inv nr c hi [] (snd s) /\ (forall b, c b = NTInternal <-> In b E) /\ (forall b, c b = NTLeaf -> In b refs /\ leafish b) /\
    Forall (fun p => snd p = (nkeys (fst p), K (fst p))) hi /\ (forall b, In b refs -> c b <> NTNone \/ In b P \/ In b Q) /\
    NoDup (E ++ P) /\ incl (E ++ P) refs /\ incl refs X /\ (forall b, In b (E ++ P) -> innerish b) /\ (forall b, In b Q -> leafish b /\ In b refs).

Lemma ins_leaf rr E P Q v s : RI rr E P (v :: Q) s -> exists s', lins s (nm_insert_leaf (snd s) (v mod W32)) = Ok s' /\ RI rr E P Q s'.
Proof using Hdev Hpool.
  intros (H1 & c & hi & H2 & H3 & H4 & H5 & H6 & H7 & H8 & H9 & H10 & H11). destruct (H11 v (or_introl eq_refl)) as [Hl Hr].
  pose proof (X_small v (H9 v Hr)) as Hv. rewrite (X_mod v (H9 v Hr)).
  pose proof (nm_step_inv nr c hi [] (snd s) (OpLeaf v) nr_small Hv H2) as S1. cbn [op_block op_type nm_step info_of err_of] in S1.
  rewrite !app_nil_r in S1. destruct (accepts (c v) NTLeaf) eqn:Ea.
  - destruct S1 as (m' & Em & Hm). rewrite Em. cbn [lins]. eexists. split; [reflexivity|]. split; [exact H1|]. exists (fun b => if b =? v then NTLeaf else c b), hi.
    assert (Ec : c v = NTNone) by (destruct (c v); cbn in Ea; auto; discriminate).
    conj; auto.
    + intros b. destruct (N.eqb_spec b v) as [->|]; [|auto]. split; [discriminate|]. intros Hb. apply H3 in Hb. congruence.
    + intros x Hx. cbv beta in Hx. destruct (N.eqb_spec x v) as [E0|E0]; [rewrite E0; auto|auto].
    + intros b Hb. destruct (N.eqb_spec b v) as [->|Ne]; [left; discriminate|]. destruct (H6 b Hb) as [A|[A|[A|A]]]; auto; congruence.
    + intros b Hb. apply H11. right. exact Hb.
  - rewrite S1. cbn [lins]. eexists. split; [reflexivity|]. split; [exact H1|]. exists c, hi. conj; auto.
    + intros b Hb. destruct (H6 b Hb) as [A|[A|[A|A]]]; auto. subst b. left. intros Z. rewrite Z in Ea. discriminate.
    + intros b Hb. apply H11. right. exact Hb.
Qed.
Lemma ins_leaves rr E P : forall Q s, RI rr E P Q s -> exists s', ls_insert_leaves Q s = Ok s' /\ RI rr E P [] s'.
Proof using Hdev Hpool.
  induction Q as [|v Q IH]; intros s H; cbn [ls_insert_leaves]; [eauto|]. destruct (ins_leaf _ _ _ _ _ _ H) as (s' & -> & H'). cbn [bind]. auto.
Qed.
Lemma new_children_ok last : forall vs s refs, counted nr (fst s) refs -> (forall v, In v vs -> v < nr) ->
  exists sm' l, ls_new_children last vs s = Ok ((sm', snd s), l) /\ counted nr sm' (refs ++ vs) /\ incl l vs /\ (forall v, In v vs -> ~ In v refs -> In v l) /\
    (last = false -> (forall v, In v vs -> nm_get_type (snd s) v <> NTLeaf) -> NoDup l /\ forall v, In v l -> ~ In v refs).
Proof using Hdev.
  induction vs as [|v vs IH]; intros s refs H Hv; cbn [ls_new_children].
  - exists (fst s), []. destruct s. cbn [fst snd] in *. rewrite app_nil_r. split; [reflexivity|]. split; [exact H|]. split; [apply incl_refl|]. split; [intros ? []|]. intros _ _. split; [constructor|intros ? []].
  - assert (Hm : v mod W32 = v) by (apply N.mod_small; pose proof nr_small; specialize (Hv v (or_introl eq_refl)); lia). rewrite Hm.
    destruct (seen_ok nr (fst s) refs v H) as (sm1 & seen & E1 & H1 & Hs); [apply Hv; left; auto|]. rewrite E1. cbn [bind fst snd].
    destruct (IH (sm1, snd s) (refs ++ [v]) H1) as (sm2 & l & E2 & H2 & H3 & H4 & H5); [intros; apply Hv; right; auto|]. cbn [snd] in *. rewrite E2. cbn [bind].
    eexists sm2, _. split; [reflexivity|]. split; [rewrite <- app_assoc in H2; exact H2|]. cbn [snd] in *.
    match goal with |- context [if ?k then _ else _] => set (keep := k) end.
    assert (Hk : ~ In v refs -> keep = true). { intros Hn. unfold keep. destruct seen; [|reflexivity]. exfalso. apply Hn, Hs. auto. }
    conj.
    + destruct keep; [apply incl_cons; [left; auto|apply incl_tl; auto]|apply incl_tl; auto].
    + intros x [<-|Hx] Hn; [rewrite Hk by auto; left; auto|]. destruct (N.eq_dec x v) as [->|Ne]; [rewrite Hk by auto; left; auto|].
      assert (In x l) by (apply H4; auto; intros A; apply in_app_or in A as [A|[A|[]]]; [auto|congruence]). destruct keep; [right|]; auto.
    + intros El Ht. subst last. destruct (H5 eq_refl) as [A B]; [intros x Hx; apply Ht; right; auto|]. specialize (Ht v (or_introl eq_refl)).
      assert (Hseen : keep = true -> ~ In v refs).
      { unfold keep. destruct seen; cbn [negb orb]; [|intros _ Hi; apply Hs in Hi; discriminate]. destruct (nm_get_type (snd s) v); try discriminate. congruence. }
      destruct keep.
      * split; [constructor; auto; intros Hi; apply (B v Hi), in_or_app; right; left; auto|]. intros x [<-|Hx]; [auto|]. intros Hi. apply (B x Hx), in_or_app. auto.
      * split; auto. intros x Hx Hi. apply (B x Hx), in_or_app. auto.
Qed.

Lemma nkeys_full r b n : full_node eng r b n -> nkeys b = get_keys n.
Proof using. intros (Hn & _). apply node_on_loose in Hn as (data & E & _ & U). unfold nkeys. rewrite E, U. reflexivity. Qed.

Lemma read_node_ok : forall d r b kvs data rr E P s, thin_tree eng r (S d) b kvs -> eng b = Some data -> RI rr E (b :: P) [] s ->
  exists s' E', ls_read_node eng false d b data s = Ok s' /\ RI rr E' P [] s'.
Proof using Hdev Hpool.
  induction d as [|d IH]; intros r b kvs data rr E P s Ht Eb H.
  all: pose proof Ht as (h & ks & bs & subs & Hn & _ & _ & _).
  all: destruct H as (H1 & c & hi & H2 & H3 & H4 & H5 & H6 & H7 & H8 & H9 & H10 & H11).
  all: assert (HbP : In b (E ++ b :: P)) by (apply in_or_app; right; left; auto).
  all: assert (HbX : In b X) by (apply H9, H8; auto).
  all: pose proof (X_small b HbX) as Hb.
  all: pose proof (proj1 (kids_internal _ _ _ _ _ _ (proj1 Hn))) as Ek.
  all: assert (HNb : ~ In b E /\ ~ In b P /\ NoDup (E ++ P)) by (conj; [intros A; apply NoDup_remove_2 in H7; apply H7, in_or_app; auto|intros A; apply NoDup_remove_2 in H7; apply H7, in_or_app; auto|apply NoDup_remove_1 in H7; auto]).
  all: destruct HNb as (HbE & HbP' & HNEP).
  all: assert (Ec : c b = NTNone) by
    (destruct (c b) eqn:Ec; auto; [exfalso; apply HbE, H3; auto|exfalso; apply H4 in Ec as [_ Ec]; eapply leafish_innerish; [exact Ec|apply H10; auto]|
      exfalso; apply (ni_ekeys _ _ _ _ _ H2) in Ec; destruct Ec]).
  all: assert (Hkids : forall v, In v bs -> In v X) by (intros v Hv; eapply unfolded_kids; eauto; rewrite Ek; auto).
  all: assert (Emap : map (fun v => v mod W32) bs = bs) by (rewrite <- (map_id bs) at 2; apply map_ext_in; intros v Hv; apply X_mod; auto).
  all: pose proof (nm_step_inv nr c hi [] (snd s) (OpInternal b (ks, bs)) nr_small Hb H2) as S1; cbn [op_block op_type nm_step info_of err_of] in S1; rewrite Ec in S1;
    cbn [accepts app] in S1; destruct S1 as (m' & Em & Hm).
  all: cbn [ls_read_node]; rewrite (full_inner _ _ _ _ _ _ _ Hn Eb), Emap, (X_mod b HbX), Em; cbn [lins bind].
  all: set (refs := rr ++ flat_map K E) in *.
  all: assert (Eref : rr ++ flat_map K (E ++ [b]) = refs ++ bs) by (unfold refs; rewrite flat_map_app; cbn [flat_map]; rewrite app_nil_r, app_assoc, Ek; reflexivity).
  all: assert (Hc1 : forall x, (if x =? b then NTInternal else c x) = NTInternal <-> In x (E ++ [b])) by
    (intros x; rewrite in_app_iff; cbn [In]; destruct (N.eqb_spec x b) as [->|Ne]; [split; auto|rewrite H3; split; [auto|intros [A|[A|[]]]; [auto|congruence]]]).
  all: assert (Hc2 : forall x, (if x =? b then NTInternal else c x) = NTLeaf -> In x (refs ++ bs) /\ leafish x) by
    (intros x Hx; destruct (x =? b); [discriminate|]; apply H4 in Hx as [A B]; split; [apply in_or_app|]; auto).
  all: assert (Hhi : Forall (fun p => snd p = (nkeys (fst p), K (fst p))) (hi ++ [(b, (ks, bs))])) by
    (apply Forall_app; split; [auto|]; constructor; [|constructor]; cbn [fst snd]; rewrite Ek, (nkeys_full _ _ _ Hn); reflexivity).
  all: assert (Hinc : incl (refs ++ bs) X) by (intros x Hx; apply in_app_or in Hx as [Hx|Hx]; auto).
  - match goal with |- context [ls_new_children true bs ?x] => set (s1 := x) end. destruct (new_children_ok true bs s1 refs H1) as (sm' & l & El & Hcnt & Hl1 & Hl2 & _); [intros; apply X_small; auto|]. rewrite El. cbn [bind]. change (snd s1) with m' in *.
    destruct (ins_leaves rr (E ++ [b]) P l (sm', m')) as (s' & Es & Hs').
    + unfold RI. rewrite Eref. split; [exact Hcnt|]. exists (fun x => if x =? b then NTInternal else c x), (hi ++ [(b, (ks, bs))]). conj; auto.
      * intros x Hx. destruct (N.eqb_spec x b) as [->|Ne]; [left; discriminate|]. destruct (in_dec N.eq_dec x refs) as [Hi|Hi].
        { destruct (H6 x Hi) as [A|[[A|A]|[]]]; auto; congruence. }
        apply in_app_or in Hx as [Hx|Hx]; [contradiction|]. right. right. auto.
      * rewrite <- app_assoc. cbn [app]. exact H7.
      * intros x Hx. apply in_or_app. left. apply H8. rewrite <- app_assoc in Hx. exact Hx.
      * intros x Hx. apply H10. rewrite <- app_assoc in Hx. exact Hx.
      * intros x Hx. apply Hl1 in Hx. split; [|apply in_or_app; auto]. rewrite <- Ek in Hx. destruct (thin_kids _ _ _ _ _ _ Ht Hx) as (s0 & Hs0). exists false, s0. exact Hs0.
    + exists s', (E ++ [b]). auto.
  - assert (Hin : forall v, In v bs -> innerish v) by (intros v Hv; rewrite <- Ek in Hv; destruct (thin_kids _ _ _ _ _ _ Ht Hv) as (s0 & Hs0); exists false, d, s0; exact Hs0).
    match goal with |- context [ls_new_children false bs ?x] => set (s1 := x) end. destruct (new_children_ok false bs s1 refs H1) as (sm' & l & El & Hcnt & Hl1 & Hl2 & Hl3); [intros; apply X_small; auto|]. rewrite El. cbn [bind]. change (snd s1) with m' in *.
    destruct (Hl3 eq_refl) as [Nl Dl].
    { intros v Hv. rewrite (nm_get_type_inv _ _ _ _ _ _ Hm). intros A. destruct (Hc2 v A) as [_ A']. eapply leafish_innerish; eauto. }
    assert (HR : RI rr (E ++ [b]) (l ++ P) [] (sm', m')).
    { unfold RI. rewrite Eref. split; [exact Hcnt|]. exists (fun x => if x =? b then NTInternal else c x), (hi ++ [(b, (ks, bs))]). conj; auto.
      - intros x Hx. destruct (N.eqb_spec x b) as [->|Ne]; [left; discriminate|]. destruct (in_dec N.eq_dec x refs) as [Hi|Hi].
        { destruct (H6 x Hi) as [A|[[A|A]|[]]]; [auto|congruence|]. right. left. apply in_or_app. auto. }
        apply in_app_or in Hx as [Hx|Hx]; [contradiction|]. right. left. apply in_or_app. auto.
      - apply (Permutation_NoDup (l := l ++ E ++ b :: P)).
        + rewrite <- app_assoc. cbn [app]. rewrite (Permutation_app_comm l), <- app_assoc. apply Permutation_app_head. cbn [app]. constructor. apply Permutation_app_comm.
        + apply NoDup_app_iff_local. conj; auto. intros x Hx Hx2. exact (Dl x Hx (H8 x Hx2)).
      - intros x Hx. apply in_or_app. rewrite !in_app_iff in Hx. destruct Hx as [[Hx|[<-|[]]]|[Hx|Hx]]; auto; left; apply H8, in_or_app; auto. right; right; auto.
      - intros x Hx. rewrite !in_app_iff in Hx. destruct Hx as [[Hx|[<-|[]]]|[Hx|Hx]]; auto; apply H10, in_or_app; auto. right; right; auto.
      - intros x []. }
    assert (Hl4 : forall v, In v l -> exists s0, thin_tree eng false (S d) v s0) by (intros v Hv; apply Hl1 in Hv; rewrite <- Ek in Hv; apply (thin_kids _ _ _ _ _ _ Ht Hv)).
    unfold lst2, nmap in *. revert HR Hl4. clear - IH. generalize (E ++ [b]) (sm', m'). revert l. 
    induction l as [|v l IHl]; intros E1 s1 HR Hl4; [exists s1, E1; split; [reflexivity|exact HR]|].
    destruct (Hl4 v (or_introl eq_refl)) as (s0 & Hs0). destruct (tree_nodes _ _ _ _ _ (thin_mapping _ _ _ _ _ Hs0)) as (dv & Ev). rewrite Ev.
    destruct (IH _ _ _ dv rr E1 (l ++ P) s1 Hs0 Ev HR) as (s2 & E2 & A & B). rewrite A. cbn [bind]. apply (IHl E2 s2 B). intros; apply Hl4; right; auto.
Qed.

Lemma occ_mid {A} (rr : list A) x y : rr ++ x :: y = (rr ++ [x]) ++ y. Proof. rewrite <- app_assoc. reflexivity. Qed.
Lemma read_root_ok rr E root s : RI rr E [] [] s -> In root (roots pool) -> exists s' E', ls_read_internal nr eng false root s = Ok s' /\ RI (rr ++ [root]) E' [] [] s'.
Proof using Hdev Hpool.
  intros (H1 & c & hi & H2 & H3 & H4 & H5 & H6 & H7 & H8 & H9 & H10 & H11) Hr. pose proof (unfolded_roots _ _ _ Hpool root Hr) as HX. pose proof (X_small root HX) as Hlt.
  unfold ls_read_internal. destruct (seen_ok nr (fst s) _ root H1 Hlt) as (sm' & seen & -> & Hc & Hs). cbn [bind fst snd].
  assert (Hin : forall x, In x ((rr ++ [root]) ++ flat_map K E) <-> In x (rr ++ flat_map K E) \/ x = root).
  { intros x. rewrite !in_app_iff. cbn [In]. intuition. }
  assert (Hc' : counted nr sm' ((rr ++ [root]) ++ flat_map K E)).
  { eapply counted_ext; [exact Hc|]. intros b. rewrite !occ_app. lia. }
  assert (HR : forall P Q, NoDup (E ++ P) -> incl P [root] -> incl Q [root] -> (In root (rr ++ flat_map K E) \/ In root P \/ In root Q) -> (forall x, In x P -> innerish x) -> (forall x, In x Q -> leafish x) ->
    RI (rr ++ [root]) E P Q (sm', snd s)).
  { intros P Q N1 I1 I2 D1 D2 D3. split; [exact Hc'|]. exists c, hi. rewrite app_nil_r in *. conj; auto.
    - intros b Hb. destruct (H4 b Hb) as [A B]. split; auto. apply Hin. auto.
    - intros b Hb. apply Hin in Hb as [Hb| ->]; [destruct (H6 b Hb) as [A|[[]|[]]]; auto|]. destruct D1 as [A|[A|A]]; auto. destruct (H6 root A) as [B|[[]|[]]]; auto.
    - intros x Hx. apply Hin. apply in_app_or in Hx as [Hx|Hx]; [auto|]. apply I1 in Hx as [<-|[]]. auto.
    - intros x Hx. apply Hin in Hx as [Hx| ->]; auto.
    - intros x Hx. apply in_app_or in Hx as [Hx|Hx]; auto.
    - intros x Hx. split; auto. apply Hin. right. apply I2 in Hx as [<-|[]]. auto. }
  destruct seen.
  { eexists _, E. split; [reflexivity|]. apply HR; try (intros ? []); auto. left. apply Hs. auto. }
  assert (Hns : ~ In root (rr ++ flat_map K E)) by (intros A; apply Hs in A; discriminate).
  destruct (root_tree _ _ _ Hpool root Hr) as (kvs & Ht). pose proof (tree_shallow nr eng _ _ _ _ Hdev (thin_mapping _ _ _ _ _ Ht)) as Hsh.
  rewrite (depth_read eng _ _ _ _ (S (S (N.to_nat nr))) [] Ht); [|lia|intros ? []].
  destruct (depth root) as [|d].
  - destruct (ins_leaf (rr ++ [root]) E [] [] root (sm', snd s)) as (s' & A & B); [|rewrite (X_mod root HX) in A; cbn [fst snd] in A; rewrite A; eauto].
    apply HR; auto; try (intros ? []; fail); [apply incl_refl|right; right; left; auto|]. intros x [<-|[]]. exists true, kvs. exact Ht.
  - destruct (tree_nodes _ _ _ _ _ (thin_mapping _ _ _ _ _ Ht)) as (data & Ed). rewrite Ed.
    destruct (read_node_ok d true root kvs data (rr ++ [root]) E [] (sm', snd s) Ht Ed) as (s' & E' & A & B); [|eauto].
    apply HR; auto; try (intros ? []; fail); [|apply incl_refl|right; left; left; auto|intros x [<-|[]]; exists true, d, kvs; exact Ht].
    apply NoDup_app_iff_local. rewrite app_nil_r in *. conj; auto; [constructor; [intros []|constructor]|]. intros x Hx [<-|[]]. apply Hns, H8. auto.
Qed.
Lemma read_roots_ok : forall rs rr E s, RI rr E [] [] s -> incl rs (roots pool) -> exists s' E', ls_read_roots nr eng false rs s = Ok s' /\ RI (rr ++ rs) E' [] [] s'.
Proof using Hdev Hpool.
  induction rs as [|r rs IH]; intros rr E s H HI; cbn [ls_read_roots]; [rewrite app_nil_r; eauto|].
  assert (Hr : In r (roots pool)) by (apply HI; left; auto). rewrite (X_mod r (unfolded_roots _ _ _ Hpool r Hr)).
  destruct (read_root_ok rr E r s H Hr) as (s' & E' & A & B). rewrite A. cbn [bind]. destruct (IH (rr ++ [r]) E' s' B) as (s2 & E2 & C & D); [intros x Hx; apply HI; right; auto|].
  exists s2, E2. split; auto. rewrite <- app_assoc in D. exact D.
Qed.

(** ** The result *)
Lemma collect_ok : exists msm nodes E, ls_collect nr eng false (roots pool) (tsm_new nr) = Ok (msm, nodes) /\
  (NoDup E /\ incl E X /\ forall b, In b X -> K b <> [] -> In b E) /\
  (NoDup (leaves_of nodes) /\ (forall b, In b (leaves_of nodes) <-> In b X /\ leafish b)) /\
  (forall b, In b X -> two_get msm b = N.min 2 (links eng pool E b)) /\
  (forall b, In b X -> innerish b -> nm_get_type nodes b = NTInternal /\ hv_get (nm_info nodes) b = Ok (Some (nkeys b, K b))) /\
  (exists c hi, nm_inv nr c hi [] nodes).
Proof using Hdev Hpool.
  unfold ls_collect. rewrite (N.mod_small nr) by exact nr_small.
  destruct (read_roots_ok (roots pool) [] [] (tsm_new nr, nm_new nr)) as (s' & E & A & B).
  { split; [split; [reflexivity|intros; reflexivity]|]. exists (fun _ => NTNone), []. cbn [flat_map app]. conj; auto; try (intros ? []; fail); try (intros; discriminate).
    - apply nm_new_inv.
    - intros b. split; [discriminate|intros []].
    - constructor. }
  { apply incl_refl. }
  cbn [app] in B. destruct s' as [msm nodes]. exists msm, nodes, E. split; [exact A|].
  destruct B as (H1 & c & hi & H2 & H3 & H4 & H5 & H6 & H7 & H8 & H9 & H10 & H11). rewrite app_nil_r in *. cbn [fst snd] in *.
  assert (Hdone : forall b, In b X -> c b <> NTNone).
  { apply unfolded_least; auto.
    - intros r Hr. destruct (H6 r) as [D|[[]|[]]]; auto. apply in_or_app. auto.
    - intros b k Hb HbX Hk. destruct (H6 k) as [D|[[]|[]]]; auto. apply in_or_app. right. apply in_flat_map. exists b. split; auto. apply H3.
      destruct (c b) eqn:Ec; auto; [congruence| |exfalso; apply (ni_ekeys _ _ _ _ _ H2) in Ec; destruct Ec]. exfalso. apply H4 in Ec as [_ (r & kvs & h & ks & vs & (Hn & _) & _)].
      rewrite (proj1 (kids_leaf _ _ _ _ _ _ Hn)) in Hk. destruct Hk. }
  assert (Hcl : forall b, In b X -> c b = NTInternal \/ c b = NTLeaf).
  { intros b Hb. specialize (Hdone b Hb). destruct (c b) eqn:Ec; auto; [congruence|]. apply (ni_ekeys _ _ _ _ _ H2) in Ec. destruct Ec. }
  assert (HEX : incl E X) by (intros b Hb; apply H9, H8; auto).
  conj; auto.
  - intros b Hb Hk. apply H3. destruct (Hcl b Hb) as [D|D]; auto. apply H4 in D as [_ (r & kvs & h & ks & vs & (Hn & _) & _)].
    rewrite (proj1 (kids_leaf _ _ _ _ _ _ Hn)) in Hk. congruence.
  - unfold leaves_of. apply NoDup_filter, increasing_NoDup, range_increasing.
  - intros b. unfold leaves_of. rewrite filter_In, in_range, (ni_lcap _ _ _ _ _ H2). unfold bs_contains. rewrite (ni_lcap _ _ _ _ _ H2). split.
    + intros [[_ Hb] D]. destruct (N.ltb_spec b nr); [|lia]. rewrite (ni_leaf _ _ _ _ _ H2) in D by auto. destruct (c b) eqn:Ec; try discriminate. apply H4 in Ec as [C D']. auto.
    + intros [Hb Hl]. pose proof (X_small b Hb). conj; [lia|lia|]. destruct (N.ltb_spec b nr); [|lia]. rewrite (ni_leaf _ _ _ _ _ H2) by auto.
      destruct (Hcl b Hb) as [D|D]; rewrite D; auto. exfalso. apply (leafish_innerish b Hl). apply H10, H3. auto.
  - intros b Hb. rewrite (counted_get _ _ _ _ H1); [reflexivity|]. apply X_small; auto.
  - intros b Hb Hi. assert (Ec : c b = NTInternal) by (destruct (Hcl b Hb) as [D|D]; auto; apply H4 in D as [_ D]; exfalso; eapply leafish_innerish; eauto).
    split; [rewrite (nm_get_type_inv _ _ _ _ _ _ H2); exact Ec|]. destruct (ni_info _ _ _ _ _ H2) as [ks Hk]. rewrite (hv_get_inv _ _ _ b Hk). f_equal.
    apply (ni_ikeys _ _ _ _ _ H2) in Ec. apply in_map_iff in Ec as ([b' y] & Eb & Hin). cbn [fst] in Eb. subst b'.
    unfold last_value. destruct (find (fun p => fst p =? b) (rev hi)) as [[b2 y2]|] eqn:Ef.
    + apply find_some in Ef as [Hi2 Eb2]. cbn [fst] in Eb2. apply N.eqb_eq in Eb2. subst b2. apply in_rev in Hi2. rewrite Forall_forall in H5. specialize (H5 _ Hi2). cbn [fst snd option_map] in *. rewrite H5. reflexivity.
    + exfalso. apply in_rev in Hin. apply (find_none _ _ Ef) in Hin. cbn [fst] in Hin. rewrite N.eqb_refl in Hin. discriminate.
  - eauto.
Qed.
End Read.
