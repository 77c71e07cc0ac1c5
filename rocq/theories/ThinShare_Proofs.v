(** The metadata map while the trees of mappings are read: one count per pointer. *)
From Coq Require Import Permutation.
From Verif Require Import Base Csum_Model Codec_Model Utils_Model Utils_Spec Utils_Proofs Walker_Model Walker_Spec Walker_Proofs SpaceMap_Model Pack_Proofs ThinCheck_Model ThinCheck_Spec ThinShare_Spec
  ThinSum_Proofs ThinRead_Proofs Props_ThinSum.

Lemma occ_cons b v l : occurrences b (v :: l) = (if b =? v then 1 else 0) + occurrences b l.
Proof. unfold occurrences. cbn [filter]. destruct (b =? v); [rewrite nlen_cons|]; lia. Qed.
Lemma occ_app b l l' : occurrences b (l ++ l') = occurrences b l + occurrences b l'.
Proof. unfold occurrences. rewrite filter_app, nlen_app. reflexivity. Qed.
Lemma occ_in b l : In b l -> 1 <= occurrences b l.
Proof. induction l as [|v l IH]; [intros []|]. rewrite occ_cons. intros [->|H]; [rewrite N.eqb_refl; lia|]. specialize (IH H). lia. Qed.

(** ** Strict and lenient reading *)
Lemma raw_lenient {V W} (c : codec V) (c' : codec W) data inf r r' h ks vs :
  unpack_node_raw c data inf r = Ok (Internal h ks vs) -> unpack_node_raw c' data true r' = Ok (Internal h ks vs).
Proof.
  unfold unpack_node_raw. intros H. inv_bind H. destruct a as [i hd]. rewrite ?E. cbn [bind].
  destruct (nh_is_leaf hd) eqn:El.
  - exfalso. cbn [andb] in H. destruct (negb _); [discriminate|]. destruct (4096 <? _); [discriminate|]. destruct (_ <? _); [discriminate|].
    destruct (_ && _); [discriminate|]. destruct (_ && _); [discriminate|]. inv_bind H. destruct a as [kk i1]. destruct (negb _); [discriminate|].
    inv_bind H. destruct a. inv_bind H. destruct a. apply Ok_inj in H. discriminate.
  - cbn [andb negb] in *. destruct (4096 <? _); [discriminate|]. destruct (_ <? _); [discriminate|].
    destruct (_ && _); [discriminate|]. destruct (_ && _); [discriminate|]. inv_bind H. destruct a as [kk i1]. rewrite ?E0. cbn [bind].
    destruct (negb (keys_ordered None kk)); [discriminate|]. inv_bind H. destruct a as [zz i2]. rewrite ?E1. cbn [bind]. inv_bind H. destruct a as [ww i3]. rewrite ?E2. cbn [bind].
    apply Ok_inj in H. f_equal. injection H as -> -> ->. reflexivity.
Qed.
Lemma check_lenient {V W} (c : codec V) (c' : codec W) b data inf r r' h ks vs :
  check_and_unpack_node c (mkblock b data) inf r = Ok (Internal h ks vs) -> check_and_unpack_node c' (mkblock b data) true r' = Ok (Internal h ks vs).
Proof.
  unfold check_and_unpack_node. cbn [b_data b_loc]. destruct (metadata_block_type data); try discriminate. intros H. inv_bind H.
  destruct (negb _) eqn:Eb; [discriminate|]. apply Ok_inj in H. subst a. rewrite (raw_lenient c c' data inf r r' h ks vs E). cbn [bind get_header] in *. rewrite Eb. reflexivity.
Qed.
Lemma inner_lenient eng inf b x : inner_on eng inf b = Some x -> inner_on eng true b = Some x.
Proof.
  unfold inner_on. destruct (eng b) as [data|]; [|discriminate]. destruct (check_and_unpack_node u64_codec (mkblock b data) inf true) as [[h ks vs|]| |] eqn:E; try discriminate.
  rewrite (check_lenient u64_codec u64_codec _ _ _ _ true _ _ _ E). auto.
Qed.
Lemma leaf_root_free b data r h ks vs : check_and_unpack_node bt_codec (mkblock b data) true r = Ok (Leaf h ks vs) ->
  check_and_unpack_node bt_codec (mkblock b data) true true = Ok (Leaf h ks vs).
Proof.
  intros H. rewrite <- H. unfold check_and_unpack_node. cbn [b_data b_loc]. destruct (metadata_block_type data); auto.
Qed.

(** the depth found is the height *)
Lemma depth_height eng (h : N -> nat) (P : N -> Prop) :
  (forall b ks cs c, P b -> inner_on eng true b = Some (ks, cs) -> In c cs -> P c /\ h b = S (h c)) ->
  (forall b, P b -> leaf_on eng true b <> None -> h b = 0%nat) ->
  forall fuel path root r n, P root -> get_depth eng fuel path root r = Some n -> h root = n.
Proof.
  intros Hi Hl. induction fuel as [|fuel IH]; intros path root r n HP H; cbn [get_depth] in H; [discriminate|].
  destruct (eng root) as [data|] eqn:Ed; [|discriminate].
  destruct (check_and_unpack_node bt_codec (mkblock root data) true r) as [[hd ks vs|hd ks vs]| |] eqn:Ec; try discriminate.
  - assert (Hin : inner_on eng true root = Some (ks, vs)) by (unfold inner_on; rewrite Ed, (check_lenient bt_codec u64_codec _ _ _ _ true _ _ _ Ec); reflexivity).
    assert (HC : forall c, In c vs -> P c /\ h root = S (h c)) by (intros c Hc; exact (Hi root ks vs c HP Hin Hc)). clear Hin Ec.
    induction vs as [|v vs IHv]; [discriminate|]. destruct (existsb _ _); [apply IHv; auto; intros c Hc; apply HC; right; exact Hc|].
    destruct (get_depth eng fuel (path ++ [v]) v false) as [k|] eqn:Eg; [|apply IHv; auto; intros c Hc; apply HC; right; exact Hc].
    destruct (HC v (or_introl eq_refl)) as [Pv Ev]. rewrite Ev, (IH _ _ _ _ Pv Eg). congruence.
  - assert (n = 0%nat) by congruence. subst n. apply Hl; auto. unfold leaf_on. rewrite Ed, (leaf_root_free _ _ _ _ _ _ Ec). discriminate.
Qed.

(** ** Reading *)
Definition cmap (nr : N) (s : wsm) : Prop := wcapped s /\ 2 <= wmax s /\ wsm_nr s = nr /\ wrestr s = false.
Lemma seen_step nr s x : cmap nr s -> x < W32 -> let '(s', r) := is_seen x s in
  cmap nr s' /\ wmax s' = wmax s /\ (forall b, b < nr -> wcount s' b = N.min (wmax s) (wcount s b + occurrences b [x])) /\
  (forall seen, r = Ok seen -> x < nr /\ (seen = false -> wcount s x = 0)).
Proof.
  intros (C1 & C2 & C3 & C4) Lx. destruct (inc_one s x ltac:(unfold W32 in Lx; unfold W64; lia) C1) as (A1 & A2 & A3 & A4).
  assert (HC : forall b, b < nr -> wcount (fst (wsm_inc s x 1)) b = N.min (wmax s) (wcount s b + occurrences b [x])).
  { intros b Hb. rewrite A4. rewrite occ_cons. change (occurrences b []) with 0. rewrite <- C3 in Hb. specialize (C1 b Hb). destruct (N.eqb_spec b x) as [E|E]; cbn [andb]; [|lia].
    subst x. replace (b <? wsm_nr s) with true by (symmetry; apply N.ltb_lt; lia). lia. }
  assert (HR : snd (wsm_inc s x 1) = Ok tt -> x < nr).
  { destruct s as [s|s]; [|discriminate]. cbn [wsm_inc wsm_nr] in *. unfold sm_inc. rewrite N.mod_small by (unfold W32 in Lx; unfold W64; lia).
    destruct (N.ltb_spec (sm_nr s) (x + 1)) as [L|L]; [discriminate|lia]. }
  assert (HW : wrestr (fst (wsm_inc s x 1)) = false) by (destruct s as [s|s]; [cbn [wsm_inc]; destruct (sm_inc s x 1); reflexivity|discriminate]).
  unfold is_seen. destruct (wsm_inc s x 1) as [s' r]. cbn [fst snd] in *.
  assert (HM : cmap nr s' /\ wmax s' = wmax s) by (unfold cmap; conj; auto; congruence).
  destruct r as [[]| |]; (conj; [exact (proj1 HM)|exact (proj2 HM)|exact HC|]); intros seen E; try discriminate.
  specialize (HR eq_refl). split; [exact HR|]. intros ->. assert (E' : (1 <? match wsm_get s' x with Ok c => c | _ => 0 end) = false) by congruence. clear E. apply N.ltb_ge in E'.
  destruct s' as [s'|s']; [|discriminate]. cbn [wsm_get] in E'. unfold sm_get in E'. cbn [wsm_nr] in A1. rewrite A1, C3 in E'.
  replace (nr <=? x) with false in E' by (symmetry; apply N.leb_gt; exact HR).
  specialize (HC x HR). cbn [wcount] in HC. rewrite occ_cons, N.eqb_refl in HC. change (occurrences x []) with 0 in HC. lia.
Qed.

Definition added (nr : N) (s s' : wsm) (l : list N) : Prop :=
  cmap nr s' /\ wmax s' = wmax s /\ forall b, b < nr -> wcount s' b = N.min (wmax s) (wcount s b + occurrences b l).
Lemma added_nil nr s : cmap nr s -> added nr s s [].
Proof. intros H. unfold added. conj; auto. intros b Hb. change (occurrences b []) with 0. destruct H as (C1 & _ & C3 & _). rewrite <- C3 in Hb. specialize (C1 b Hb). lia. Qed.
Lemma added_trans nr s1 s2 s3 l l' : added nr s1 s2 l -> added nr s2 s3 l' -> added nr s1 s3 (l ++ l').
Proof.
  intros (A1 & A2 & A3) (B1 & B2 & B3). unfold added. conj; auto; [congruence|]. intros b Hb. rewrite B3, A3, A2, occ_app by exact Hb. lia.
Qed.
Lemma added_mono nr s s' l b : cmap nr s -> added nr s s' l -> b < nr -> wcount s b <= wcount s' b.
Proof. intros (C1 & _ & C3 & _) (_ & _ & A3) Hb. rewrite A3 by exact Hb. rewrite <- C3 in Hb. specialize (C1 b Hb). lia. Qed.

Lemma children_step nr last vs : forall s, cmap nr (fst s) -> (forall v, In v vs -> v < W32) ->
  match new_children last vs s with
  | Ok (s', l) => snd s' = snd s /\ added nr (fst s) (fst s') vs /\ incl l vs /\ (forall v, In v l -> v < nr) /\
      (last = false -> (forall v, In v vs -> nm_get_type (snd s) v <> NTLeaf) -> NoDup l /\ forall v, In v l -> wcount (fst s) v = 0)
  | _ => True
  end.
Proof.
  induction vs as [|v vs IH]; intros s HC Hv; cbn [new_children].
  - conj; [reflexivity|apply added_nil, HC|apply incl_refl|intros v []|]. intros _ _. split; [constructor|intros v []].
  - assert (Lv : v < W32) by (apply Hv; left; auto). rewrite (N.mod_small v W32 Lv). pose proof (seen_step nr (fst s) v HC Lv) as HS. destruct (is_seen v (fst s)) as [sm r].
    destruct HS as (S1 & S2 & S3 & S4). specialize (IH (sm, snd s) S1 (fun x Hx => Hv x (or_intror Hx))). cbn [fst snd] in IH.
    assert (HA : added nr (fst s) sm [v]) by (unfold added; auto).
    assert (Hback : forall x, x < nr -> wcount sm x = 0 -> wcount (fst s) x = 0 /\ x <> v).
    { intros x Hx E. rewrite S3 in E by exact Hx. rewrite occ_cons in E. change (occurrences x []) with 0 in E. destruct HC as (C1 & C2 & _). destruct (N.eqb_spec x v); split; try congruence; lia. }
    destruct r as [seen| |]; auto; cbv zeta.
    + destruct (new_children last vs (sm, snd s)) as [[s' l]| |]; cbn [bind]; auto. destruct IH as (I1 & I2 & I3 & I4 & I5). cbn [snd].
      destruct (S4 seen eq_refl) as [Lvn Hseen].
      assert (HA' : added nr (fst s) (fst s') (v :: vs)) by exact (added_trans nr _ _ _ [v] vs HA I2).
      destruct (negb seen || _) eqn:Ek.
      * conj; auto; [intros x [<-|Hx]; [left; auto|right; auto]|intros x [<-|Hx]; auto|]. intros -> Hnl.
        destruct (I5 eq_refl (fun x Hx => Hnl x (or_intror Hx))) as [N1 N2].
        assert (seen = false). { destruct seen; [|reflexivity]. exfalso. cbn [negb orb] in Ek. specialize (Hnl v (or_introl eq_refl)). destruct (nm_get_type (snd s) v); discriminate || congruence. }
        split.
        -- constructor; [|exact N1]. intros Hx. exact (proj2 (Hback v Lvn (N2 v Hx)) eq_refl).
        -- intros x [<-|Hx]; [auto|]. exact (proj1 (Hback x (I4 x Hx) (N2 x Hx))).
      * conj; auto; [apply incl_tl, I3|]. intros -> Hnl. destruct (I5 eq_refl (fun x Hx => Hnl x (or_intror Hx))) as [N1 N2]. split; [exact N1|].
        intros x Hx. exact (proj1 (Hback x (I4 x Hx) (N2 x Hx))).
    + destruct (new_children last vs (sm, snd s)) as [[s' l]| |]; auto. destruct IH as (I1 & I2 & I3 & I4 & I5).
      conj; auto; [exact (added_trans nr _ _ _ [v] vs HA I2)|apply incl_tl, I3|]. intros -> Hnl.
      destruct (I5 eq_refl (fun x Hx => Hnl x (or_intror Hx))) as [N1 N2]. split; [exact N1|]. intros x Hx. exact (proj1 (Hback x (I4 x Hx) (N2 x Hx))).
Qed.

Lemma children_ok nr last vs s s' l : cmap nr (fst s) -> (forall v, In v vs -> v < W32) -> new_children last vs s = Ok (s', l) ->
  snd s' = snd s /\ added nr (fst s) (fst s') vs /\ incl l vs /\ (forall v, In v l -> v < nr) /\
  (last = false -> (forall v, In v vs -> nm_get_type (snd s) v <> NTLeaf) -> NoDup l /\ forall v, In v l -> wcount (fst s) v = 0).
Proof. intros H1 H2 E. pose proof (children_step nr last vs s H1 H2) as H. rewrite E in H. exact H. Qed.

Section Read.
Context (nr : N) (eng : N -> option (list N)) (inf : bool) (P : N -> Prop) (h : N -> nat).
Hypothesis Hdev : device_of nr eng.
Hypothesis Hptr : small_pointers eng inf.
Hypothesis Pdown : forall b ks cs c, P b -> inner_on eng inf b = Some (ks, cs) -> In c cs -> P c.
Hypothesis Hh : forall b ks cs c, P b -> inner_on eng inf b = Some (ks, cs) -> In c cs -> h b = S (h c).

Lemma step_types (m m' : nmap) op : NI nr eng inf P m -> nm_step m op = Ok m' ->
  op_block op < nr /\ accepts (nm_get_type m (op_block op)) (op_type op) = true /\ forall y, nm_get_type m' y = if y =? op_block op then op_type op else nm_get_type m y.
Proof using Hdev Hptr Pdown Hh.
  intros HN E. pose proof (step_within nr eng inf Hdev Hptr P Pdown m m' op HN E) as L. split; [exact L|].
  destruct HN as (c & hi & he & Hm & _). pose proof (nm_step_inv nr c hi he m op (proj1 Hdev) L Hm) as S1. rewrite (nm_get_type_inv _ _ _ _ _ _ Hm).
  destruct (accepts _ _); [|congruence]. destruct S1 as (m2 & E2 & H2). assert (m2 = m') by congruence. subst m2. split; [reflexivity|].
  intros y. rewrite (nm_get_type_inv _ _ _ _ _ _ H2), (nm_get_type_inv _ _ _ _ _ _ Hm). reflexivity.
Qed.
Lemma step_err (m : nmap) op : NI nr eng inf P m -> op_block op < nr -> nm_get_type m (op_block op) = NTNone -> exists m', nm_step m op = Ok m'.
Proof using Hdev Hptr Pdown Hh.
  intros (c & hi & he & Hm & _) L E. pose proof (nm_step_inv nr c hi he m op (proj1 Hdev) L Hm) as S1. rewrite (nm_get_type_inv _ _ _ _ _ _ Hm) in E. rewrite E in S1.
  cbn [accepts] in S1. destruct S1 as (m' & E' & _). eauto.
Qed.

(** [R]: the internal nodes read so far *)
Definition St (s : rst) (R : list N) : Prop :=
  NI nr eng inf P (snd s) /\ cmap nr (fst s) /\ NoDup R /\
  (forall x, In x R <-> nm_get_type (snd s) x = NTInternal) /\
  (forall x, nm_get_type (snd s) x = NTLeaf -> h x = 0%nat) /\
  (forall x, nm_get_type (snd s) x <> NTNone -> 0 < wcount (fst s) x).
Definition kids (x : N) : list N := match inner_on eng inf x with Some (_, cs) => cs | None => [] end.
(** the types of the nodes above the leaves that were known stay *)
Definition frame (s s' : rst) (ex : N -> Prop) : Prop :=
  forall x, x < nr -> h x <> 0%nat -> 0 < wcount (fst s) x -> ~ ex x -> nm_get_type (snd s') x = nm_get_type (snd s) x.

Lemma NI_range (m : nmap) x : NI nr eng inf P m -> nm_get_type m x <> NTNone -> x < nr.
Proof using Hdev Hptr Pdown Hh.
  intros (c & hi & he & Hm & _) H. rewrite (nm_get_type_inv _ _ _ _ _ _ Hm) in H. destruct (N.lt_ge_cases x nr) as [L|L]; [exact L|]. exfalso. apply H. exact (ni_out _ _ _ _ _ Hm x L).
Qed.
Lemma St_added s s' l R : St s R -> snd s' = snd s -> added nr (fst s) (fst s') l -> St s' R.
Proof using Hdev Hptr Pdown Hh.
  intros (I1 & I2 & I3 & I4 & I5 & I6) E A. unfold St. rewrite E. conj; auto; [apply A|]. intros x Hx. specialize (I6 x Hx).
  pose proof (added_mono nr _ _ _ x I2 A (NI_range _ x I1 Hx)). lia.
Qed.
(** an insertion that is not of an internal node *)
Lemma St_ins s s' R op : St s R -> op_type op <> NTInternal -> P (op_block op) -> (op_type op = NTLeaf -> h (op_block op) = 0%nat) -> 0 < wcount (fst s) (op_block op) ->
  ins s (nm_step (snd s) op) = Ok s' -> (nm_get_type (snd s) (op_block op) <> NTNone -> op_type op = NTLeaf) -> St s' R /\ fst s' = fst s /\
  forall y, nm_get_type (snd s') y = nm_get_type (snd s) y \/ y = op_block op.
Proof using Hdev Hptr Pdown Hh.
  intros (I1 & I2 & I3 & I4 & I5 & I6) Ht HP Hl Hc E Hold. pose proof (NI_step nr eng inf Hdev Hptr P Pdown (snd s) op I1 HP) as HN.
  destruct (nm_step (snd s) op) as [m'| |] eqn:Es; unfold ins in E; try discriminate.
  - apply Ok_inj in E. subst s'. destruct (step_types (snd s) m' op I1 Es) as (L & Ha & HT). cbn [fst snd].
    assert (HNn : nm_get_type (snd s) (op_block op) = NTNone).
    { destruct (nm_get_type (snd s) (op_block op)) eqn:Et; auto; rewrite (Hold ltac:(discriminate)) in Ha; discriminate. }
    unfold St. cbn [fst snd]. conj; auto.
    + apply HN. intros b x ->. exfalso. apply Ht. reflexivity.
    + intros x. rewrite HT, I4. destruct (N.eqb_spec x (op_block op)) as [Ex|Ex]; [|tauto]. subst x. rewrite HNn. split; [discriminate|contradiction].
    + intros x. rewrite HT. destruct (N.eqb_spec x (op_block op)) as [Ex|Ex]; [subst x; auto|auto].
    + intros x. rewrite HT. destruct (N.eqb_spec x (op_block op)) as [Ex|Ex]; [subst x; auto|auto].
    + intros y. rewrite HT. destruct (N.eqb_spec y (op_block op)); auto.
  - apply Ok_inj in E. subst s'. unfold St. conj; auto.
Qed.
Lemma leaves_step vs : forall s s' R, St s R -> (forall v, In v vs -> v < W32 /\ P v /\ h v = 0%nat /\ 0 < wcount (fst s) v) -> insert_leaves vs s = Ok s' ->
  St s' R /\ fst s' = fst s /\ forall y, h y <> 0%nat -> nm_get_type (snd s') y = nm_get_type (snd s) y.
Proof using Hdev Hptr Pdown Hh.
  induction vs as [|v vs IH]; intros s s' R HS Hv E; cbn [insert_leaves] in E; [apply Ok_inj in E; subst; auto|].
  destruct (Hv v (or_introl eq_refl)) as (V1 & V2 & V3 & V4). rewrite N.mod_small in E by exact V1. inv_bind E.
  destruct (St_ins s a R (OpLeaf v) HS ltac:(discriminate) V2 (fun _ => V3) V4 E0 (fun _ => eq_refl)) as (S1 & S2 & S3).
  destruct (IH a s' R S1) as (T1 & T2 & T3); [intros x Hx; rewrite S2; apply Hv; right; exact Hx|exact E|].
  conj; [exact T1|congruence|]. intros y Hy. rewrite T3 by exact Hy. destruct (S3 y) as [E1|E1]; [exact E1|]. cbn [op_block] in E1. subst y. congruence.
Qed.

Lemma read_step depth : forall b data s s' R, eng b = Some data -> P b -> h b = S depth -> St s R -> nm_get_type (snd s) b = NTNone -> 0 < wcount (fst s) b ->
  read_node eng inf depth b data s = Ok s' ->
  exists R', St s' (R ++ R') /\ added nr (fst s) (fst s') (flat_map kids R') /\ frame s s' (eq b).
Proof using Hdev Hptr Pdown Hh.
  induction depth as [|depth IH]; intros b data s s' R Hb HPb Hhb HS HT HCb E; cbn [read_node] in E;
    (destruct (proj2 Hdev b data Hb) as [Lb _]; pose proof (proj1 Hdev) as Lnr; assert (Hbm : b mod W32 = b) by (apply N.mod_small; unfold W32; lia); rewrite Hbm in E;
     destruct (check_and_unpack_node u64_codec (mkblock b data) inf true) as [[hd ks vs|hd ks vs]| |] eqn:Ec; try discriminate;
     [|apply Ok_inj in E; subst s'; exists []; rewrite app_nil_r; cbn [flat_map]; conj; [exact HS|apply added_nil, HS|intros x _ _ _ _; reflexivity]
      |destruct (St_ins s s' R (OpError b tt) HS ltac:(discriminate) HPb ltac:(discriminate) HCb E ltac:(cbn [op_block]; intros X; congruence)) as (S1 & S2 & S3); exists []; rewrite app_nil_r; cbn [flat_map];
       conj; [exact S1|rewrite S2; apply added_nil, HS|intros x _ _ _ Hx; destruct (S3 x) as [X|X]; [exact X|cbn [op_block] in X; subst; contradiction Hx; reflexivity]]]).
  all: assert (Hin : inner_on eng inf b = Some (ks, vs)) by (unfold inner_on; rewrite Hb, Ec; reflexivity).
  all: assert (Hmap : map (fun v => v mod W32) vs = vs) by
    (rewrite <- (map_id vs) at 2; apply map_ext_in; intros v Hv; apply N.mod_small; exact (Hptr b ks vs v Hin Hv)).
  all: assert (Hch : forall v, In v vs -> v < W32 /\ P v /\ S (h v) = h b) by
    (intros v Hv; conj; [exact (Hptr b ks vs v Hin Hv)|exact (Pdown b ks vs v HPb Hin Hv)|symmetry; exact (Hh b ks vs v HPb Hin Hv)]).
  all: rewrite Hmap in E; inv_bind E; rename a into s1; rename E0 into Ei.
  all: pose proof HS as (I1 & I2 & I3 & I4 & I5 & I6).
  all: destruct (step_err (snd s) (OpInternal b (ks, vs)) I1 Lb HT) as [m1 Em]; pose proof (step_types (snd s) m1 _ I1 Em) as (_ & _ & HTy); cbn [op_block op_type] in HTy;
    pose proof (NI_step nr eng inf Hdev Hptr P Pdown (snd s) (OpInternal b (ks, vs)) I1 HPb ltac:(intros b' x Eq; injection Eq as <- <-; exact Hin)) as HN1; rewrite Em in HN1;
    cbn [nm_step] in Em; rewrite Em in Ei; unfold ins in Ei; apply Ok_inj in Ei; subst s1.
  all: assert (Hnin : ~ In b R) by (intros X; apply I4 in X; congruence).
  all: assert (HS1 : St (fst s, m1) (R ++ [b])) by (
    unfold St; cbn [fst snd]; conj; auto;
    [apply NoDup_app_iff_local; conj; [exact I3|constructor; [intros []|constructor]|intros x Hx [<-|[]]; contradiction]
    |intros x; rewrite in_app_iff, HTy, I4; cbn [In]; destruct (N.eqb_spec x b) as [Ex|Ex]; [subst; tauto|]; split; [intros [?|[?|[]]]; [assumption|congruence]|auto]
    |intros x; rewrite HTy; destruct (N.eqb_spec x b); [discriminate|auto]
    |intros x; rewrite HTy; destruct (N.eqb_spec x b); [subst; auto|auto]]).
  - inv_bind E. destruct a as [s2 l]. pose proof (children_ok nr true vs (fst s, m1) s2 l I2 (fun v Hv => proj1 (Hch v Hv)) E0) as HC.
    cbn [fst snd] in HC. destruct HC as (C1 & C2 & C3 & C4 & _).
    pose proof (St_added _ s2 vs _ HS1 C1 C2) as HS2.
    assert (Hlv : forall v, In v l -> v < W32 /\ P v /\ h v = 0%nat /\ 0 < wcount (fst s2) v).
    { intros v Hv. pose proof (C3 v Hv) as Hv'. destruct (Hch v Hv') as (V1 & V2 & V3). conj; auto; [lia|]. destruct C2 as (_ & _ & C2). rewrite C2 by auto. pose proof (occ_in v vs Hv'). destruct I2 as (_ & ? & _). lia. }
    destruct (leaves_step l s2 s' _ HS2 Hlv E) as (T1 & T2 & T3).
    exists [b]. cbn [flat_map]. rewrite app_nil_r. unfold kids at 1. rewrite Hin. conj; [exact T1|rewrite T2; exact C2|].
    intros x _ H0 _ Hx. rewrite T3 by exact H0. rewrite C1. cbn [snd]. rewrite HTy. destruct (N.eqb_spec x b); [subst; contradiction Hx; reflexivity|reflexivity].
  - inv_bind E. destruct a as [s2 l]. pose proof (children_ok nr false vs (fst s, m1) s2 l I2 (fun v Hv => proj1 (Hch v Hv)) E0) as HC.
    cbn [fst snd] in HC. destruct HC as (C1 & C2 & C3 & C4 & C5).
    destruct (C5 eq_refl) as [N1 N2].
    { intros v Hv Ht. destruct (Hch v Hv) as (_ & _ & V3). rewrite HTy in Ht. destruct (N.eqb_spec v b); [discriminate|]. specialize (I5 v Ht). lia. }
    pose proof (St_added _ s2 vs _ HS1 C1 C2) as HS2.
    assert (Hty2 : forall v, In v l -> nm_get_type (snd s2) v = NTNone).
    { intros v Hv. rewrite C1. cbn [snd]. rewrite HTy. destruct (N.eqb_spec v b) as [Ev|Ev]; [subst v; specialize (N2 b Hv); lia|].
      destruct (nm_get_type (snd s) v) eqn:Et; auto; exfalso; assert (X : 0 < wcount (fst s) v) by (apply I6; congruence); specialize (N2 v Hv); lia. }
    assert (Hc2 : forall v, In v l -> 0 < wcount (fst s2) v).
    { intros v Hv. destruct C2 as (_ & _ & C2). rewrite C2 by auto. pose proof (occ_in v vs (C3 v Hv)). destruct I2 as (_ & ? & _). lia. }
    assert (HG : forall s2 R, St s2 R -> (forall v, In v l -> nm_get_type (snd s2) v = NTNone /\ 0 < wcount (fst s2) v) -> forall s',
      (fix go (vs : list N) (s : rst) : res rst := match vs with [] => Ok s | v :: vs => s <- match eng v with Some data => read_node eng inf depth v data s | None => ins s (nm_insert_error (snd s) (v mod W32) tt) end ;; go vs s end) l s2 = Ok s' ->
      exists R', St s' (R ++ R') /\ added nr (fst s2) (fst s') (flat_map kids R') /\ frame s2 s' (fun x => In x l)).
    { clear s' s2 E E0 C1 C2 C5 HS2 Hty2 Hc2 HS1 HN1 HTy N2 Em. clear s I1 I2 I3 I4 I5 I6 HS HT HCb m1 Hnin R. revert C3 N1 C4. induction l as [|v l IHl]; intros Hl HND Hln s2 R HS2 Hty s' E.
      - apply Ok_inj in E. subst s'. exists []. rewrite app_nil_r. cbn [flat_map]. conj; [exact HS2|apply added_nil, HS2|intros x _ _ _ _; reflexivity].
      - inversion HND as [|? ? Hv0 HND']; subst. pose proof (Hl v (or_introl eq_refl)) as Hv. destruct (Hch v Hv) as (V1 & V2 & V3). destruct (Hty v (or_introl eq_refl)) as [V4 V5]. inv_bind E.
        assert (X : exists R1, St a (R ++ R1) /\ added nr (fst s2) (fst a) (flat_map kids R1) /\ frame s2 a (eq v)).
        { destruct (eng v) as [dv|] eqn:Ev; [exact (IH v dv s2 a R Ev V2 ltac:(lia) HS2 V4 V5 E0)|]. rewrite N.mod_small in E0 by exact V1.
          destruct (St_ins s2 a R (OpError v tt) HS2 ltac:(discriminate) V2 ltac:(discriminate) V5 E0 ltac:(cbn [op_block]; intros X; congruence)) as (S1 & S2 & S3).
          exists []. rewrite app_nil_r. cbn [flat_map]. conj; [exact S1|rewrite S2; apply added_nil, HS2|].
          intros x _ _ _ Hx. destruct (S3 x) as [X|X]; [exact X|]. cbn [op_block] in X. subst. contradiction Hx. reflexivity. }
        destruct X as (R1 & X1 & X2 & X3). pose proof HS2 as (_ & Hcm & _).
        destruct (IHl (fun x Hx => Hl x (or_intror Hx)) HND' (fun x Hx => Hln x (or_intror Hx)) a (R ++ R1) X1) with (s' := s') as (R2 & Y1 & Y2 & Y3); [|exact E|].
        { intros x Hx. destruct (Hty x (or_intror Hx)) as [Z1 Z2]. pose proof (Hl x (or_intror Hx)) as Hxv. destruct (Hch x Hxv) as (_ & _ & Z3). split.
          - rewrite X3; [exact Z1|exact (Hln x (or_intror Hx))|lia|exact Z2|]. intros <-. contradiction.
          - pose proof (added_mono nr _ _ _ x Hcm X2 (Hln x (or_intror Hx))). lia. }
        exists (R1 ++ R2). rewrite app_assoc, flat_map_app. conj; [exact Y1|exact (added_trans _ _ _ _ _ _ X2 Y2)|].
        intros x Lx H0 H1 Hx. assert (x <> v) by (intros ->; apply Hx; left; auto). assert (~ In x l) by (intros Z; apply Hx; right; auto).
        rewrite Y3, X3; auto; try congruence. pose proof (added_mono nr _ _ _ x Hcm X2 Lx). lia. }
    destruct (HG s2 (R ++ [b]) HS2 (fun v Hv => conj (Hty2 v Hv) (Hc2 v Hv)) s' E) as (R' & G1 & G2 & G3).
    exists (b :: R'). rewrite <- app_assoc in G1. cbn [app flat_map] in *. unfold kids at 1. rewrite Hin. conj; [exact G1|exact (added_trans _ _ _ _ _ _ C2 G2)|].
    intros x Lx H0 H1 Hx. rewrite G3; [rewrite C1; cbn [snd]; rewrite HTy; destruct (N.eqb_spec x b); [subst; contradiction Hx; reflexivity|reflexivity]|exact Lx|exact H0| |].
    + pose proof (added_mono nr _ _ _ x I2 C2 Lx). cbn [fst] in *. lia.
    + intros Hxl. specialize (N2 x Hxl). lia.
Qed.

Lemma added_occ s s' l l' : (forall b, occurrences b l = occurrences b l') -> added nr s s' l -> added nr s s' l'.
Proof using. intros H (A1 & A2 & A3). unfold added. conj; auto. intros b Hb. rewrite <- H. auto. Qed.
Hypothesis Hdepth : forall r n, P r -> get_depth eng (S (S (N.to_nat nr))) [] r true = Some n -> h r = n.
Lemma root_step r s s' R : P r -> r < W32 -> St s R -> read_internal_nodes nr eng inf r s = Ok s' ->
  exists R', St s' (R ++ R') /\ added nr (fst s) (fst s') ([r] ++ flat_map kids R').
Proof using Hdev Hptr Pdown Hh Hdepth.
  intros HP Lr HS E. pose proof HS as (I1 & I2 & I3 & I4 & I5 & I6). unfold read_internal_nodes in E. pose proof (seen_step nr (fst s) r I2 Lr) as X.
  destruct (is_seen r (fst s)) as [sm x]. destruct X as (X1 & X2 & X3 & X4). assert (HA : added nr (fst s) sm [r]) by (unfold added; auto).
  assert (HS1 : St (sm, snd s) R) by exact (St_added s (sm, snd s) [r] R HS eq_refl HA).
  assert (H0 : forall s', St s' R -> fst s' = sm -> exists R', St s' (R ++ R') /\ added nr (fst s) (fst s') ([r] ++ flat_map kids R')).
  { intros s2 HS2 E2. exists []. rewrite app_nil_r. cbn [flat_map]. rewrite app_nil_r, E2. auto. }
  destruct x as [[|]| |]; try discriminate; try (apply Ok_inj in E; subst s'; apply H0; auto; fail).
  destruct (X4 false eq_refl) as [Ln Hz]. specialize (Hz eq_refl).
  assert (HT : nm_get_type (snd s) r = NTNone). { destruct (nm_get_type (snd s) r) eqn:Et; auto; exfalso; assert (X : 0 < wcount (fst s) r) by (apply I6; congruence); lia. }
  assert (HC : 0 < wcount (fst (sm, snd s)) r). { cbn [fst]. rewrite X3 by exact Ln. rewrite occ_cons, N.eqb_refl. destruct I2 as (_ & ? & _). lia. }
  destruct (get_depth eng (S (S (N.to_nat nr))) [] r true) as [[|depth]|] eqn:Eg.
  - pose proof (Hdepth r _ HP Eg) as Eh.
    destruct (St_ins (sm, snd s) s' R (OpLeaf r) HS1 ltac:(discriminate) HP (fun _ => Eh) HC E (fun _ => eq_refl)) as (S1 & S2 & _). apply H0; auto.
  - pose proof (Hdepth r _ HP Eg) as Eh. destruct (eng r) as [data|] eqn:Ed.
    + destruct (read_step depth r data (sm, snd s) s' R Ed HP Eh HS1 HT HC E) as (R' & Y1 & Y2 & _). exists R'. split; [exact Y1|exact (added_trans _ _ _ _ _ _ HA Y2)].
    + destruct (St_ins (sm, snd s) s' R (OpError r tt) HS1 ltac:(discriminate) HP ltac:(discriminate) HC E ltac:(cbn [op_block snd]; intros X; congruence)) as (S1 & S2 & _). apply H0; auto.
  - apply Ok_inj in E. subst s'. apply H0; auto.
Qed.
Lemma roots_step roots : forall s s' R, (forall r, In r roots -> P r /\ r < W32) -> St s R -> read_roots nr eng inf roots s = Ok s' ->
  exists R', St s' (R ++ R') /\ added nr (fst s) (fst s') (roots ++ flat_map kids R').
Proof using Hdev Hptr Pdown Hh Hdepth.
  induction roots as [|r roots IH]; intros s s' R HR HS E; cbn [read_roots] in E.
  - apply Ok_inj in E. subst s'. exists []. rewrite app_nil_r. cbn [flat_map app]. split; [exact HS|apply added_nil, HS].
  - destruct (HR r (or_introl eq_refl)) as [HP Lr]. rewrite (N.mod_small r W32 Lr) in E. inv_bind E.
    destruct (root_step r s a R HP Lr HS E0) as (R1 & A1 & A2). destruct (IH a s' (R ++ R1) (fun x Hx => HR x (or_intror Hx)) A1 E) as (R2 & B1 & B2).
    exists (R1 ++ R2). rewrite app_assoc. split; [exact B1|]. eapply added_occ; [|exact (added_trans _ _ _ _ _ _ A2 B2)].
    intros b. rewrite flat_map_app. cbn [app]. rewrite ?occ_app, ?occ_cons, ?occ_app. lia.
Qed.
Lemma collect_step roots sm sm' nodes : (forall r, In r roots -> P r /\ r < W32) -> cmap nr sm -> collect_nodes_in_use nr eng inf roots sm = Ok (sm', nodes) ->
  exists R, St (sm', nodes) R /\ added nr sm sm' (roots ++ flat_map kids R).
Proof using Hdev Hptr Pdown Hh Hdepth.
  intros HR HC E. unfold collect_nodes_in_use in E. rewrite N.mod_small in E by exact (proj1 Hdev).
  destruct (roots_step roots (sm, nm_new nr) (sm', nodes) [] HR) with (2 := E) as (R & A1 & A2); [|exists R; auto].
  assert (HT : forall x, nm_get_type (nm_new nr : nmap) x = NTNone) by (intros x; rewrite (nm_get_type_inv _ _ _ _ _ _ (nm_new_inv nr)); reflexivity).
  unfold St. cbn [fst snd]. conj; auto.
  - eexists _, _, _. split; [apply nm_new_inv|split; [constructor|intros b H; congruence]].
  - constructor.
  - intros x. rewrite HT. split; [intros []|discriminate].
  - intros x. rewrite HT. discriminate.
  - intros x. rewrite HT. congruence.
Qed.
Lemma St_inner s R x : St s R -> (In x R <-> inner_of (snd s) x <> None) /\ (forall y, inner_of (snd s) x = Some y -> inner_on eng inf x = Some y) /\ (In x R -> P x).
Proof using Hdev Hptr Pdown.
  intros (I1 & _ & _ & I4 & _). conj.
  - rewrite I4. destruct I1 as (c & hi & he & Hm & _). rewrite (inner_of_inv nr eng inf Hdev Hptr P Pdown c hi he _ x Hm), (nm_get_type_inv _ _ _ _ _ _ Hm). split.
    + intros E. rewrite E. apply (ni_ikeys _ _ _ _ _ Hm) in E. unfold last_value. destruct (find _ _) eqn:Ef; [discriminate|]. exfalso.
      apply in_map_iff in E. destruct E as ([b y] & <- & Hin). apply in_rev in Hin. apply (find_none _ _ Ef (b, y)) in Hin. cbn [fst] in Hin. rewrite N.eqb_refl in Hin. discriminate.
    + destruct (c x); congruence.
  - intros y. exact (NI_inner nr eng inf Hdev Hptr P Pdown _ x y I1).
  - rewrite I4. intros E. destruct I1 as (c & hi & he & Hm & _ & HQ). apply HQ. rewrite <- (nm_get_type_inv _ _ _ _ _ _ Hm), E. discriminate.
Qed.
End Read.

(** ** Trees with parts left out *)
Section Part2.
Context (leaf leaf' : N -> option (list N)) (inner inner' : N -> option (list N * list N)).
Hypothesis Hl : forall b ks, leaf' b = Some ks -> leaf b = Some ks.
Hypothesis Hi : forall b x, inner' b = Some x -> inner b = Some x.
Hypothesis Hd : forall b ks, leaf b = Some ks -> inner b = None.
Lemma less_holds : forall b keys, holds leaf inner b keys -> exists keys', holds leaf' inner' b keys' /\ nlen keys' <= nlen keys.
Proof using Hl Hi Hd.
  fix IH 3. intros b keys H0. destruct H0 as [b0 ks H|b0 ks cs kss H1 H2 HF|b0 H1 H2].
  - destruct (leaf' b0) as [ks'|] eqn:E.
    + exists ks'. split; [apply holds_leaf; auto|]. apply Hl in E. assert (ks' = ks) by congruence. subst. lia.
    + exists []. split; [|unfold nlen; cbn [length]; lia]. apply holds_none; auto. destruct (inner' b0) as [x|] eqn:E'; [|auto]. apply Hi in E'. apply Hd in H. congruence.
  - assert (E0 : leaf' b0 = None) by (destruct (leaf' b0) as [x|] eqn:E; [apply Hl in E; congruence|auto]).
    destruct (inner' b0) as [x|] eqn:E; [|exists []; split; [apply holds_none; auto|unfold nlen; cbn [length]; lia]].
    pose proof (Hi _ _ E) as E1. assert (x = (ks, cs)) by congruence. subst x.
    assert (A : exists kss', Forall2 (holds leaf' inner') cs kss' /\ nlen (concat kss') <= nlen (concat kss)).
    { clear - IH HF. induction HF as [|c kk cs kss Hc HF IHF]; [exists []; split; [constructor|lia]|]. destruct IHF as (kss' & A & B).
      destruct (IH c kk Hc) as (kk' & C & D). exists (kk' :: kss'). split; [constructor; auto|]. unfold nlen in *. cbn [concat]. rewrite !app_length. lia. }
    destruct A as (kss' & A & B). exists (concat kss'). split; [|exact B]. eapply holds_inner; eauto.
  - exists []. split; [|lia]. apply holds_none; [destruct (leaf' b0) as [x|] eqn:E; [apply Hl in E; congruence|auto]|destruct (inner' b0) as [x|] eqn:E; [apply Hi in E; congruence|auto]].
Qed.
Lemma whole_under f : forall root keys, sound leaf' inner' f root keys -> forall b, under inner root b -> inner b <> None -> inner' b <> None.
Proof using Hl Hi Hd.
  fix IH 3. intros root keys H0 b Hu. destruct H0 as [b0 ks H Hinc|b0 ks cs kss H1 H2 Hinc HF Hinc2 Hp Hf].
  - apply Hl, Hd in H. destruct Hu as [b0|b0 ks' cs' c b E]; [congruence|]. congruence.
  - destruct Hu as [b0|b0 ks' cs' c b E Hc Hu]; [congruence|].
    apply Hi in H2. assert (ks' = ks /\ cs' = cs) as [-> ->] by (split; congruence). clear - IH HF Hc Hu.
    induction HF as [|c0 kk cs kss S1 HF IHF]; [destruct Hc|]. destruct Hc as [<-|Hc]; [exact (IH _ _ S1 b Hu)|auto].
Qed.
End Part2.

(** What the map of an accepted pool counts. *)
Lemma accepted_counts nr eng inf fuel order roots h msm dsm msm' dsm' ss :
  device_of nr eng -> small_pointers eng inf -> (forall l, Permutation (order l) l) -> (forall r, In r roots -> r < W32) ->
  even_trees eng roots h -> cmap nr msm ->
  check_mappings_bottom_level nr eng inf fuel order roots msm dsm = (msm', dsm', Ok ss) ->
  exists R, NoDup R /\ (forall b, In b R -> inner_on eng inf b <> None /\ exists r, In r roots /\ under (inner_on eng inf) r b) /\
    (forall b, b < nr -> wcount msm' b = N.min (wmax msm) (wcount msm b + occurrences b roots + pointers eng inf R b)) /\
    forall id root details keys, mapped_ok ss (id, (root, details)) = true -> root < W32 ->
      holds (leaf_on eng inf) (inner_on eng inf) root keys -> dd_mapped details = nlen keys ->
      forall b, under (inner_on eng inf) root b -> inner_on eng inf b <> None -> In b R.
Proof.
  intros Hd Hp Ho Hr Hev HC H.
  set (P := fun b => exists r, In r roots /\ under (inner_on eng inf) r b).
  assert (Ht : forall (A B : N -> option (list N * list N)) b c ks cs x, (forall b x, A b = Some x -> B b = Some x) -> under A b c -> A c = Some (ks, cs) -> In x cs -> under A b x).
  { intros A B b c ks cs x _ Hu E Hx. induction Hu as [b|b ks' cs' c' b' E' Hc' Hu IH]; [eapply under_child; eauto; constructor|econstructor; eauto]. }
  assert (Pd : forall b ks cs c, P b -> inner_on eng inf b = Some (ks, cs) -> In c cs -> P c).
  { intros b ks cs c (r & Hin & Hu) E Hc. exists r. split; [auto|]. exact (Ht _ (inner_on eng inf) _ _ _ _ _ (fun _ _ X => X) Hu E Hc). }
  set (Q := fun b => exists r, In r roots /\ under (inner_on eng true) r b).
  assert (PQ : forall b, P b -> Q b).
  { intros b (r & Hin & Hu). exists r. split; [auto|]. clear - Hu. induction Hu as [b|b ks cs c b' E Hc Hu IH]; [constructor|]. apply inner_lenient in E. econstructor; eauto. }
  assert (Hh : forall b ks cs c, P b -> inner_on eng inf b = Some (ks, cs) -> In c cs -> h b = S (h c)).
  { intros b ks cs c HP E Hc. destruct (PQ b HP) as (r & Hin & Hu). apply inner_lenient in E. exact (proj2 (Hev r b Hin Hu) ks cs c E Hc). }
  assert (HD : forall r n, P r -> get_depth eng (S (S (N.to_nat nr))) [] r true = Some n -> h r = n).
  { intros r n HP. apply (depth_height eng h Q); [| |apply PQ, HP].
    - intros b ks cs c (r' & Hin & Hu) E Hc. split; [|exact (proj2 (Hev r' b Hin Hu) ks cs c E Hc)]. exists r'. split; [auto|]. exact (Ht _ (inner_on eng true) _ _ _ _ _ (fun _ _ X => X) Hu E Hc).
    - intros b (r' & Hin & Hu). exact (proj1 (Hev r' b Hin Hu)). }
  assert (HR : forall r, In r roots -> P r /\ r < W32) by (intros r Hin; split; [exists r; split; [auto|constructor]|auto]).
  unfold check_mappings_bottom_level in H. destruct (collect_nodes_in_use nr eng inf roots msm) as [[m1 nodes]| |] eqn:Ecol; try discriminate.
  destruct (collect_step nr eng inf P h Hd Hp Pd Hh HD roots msm m1 nodes HR HC Ecol) as (R & HS & HA). pose proof HS as (H1 & _ & HND & _). cbn [snd] in H1.
  assert (HL : forall b, In b (order (leaves_of nodes)) <-> In b (leaves_of nodes)) by (intros b; split; apply Permutation_in; [apply Ho|symmetry; apply Ho]).
  destruct (leaves_run nr eng inf Hd Hp P Pd (order (leaves_of nodes)) nodes dsm (fun _ => None)) as (m2 & d2 & s2 & E2 & N2 & N3 & S2 & D2).
  { intros b Hb. apply HL in Hb. destruct (NI_leaves nr eng inf Hd Hp P Pd nodes b H1 Hb) as (A & _ & B). auto. }
  { exact H1. }
  match type of H with context [read_leaves ?a ?b ?c ?d] => replace (read_leaves a b c d) with (Ok (m2, d2, s2) : res lst) in H by (symmetry; exact E2) end.
  destruct (count_mapped_blocks _ _ _ _ _) as [ss1|] eqn:Ec; [|discriminate].
  assert (ss1 = ss /\ d2 = dsm' /\ m1 = msm') as (-> & -> & ->) by (conj; congruence). clear H.
  set (L := leaves_of nodes) in *.
  assert (Hsub : forall b ks, leaf_in eng inf L b = Some ks -> leaf_on eng inf b = Some ks) by (intros b ks; unfold leaf_in; destruct (has L b); congruence).
  assert (Hin1 : forall b x, inner_of nodes b = Some x -> inner_on eng inf b = Some x) by (intros b x; apply (St_inner nr eng inf P h Hd Hp Pd _ R b HS)).
  assert (Hdj : forall b ks, leaf_on eng inf b = Some ks -> inner_on eng inf b = None) by exact (disjoint_nodes eng inf).
  assert (HI : Inv inf (leaf_in eng inf L) (inner_of nodes) ss).
  { eapply (count_inv m2 inf); [| | | | |exact Ec].
    - intros b x Hx. rewrite N3 in Hx. exact Hx.
    - intros b ks E. apply Hsub in E. apply Hdj in E. destruct (inner_of nodes b) as [x|] eqn:E'; [apply Hin1 in E'; congruence|reflexivity].
    - intros b ks E. apply Hsub in E. exact (leaf_facts nr eng inf Hd b ks E).
    - intros b ks cs E. apply Hin1 in E. exact (inner_facts nr eng inf Hd b ks cs E).
    - intros b s Hs. left. rewrite S2 in Hs. assert (EL : leaf_in eng inf (order L) b = leaf_in eng inf L b).
      { unfold leaf_in. destruct (has (order L) b) eqn:Eh, (has L b) eqn:Eh'; auto.
        - apply has_in in Eh. apply HL in Eh. apply has_in in Eh. congruence.
        - apply has_in in Eh'. apply HL in Eh'. apply has_in in Eh'. congruence. }
      rewrite EL in Hs. destruct (leaf_in eng inf L b) as [ks|]; [|discriminate]. exists ks. split; [auto|congruence]. }
  exists R. conj; auto.
  - intros b Hb. destruct (St_inner nr eng inf P h Hd Hp Pd _ R b HS) as (A1 & A2 & A3). cbn [snd] in *. split; [|exact (A3 Hb)].
    apply A1 in Hb. destruct (inner_of nodes b) as [x|]; [|congruence]. rewrite (A2 x eq_refl). discriminate.
  - intros b Hb. destruct HA as (_ & _ & HA). rewrite HA by exact Hb. rewrite occ_app. unfold pointers. f_equal. rewrite N.add_assoc. reflexivity.
  - intros id root details keys Hm Lroot Hk Eq b Hu Hb. unfold mapped_ok in Hm. rewrite (N.mod_small root W32 Lroot) in Hm.
    destruct (ss root) as [s|] eqn:Es; [|discriminate]. apply Bool.andb_true_iff in Hm. destruct Hm as [M1 M2]. apply N.eqb_eq in M1, M2.
    destruct (less_holds _ _ _ _ Hsub Hin1 Hdj _ _ Hk) as (keys' & Hk' & Hle).
    assert (S1 : s_nr s <= nlen keys' /\ (s_nr s = nlen keys' -> sound (leaf_in eng inf L) (inner_of nodes) (negb inf) root keys')).
    { destruct (HI root s Es) as [(ks & El & ->)|[_ J]].
      - assert (Hlf : forall b ks, leaf_in eng inf L b = Some ks -> increasing ks /\ nlen ks < 256) by (intros b0 ks0 E0; apply (leaf_facts nr eng inf Hd b0), Hsub, E0).
        destruct (leaf_justified inf (leaf_in eng inf L) (inner_of nodes) Hlf root ks El keys' Hk') as (-> & Z1 & _ & Z2 & _).
        rewrite Z2. split; [lia|auto].
      - destruct (J keys' Hk') as [J1 J2]. split; [exact J1|]. intros E. apply (J2 M1 E). }
    destruct S1 as [S1 S3]. specialize (S3 ltac:(lia)).
    pose proof (whole_under _ _ _ _ Hsub Hin1 Hdj _ _ _ S3 b Hu Hb) as X. apply (St_inner nr eng inf P h Hd Hp Pd _ R b HS). exact X.
Qed.
