From Coq Require Import String Ascii.
From Verif Require Import Base Csum_Model Codec_Model Utils_Model Utils_Spec Pack_Proofs.
Import ListNotations.
Open Scope N_scope.

(** ** RunIter *)
Lemma ri_extend_spec bits len b : forall fuel cur,
  N.of_nat fuel = len - cur -> cur <= len ->
  let e := ri_extend bits len b fuel cur in
  cur <= e <= len /\ (forall k, cur <= k < e -> bits k = b) /\ (e < len -> bits e <> b).
Proof.
  induction fuel; intros cur Hf Hc; cbn [ri_extend].
  - conj; try lia; intros; lia.
  - destruct (N.ltb_spec cur len); [|lia].
    destruct (Bool.eqb (bits cur) b) eqn:Eb; cbn [andb].
    + apply Bool.eqb_prop in Eb.
      destruct (IHfuel (cur + 1)) as [H1 [H2 H3]]; [lia|lia|].
      conj; try lia; auto.
      intros k Hk. destruct (N.eq_dec k cur) as [->|]; auto. apply H2; lia.
    + apply Bool.eqb_false_iff in Eb. conj; try lia; auto; intros; lia.
Qed.

Lemma ri_collect_spec bits len : forall fuel cur,
  (N.to_nat (len - cur) < fuel)%nat -> cur <= len ->
  tiles bits cur len (ri_collect_ fuel (mkri len cur bits)).
Proof.
  induction fuel; intros cur Hf Hc; [lia|].
  cbn [ri_collect_]. unfold ri_next. cbn [ri_current ri_len ri_bits].
  destruct (N.eqb_spec cur len); [auto|].
  destruct (ri_extend_spec bits len (bits cur) (N.to_nat (len - (cur + 1))) (cur + 1))
    as [H1 [H2 H3]]; [lia|lia|].
  set (e := ri_extend _ _ _ _ _) in *. cbn [tiles]. conj; auto; try lia.
  - intros k Hk. destruct (N.eq_dec k cur) as [->|]; auto. apply H2; lia.
  - destruct fuel as [|f]; [exact I|]. cbn [ri_collect_]. unfold ri_next. cbn [ri_current ri_len ri_bits].
    destruct (N.eqb_spec e len); [exact I|]. apply H3. lia.
  - apply IHfuel; lia.
Qed.

(** ** Lists *)
Lemma NoDup_app_iff_local {A} (l1 l2 : list A) :
  NoDup (l1 ++ l2) <-> NoDup l1 /\ NoDup l2 /\ (forall x, In x l1 -> ~ In x l2).
Proof.
  induction l1; simpl.
  - split; [intros; conj; auto; constructor|tauto].
  - rewrite !NoDup_cons_iff, IHl1, in_app_iff. split.
    + intros [H [H1 [H2 H3]]]. conj; auto. intros x [<-|Hx]; auto.
    + intros [[H H1] [H2 H3]]. conj; auto. intros [?|?]; auto. eapply H3; eauto.
Qed.

Lemma Forall2_impl_in {A B} (P Q : A -> B -> Prop) l l' :
  (forall a b, In a l -> P a b -> Q a b) -> Forall2 P l l' -> Forall2 Q l l'.
Proof.
  intros H HF. induction HF; constructor.
  - apply H; auto. left; auto.
  - apply IHHF. intros; apply H; auto. right; auto.
Qed.

(** ** HashVec *)
Lemma find_app {A} (f : A -> bool) a b :
  find f (a ++ b) = match find f a with Some x => Some x | None => find f b end.
Proof. induction a; simpl; auto. destruct (f a); auto. Qed.

Lemma last_value_snoc {T} (h : list (N * T)) k v k' :
  last_value (h ++ [(k, v)]) k' = if k' =? k then Some v else last_value h k'.
Proof.
  unfold last_value. rewrite rev_app_distr. simpl. rewrite N.eqb_sym.
  destruct (k' =? k); auto.
Qed.

Lemma last_value_none {T} (h : list (N * T)) k :
  last_value h k = None <-> ~ In k (map fst h).
Proof.
  unfold last_value. split.
  - intros H Hin. apply in_map_iff in Hin as [[k' v] [<- Hin]].
    destruct (find _ _) eqn:E; [discriminate|].
    eapply find_none in E; [|apply in_rev in Hin; exact Hin].
    simpl in E. rewrite N.eqb_refl in E. discriminate.
  - intros H. destruct (find _ _) eqn:E; auto. apply find_some in E as [Hin E].
    apply N.eqb_eq in E. subst. exfalso. apply H. apply in_map, in_rev. auto.
Qed.

Lemma nodup_bound (l : list N) n : NoDup l -> Forall (fun k => k < n) l -> nlen l <= n.
Proof.
  intros Hn Hf. unfold nlen.
  assert (length l <= length (nseq 0 (N.to_nat n)))%nat.
  { apply NoDup_incl_length; auto. intros x Hx. rewrite in_nseq.
    rewrite Forall_forall in Hf. specialize (Hf x Hx). lia. }
  rewrite nseq_length in H. lia.
Qed.

(** Invariant of a HashVec built by history [h]: [ks] are the keys in order of
    first insertion. *)
Definition hv_inv {T} (h : list (N * T)) (ks : list N) (v : hashvec T) : Prop :=
  NoDup ks /\ (forall k, In k ks <-> In k (map fst h)) /\
  Forall2 (fun k x => last_value h k = Some x) ks (hv_entries v) /\
  (forall k i, hv_map v k = Some i -> nth_error ks (N.to_nat i) = Some k) /\
  (forall k, hv_map v k = None <-> ~ In k (map fst h)).

Lemma Forall2_len {A B} (P : A -> B -> Prop) l l' : Forall2 P l l' -> length l = length l'.
Proof. induction 1; simpl; auto. Qed.

Lemma Forall2_set {A B} (P Q : A -> B -> Prop) (ks : list A) : forall (es : list B) i k v,
  Forall2 P ks es -> NoDup ks -> nth_error ks i = Some k ->
  (forall k' x, k' <> k -> P k' x -> Q k' x) -> Q k v ->
  Forall2 Q ks (firstn i es ++ v :: skipn (S i) es).
Proof.
  induction ks; intros es i k v HF Hn Hi HPQ Hq; [destruct i; discriminate|].
  inversion HF as [|? y ? es' Hp HF']; subst. inversion Hn as [|? ? Hni Hn']; subst.
  destruct i; simpl in *.
  - injection Hi as ->. constructor; auto.
    clear -HF' Hni HPQ. induction HF'; constructor.
    + apply HPQ; auto. intros ->. apply Hni. left; auto.
    + apply IHHF'. intros Hin; apply Hni; right; auto.
  - constructor.
    + apply HPQ; auto. intros ->. apply Hni. eapply nth_error_In; eauto.
    + eapply IHks; eauto.
Qed.

Lemma hv_insert_inv {T} (h : list (N * T)) ks v k x :
  Forall (fun p => fst p < W32) (h ++ [(k, x)]) -> hv_inv h ks v ->
  exists v' ks', hv_insert v k x = Ok v' /\ hv_inv (h ++ [(k, x)]) ks' v'.
Proof.
  intros Hb [Hn [Hin [HF [Hm Hmn]]]]. unfold hv_insert.
  assert (Hlv : forall k', k' <> k -> forall y, last_value h k' = Some y -> last_value (h ++ [(k, x)]) k' = Some y).
  { intros k' Hk y Hy. rewrite last_value_snoc. destruct (N.eqb_spec k' k); [contradiction|auto]. }
  destruct (hv_map v k) as [i|] eqn:E.
  - pose proof (Hm _ _ E) as Hi.
    assert (Hlt : i < nlen (hv_entries v)).
    { unfold nlen. rewrite <- (Forall2_len _ _ _ HF).
      assert (N.to_nat i < length ks)%nat by (apply nth_error_Some; congruence). lia. }
    unfold vec_set. apply N.ltb_lt in Hlt. rewrite Hlt. cbn [bind].
    assert (Hkin : In k (map fst h)).
    { apply Hin. eapply nth_error_In; eauto. }
    eexists _, ks. split; [reflexivity|]. unfold hv_inv. cbn [hv_map hv_entries]. conj; auto.
    + intros k'. rewrite map_app, in_app_iff. simpl. rewrite Hin. split; [auto|].
      intros [?|[<-|[]]]; auto.
    + apply (Forall2_set (fun k x => last_value h k = Some x) _ ks (hv_entries v) (N.to_nat i) k x); auto.
      * cbv beta. rewrite last_value_snoc, N.eqb_refl. auto.
    + intros k'. rewrite map_app, in_app_iff. simpl. rewrite Hmn. split.
      * intros H [?|[<-|[]]]; auto.
      * intros H ?; auto.
  - pose proof (proj1 (Hmn _) E) as Hk.
    assert (Hlen : nlen ks < W32).
    { assert (nlen (k :: ks) <= W32).
      { apply nodup_bound.
        - constructor; auto. rewrite Hin; auto.
        - apply Forall_app in Hb as [Hb1 Hb2]. inversion Hb2 as [|? ? Hb3 ?]; subst. constructor; [auto|].
          apply Forall_forall. intros y Hy. apply Hin in Hy. apply in_map_iff in Hy as [p [<- Hp]].
          rewrite Forall_forall in Hb1. apply (Hb1 _ Hp). }
      unfold nlen in *. cbn [length] in H. lia. }
    assert (Hle : nlen (hv_entries v ++ [x]) - 1 = nlen ks).
    { unfold nlen. rewrite app_length, <- (Forall2_len _ _ _ HF). simpl. lia. }
    rewrite Hle, N.mod_small by auto.
    eexists _, (ks ++ [k]). split; [reflexivity|].
    unfold hv_inv. cbn [hv_map hv_entries]. conj.
    + apply NoDup_app_iff_local. conj; auto.
      * constructor; [intros []|constructor].
      * intros y Hy [<-|[]]. apply Hk, Hin, Hy.
    + intros k'. rewrite map_app, !in_app_iff. simpl. rewrite Hin. tauto.
    + apply Forall2_app.
      * eapply Forall2_impl_in; [|exact HF]. cbv beta. intros k' y Hk' Hy. apply Hlv; auto.
        intros ->. apply Hk, Hin, Hk'.
      * constructor; [|constructor]. rewrite last_value_snoc, N.eqb_refl. auto.
    + intros k' i. destruct (N.eqb_spec k' k) as [->|Hne].
      * intros Hi. injection Hi as <-. rewrite nth_error_app2 by (unfold nlen; lia).
        unfold nlen. rewrite Nat2N.id, Nat.sub_diag. reflexivity.
      * intros Hi. specialize (Hm _ _ Hi). rewrite nth_error_app1; auto.
        apply nth_error_Some. congruence.
    + intros k'. rewrite map_app, in_app_iff. simpl. destruct (N.eqb_spec k' k) as [->|Hne].
      * split; [discriminate|]. intros H. exfalso. apply H. auto.
      * rewrite Hmn. split; [intros H [?|[?|[]]]; auto; congruence|tauto].
Qed.

Lemma hv_get_inv {T} (h : list (N * T)) ks v k :
  hv_inv h ks v -> hv_get v k = Ok (last_value h k).
Proof.
  intros [Hn [Hin [HF [Hm Hmn]]]]. unfold hv_get.
  destruct (hv_map v k) as [i|] eqn:E.
  - specialize (Hm _ _ E). unfold vec_get.
    assert (forall ks (es : list T) i, Forall2 (fun k x => last_value h k = Some x) ks es ->
      nth_error ks i = Some k -> exists x, nth_error es i = Some x /\ last_value h k = Some x) as Hg.
    { clear. intros ks es i HF. revert i. induction HF; intros [|i] Hi; try discriminate; simpl in *.
      - injection Hi as ->. eauto.
      - eauto. }
    destruct (Hg _ _ _ HF Hm) as [x [Hx Hl]]. rewrite Hx. cbn [bind]. congruence.
  - apply Hmn in E. apply last_value_none in E. congruence.
Qed.

Lemma hv_new_inv {T} : hv_inv (T:=T) [] [] hv_new.
Proof.
  unfold hv_inv, hv_new; cbn [hv_map hv_entries map]. conj.
  - constructor.
  - tauto.
  - constructor.
  - discriminate.
  - intros; simpl; tauto.
Qed.

Lemma hv_run_inv {T} : forall ops (h : list (N * T)) ks v,
  Forall (fun p => fst p < W32) (h ++ ops) -> hv_inv h ks v ->
  exists v' ks', hv_run v ops = Ok v' /\ hv_inv (h ++ ops) ks' v'.
Proof.
  induction ops as [|[k x] ops IH]; intros h ks v Hb Hi; cbn [hv_run].
  - rewrite app_nil_r in *. eauto.
  - replace (h ++ (k, x) :: ops) with ((h ++ [(k, x)]) ++ ops) in * by (rewrite <- app_assoc; auto).
    destruct (hv_insert_inv h ks v k x) as [v1 [ks1 [E Hi1]]]; auto.
    { apply Forall_app in Hb as [Hb _]. auto. }
    rewrite E. cbn [bind]. eapply IH; eauto.
Qed.

Lemma same_members_length {A} (l l' : list A) :
  NoDup l -> NoDup l' -> (forall x, In x l <-> In x l') -> length l = length l'.
Proof.
  intros H1 H2 H. apply Nat.le_antisymm; apply NoDup_incl_length; auto; intros x; apply H.
Qed.

Lemma hv_len_inv {T} (h : list (N * T)) ks v :
  hv_inv h ks v -> hv_len v = nlen (distinct h).
Proof.
  intros [Hn [Hin [HF _]]]. unfold hv_len, nlen. f_equal. rewrite <- (Forall2_len _ _ _ HF).
  apply same_members_length; auto.
  - apply NoDup_nodup.
  - intros x. unfold distinct. rewrite nodup_In. apply Hin.
Qed.

(** ** NodeMap *)
Lemma nt_eqb_spec a b : reflect (a = b) (nt_eqb a b).
Proof. destruct a, b; constructor; congruence. Qed.

Lemma nseq_split_at b n : b < n ->
  nseq 0 (N.to_nat n) = nseq 0 (N.to_nat b) ++ b :: nseq (b + 1) (N.to_nat (n - b - 1)).
Proof.
  intros H. replace (N.to_nat n) with (N.to_nat b + S (N.to_nat (n - b - 1)))%nat by lia.
  rewrite nseq_app. f_equal. cbn [nseq]. f_equal; [lia|f_equal; lia].
Qed.

Lemma how_many_upd n c b t s : b < n ->
  how_many n (fun x => if x =? b then t else c x) s + (if nt_eqb (c b) s then 1 else 0) =
  how_many n c s + (if nt_eqb t s then 1 else 0).
Proof.
  intros H. unfold how_many. rewrite (nseq_split_at b n H), !filter_app.
  cbn [filter]. rewrite N.eqb_refl.
  assert (Hx : forall l, (~ In b l) -> filter (fun b0 => nt_eqb (if b0 =? b then t else c b0) s) l =
     filter (fun b0 => nt_eqb (c b0) s) l).
  { intros l Hl. apply filter_ext_in. intros x Hx. destruct (N.eqb_spec x b); congruence. }
  rewrite !Hx by (rewrite in_nseq; lia).
  unfold nlen. rewrite !app_length.
  destruct (nt_eqb t s), (nt_eqb (c b) s); cbn [length]; lia.
Qed.

Lemma how_many_le n c s : how_many n c s <= n.
Proof.
  unfold how_many, nlen.
  assert (forall (f : N -> bool) l, (length (filter f l) <= length l)%nat).
  { clear. intros f l; induction l; simpl; auto. destruct (f a); simpl; lia. }
  specialize (H (fun b => nt_eqb (c b) s) (nseq 0 (N.to_nat n))). rewrite nseq_length in H. lia.
Qed.

Lemma how_many_sum n c s t : s <> t -> how_many n c s + how_many n c t <= n.
Proof.
  intros Hst. unfold how_many, nlen.
  assert (forall l, (length (filter (fun b => nt_eqb (c b) s) l) + length (filter (fun b => nt_eqb (c b) t) l) <= length l)%nat).
  { induction l as [|a l IH]; simpl; auto.
    destruct (nt_eqb_spec (c a) s), (nt_eqb_spec (c a) t); simpl; try lia. congruence. }
  specialize (H (nseq 0 (N.to_nat n))). rewrite nseq_length in H. lia.
Qed.

Definition lsb_of (t : node_type) : bool := match t with NTLeaf | NTInternal => true | _ => false end.
Definition msb_of (t : node_type) : bool := match t with NTError | NTInternal => true | _ => false end.

Record nm_inv {I E} (nr : N) (c : N -> node_type) (hi : list (N * I)) (he : list (N * E))
  (m : node_map I E) : Prop := {
  ni_cap : bs_cap (nm_type m) = nr * 2;
  ni_lcap : bs_cap (nm_leaves m) = nr;
  ni_lsb : forall b, b < nr -> bs_bits (nm_type m) (b * 2) = lsb_of (c b);
  ni_msb : forall b, b < nr -> bs_bits (nm_type m) (b * 2 + 1) = msb_of (c b);
  ni_leaf : forall b, b < nr -> bs_bits (nm_leaves m) b = nt_eqb (c b) NTLeaf;
  ni_out : forall b, nr <= b -> c b = NTNone;
  ni_nr : nm_nr_leaves m = how_many nr c NTLeaf;
  ni_info : exists ks, hv_inv hi ks (nm_info m);
  ni_ikeys : forall b, In b (map fst hi) <-> c b = NTInternal;
  ni_err : exists ks, hv_inv he ks (nm_errors m);
  ni_ekeys : forall b, In b (map fst he) <-> c b = NTError }.

Lemma nm_get_type_inv {I E} nr c hi he (m : node_map I E) b :
  nm_inv nr c hi he m -> nm_get_type m b = c b.
Proof.
  intros H. unfold nm_get_type, bs_contains. rewrite (ni_cap _ _ _ _ _ H).
  destruct (N.lt_ge_cases b nr) as [Hb|Hb].
  - rewrite (ni_lsb _ _ _ _ _ H b Hb), (ni_msb _ _ _ _ _ H b Hb).
    replace (b * 2 <? nr * 2) with true by lia. replace (b * 2 + 1 <? nr * 2) with true by lia.
    destruct (c b); reflexivity.
  - rewrite (ni_out _ _ _ _ _ H b Hb).
    replace (b * 2 <? nr * 2) with false by lia. replace (b * 2 + 1 <? nr * 2) with false by lia.
    reflexivity.
Qed.

Lemma hv_inv_len_count {I} nr (c : N -> node_type) (hi : list (N * I)) ks v t :
  t <> NTNone -> (forall b, nr <= b -> c b = NTNone) ->
  hv_inv hi ks v -> (forall b, In b (map fst hi) <-> c b = t) ->
  hv_len v = how_many nr c t.
Proof.
  intros Ht Hout Hv Hk. rewrite (hv_len_inv _ _ _ Hv). unfold how_many, nlen. f_equal.
  apply same_members_length.
  - apply NoDup_nodup.
  - apply NoDup_filter. apply increasing_NoDup, nseq_increasing.
  - intros x. unfold distinct. rewrite nodup_In, Hk, filter_In, in_nseq.
    destruct (nt_eqb_spec (c x) t) as [E|E].
    + split; [intros _|auto]. split; auto.
      destruct (N.lt_ge_cases x nr); [lia|]. rewrite (Hout x H) in E. congruence.
    + split; [contradiction|]. intros [_ ?]; discriminate.
Qed.

Definition info_of {I E} (o : nm_op I E) : list (N * I) :=
  match o with OpInternal b i => [(b, i)] | _ => [] end.
Definition err_of {I E} (o : nm_op I E) : list (N * E) :=
  match o with OpError b i => [(b, i)] | _ => [] end.

Lemma keys_lt {I} nr (c : N -> node_type) (hi : list (N * I)) t :
  t <> NTNone -> (forall b, nr <= b -> c b = NTNone) -> nr < W32 ->
  (forall b, In b (map fst hi) <-> c b = t) ->
  Forall (fun p => fst p < W32) hi.
Proof.
  intros Ht Ho Hn Hk. apply Forall_forall. intros p Hp.
  destruct (N.lt_ge_cases (fst p) nr); [lia|].
  assert (c (fst p) = t) by (apply Hk, in_map, Hp). rewrite Ho in H0 by auto. congruence.
Qed.

Ltac bsolve :=
  intros; cbv beta;
  repeat match goal with
  | |- context [?x =? ?y] => destruct (N.eqb_spec x y)
  end; subst; try lia; auto.

Lemma nm_step_inv {I E} nr c hi he (m : node_map I E) o :
  nr < W32 -> op_block o < nr -> nm_inv nr c hi he m ->
  if accepts (c (op_block o)) (op_type o)
  then exists m', nm_step m o = Ok m' /\
    nm_inv nr (fun b => if b =? op_block o then op_type o else c b) (hi ++ info_of o) (he ++ err_of o) m'
  else nm_step m o = Err.
Proof.
  intros Hnr Hb Hi. pose proof (nm_get_type_inv _ _ _ _ _ (op_block o) Hi) as Hg.
  destruct Hi as [Hcap Hlcap Hl Hm Hlf Hout Hn [ki Hki] Hik [ke Hke] Hek].
  pose proof (how_many_upd nr c (op_block o) (op_type o) NTLeaf Hb) as Hup.
  pose proof (how_many_le nr c NTLeaf) as Hle.
  pose proof (how_many_le nr (fun x => if x =? op_block o then op_type o else c x) NTLeaf) as Hle2.
  assert (Hfi : Forall (fun p => fst p < W32) hi) by (eapply keys_lt with (t:=NTInternal); eauto; discriminate).
  assert (Hfe : Forall (fun p => fst p < W32) he) by (eapply keys_lt with (t:=NTError); eauto; discriminate).
  assert (L1 : (op_block o * 2 <? nr * 2) = true) by lia.
  assert (L2 : (op_block o * 2 + 1 <? nr * 2) = true) by lia.
  assert (L3 : (op_block o <? nr) = true) by lia.
  pose proof (Hlf _ Hb) as Hlfb. pose proof (Hl _ Hb) as Hlb. pose proof (Hm _ Hb) as Hmb.
  destruct o as [b i|b|b e]; cbn [op_block op_type nm_step info_of err_of] in *;
    unfold nm_insert_internal, nm_insert_leaf, nm_insert_error; rewrite Hg;
    destruct (c b) eqn:Ec; cbn [accepts]; try reflexivity.
  all: try rewrite !app_nil_r.
  (* internal *)
  1,2: destruct (hv_insert_inv hi ki (nm_info m) b i) as [v' [ks' [Ei Hv']]]; auto;
    [apply Forall_app; split; auto; constructor; [cbn [fst]; lia|constructor]|];
    rewrite Ei; cbn [bind]; unfold nm_set_type, bs_insert, bs_contains, bs_toggle;
    cbn [nm_type nm_leaves nm_nr_leaves nm_info nm_errors bs_cap bs_bits];
    rewrite Hcap, Hlcap, L1; cbn [bind bs_cap bs_bits]; rewrite L2; cbn [bind]; rewrite L3, Hlfb; cbn [andb nt_eqb bind].
  3: unfold nm_set_type, bs_insert, bs_contains, bs_toggle;
    rewrite Hcap, Hlcap, L1; cbn [bind bs_cap bs_bits]; rewrite L3; cbn [bind].
  4,5: destruct (hv_insert_inv he ke (nm_errors m) b e) as [v' [ks' [Ei Hv']]]; auto;
    [apply Forall_app; split; auto; constructor; [cbn [fst]; lia|constructor]|];
    rewrite Ei; cbn [bind]; unfold nm_set_type, bs_insert, bs_contains, bs_toggle;
    cbn [nm_type nm_leaves nm_nr_leaves nm_info nm_errors bs_cap bs_bits];
    rewrite Hcap, Hlcap, L2; cbn [bind bs_cap bs_bits]; rewrite L3, Hlfb; cbn [andb nt_eqb bind];
    try rewrite L1; cbn [bind].
  all: eexists; split; [reflexivity|]; constructor;
    cbn [nm_type nm_leaves nm_nr_leaves nm_info nm_errors bs_cap bs_bits]; auto.
  all: cbn [nt_eqb] in *.
  all: try (intros x Hx; destruct (N.eqb_spec x b); [exfalso; lia| apply Hout; exact Hx]).
  all: try solve [eexists; eassumption].
  all: clear Hki Hke Hcap Hlcap L1 L2 L3 Hfi Hfe.
  all: match goal with
  | |- _ = how_many _ _ _ => rewrite Hn; unfold W32 in *; clear -Hup Hle Hle2 Hnr
  | |- forall x, x < _ -> _ => clear Hup Hle Hle2 Hnr Hn
  | _ => intros x; rewrite ?map_app, ?in_app_iff; cbn [map fst In];
         rewrite ?Hik, ?Hek; destruct (N.eqb_spec x b) as [->|]; try solve [intuition congruence]
  end.
  all: idtac. 
  all: match goal with
  | |- _ = how_many _ _ _ => idtac
  | |- _ <-> _ => idtac
  | |- forall x, _ <-> _ => idtac
  | _ => intros x Hx; destruct (N.eqb_spec x b) as [->|Hne];
    repeat match goal with |- context [?x =? ?y] => destruct (N.eqb_spec x y); [try (exfalso; lia)|try (exfalso; lia)] end;
    rewrite ?Hlb, ?Hmb, ?Hlfb, ?Ec; auto
  end.
  all: match type of Hup with ?x + _ = ?y + _ =>
         change x with x in Hle2; generalize dependent x; generalize dependent y; intros; dlia end.
Qed.

Lemma nm_new_inv {I E} nr : nm_inv (I:=I) (E:=E) nr (fun _ => NTNone) [] [] (nm_new nr).
Proof.
  constructor; cbn [nm_new nm_type nm_leaves nm_nr_leaves nm_info nm_errors bs_cap bs_bits]; auto.
  - unfold how_many. induction (nseq 0 (N.to_nat nr)); auto.
  - exists []. apply hv_new_inv.
  - intros; simpl. split; [intros []|discriminate].
  - exists []. apply hv_new_inv.
  - intros; simpl. split; [intros []|discriminate].
Qed.

Lemma nm_run_inv {I E} nr : forall (ops : list (nm_op I E)) c hi he m,
  nr < W32 -> Forall (fun o => op_block o < nr) ops -> nm_inv nr c hi he m ->
  exists m', nm_run m ops = Ok (m', verdicts c ops) /\
    nm_inv nr (classify c ops) (hi ++ acc_info c ops) (he ++ acc_err c ops) m'.
Proof.
  induction ops as [|o ops IH]; intros c hi he m Hnr Hf Hi;
    cbn [nm_run verdicts classify acc_info acc_err].
  - rewrite !app_nil_r. eauto.
  - inversion Hf as [|? ? Ho Hf']; subst.
    pose proof (nm_step_inv nr c hi he m o Hnr Ho Hi) as Hs.
    destruct (accepts (c (op_block o)) (op_type o)).
    + destruct Hs as [m1 [E1 Hi1]]. rewrite E1.
      destruct (IH _ _ _ _ Hnr Hf' Hi1) as [m2 [E2 Hi2]]. rewrite E2. cbn [bind].
      exists m2. split; auto. rewrite !app_assoc. exact Hi2.
    + rewrite Hs. destruct (IH _ _ _ _ Hnr Hf' Hi) as [m2 [E2 Hi2]]. rewrite E2. cbn [bind].
      exists m2. split; auto.
Qed.
