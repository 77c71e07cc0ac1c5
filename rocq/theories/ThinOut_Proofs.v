From Verif Require Import Base Csum_Model Codec_Model SpaceMap_Model Batcher_Model Builder_Model
  Builder_Spec Pack_Proofs ThinOut_Model ThinOut_Spec.

Lemma wadd_small a b : a + b < 2 ^ 64 -> wadd a b = a + b.
Proof. intros. unfold wadd. apply N.mod_small; auto. Qed.
Lemma wadd_eq a b x : a + b <= 2 ^ 64 -> x < 2 ^ 64 -> x = wadd a b -> x = a + b \/ (x = 0 /\ a + b = 2 ^ 64).
Proof.
  intros. unfold wadd in *. destruct (N.eq_dec (a + b) (2 ^ 64)) as [e|].
  - right. rewrite e, N.mod_same in H1 by discriminate. auto.
  - left. rewrite N.mod_small in H1 by lia. auto.
Qed.
Lemma wsub_small a b : b <= a -> a < 2 ^ 64 -> wsub a b = a - b.
Proof.
  intros. unfold wsub. replace (a + 2 ^ 64 - b) with (a - b + 1 * 2 ^ 64) by lia.
  rewrite N.mod_add by discriminate. apply N.mod_small. lia.
Qed.
Lemma wmul_small a b : a * b < 2 ^ 64 -> wmul a b = a * b.
Proof. intros. unfold wmul. apply N.mod_small; auto. Qed.

(** ** dump *)
Fixpoint runs_of (run : option ir_map) (kvs : list (N * block_time)) : list ir_map :=
  match kvs with
  | [] => mv_end run
  | (k, v) :: r => let '(run', o) := rb_next run k (bt_block v) (bt_time v) in
                   match o with Some m => m :: runs_of run' r | None => runs_of run' r end
  end.

Lemma mv_visit_runs kvs1 : forall run kvs2,
  runs_of run (kvs1 ++ kvs2) = snd (mv_visit run kvs1) ++ runs_of (fst (mv_visit run kvs1)) kvs2.
Proof.
  induction kvs1 as [|[k v] r IH]; intros; [reflexivity|].
  cbn [app runs_of mv_visit]. destruct (rb_next run k (bt_block v) (bt_time v)) as [run' o] eqn:E.
  rewrite IH. destruct (mv_visit run' r) as [run2 out]. destruct o; reflexivity.
Qed.

Lemma emit_leaves_runs eng ls kvss : Forall2 (leaf_is eng) ls kvss -> forall run,
  emit_leaves_ eng run ls = (runs_of run (concat kvss), Ok tt).
Proof.
  induction 1 as [|b kvs ls kvss (data & h & ks & vs & Ee & Et & Eu & ->) _ IH]; intros.
  - cbn. reflexivity.
  - cbn [emit_leaves_ concat]. rewrite Ee. unfold dump_leaf. rewrite Et, Eu. cbn [bind].
    rewrite mv_visit_runs. destruct (mv_visit run (combine ks vs)) as [run' out]. rewrite IH. reflexivity.
Qed.

Definition opt_expand (run : option ir_map) := match run with Some m => expand m | None => [] end.
(** the run under construction, and the key it may not be followed by (wrap) *)
Definition run_ok (run : option ir_map) : Prop :=
  match run with
  | Some m => 1 <= m_len m /\ m_thin m + m_len m <= 2 ^ 64 /\ m_data m + m_len m <= 2 ^ 40
  | None => True
  end.
Definition last_key (run : option ir_map) : option N :=
  match run with Some m => Some (m_thin m + m_len m - 1) | None => None end.
(** no key 2^64-1 is directly followed by key 0 *)
Fixpoint no_wrap (prev : option N) (ks : list N) : Prop :=
  match ks with
  | [] => True
  | k :: r => (k = 0 -> prev <> Some (2 ^ 64 - 1)) /\ no_wrap (Some k) r
  end.

Lemma expand_snoc m : expand (mkmap (m_thin m) (m_data m) (m_time m) (m_len m + 1)) =
  expand m ++ [(m_thin m + m_len m, mkbt (m_data m + m_len m) (m_time m))].
Proof.
  unfold expand. cbn [m_thin m_data m_time m_len].
  rewrite (range_app 0 (m_len m) (m_len m + 1)) by lia. rewrite map_app. f_equal.
  rewrite range_cons by lia. rewrite range_nil by lia. reflexivity.
Qed.
Lemma expand_one t d ti : expand (mkmap t d ti 1) = [(t, mkbt d ti)].
Proof. unfold expand. cbn [m_thin m_data m_time m_len]. change (range 0 1) with [0]. cbn [map]. rewrite !N.add_0_r. reflexivity. Qed.

Lemma rb_next_spec run k v run' o :
  run_ok run -> k < 2 ^ 64 -> bt_block v < 2 ^ 40 -> (k = 0 -> last_key run <> Some (2 ^ 64 - 1)) ->
  rb_next run k (bt_block v) (bt_time v) = (run', o) ->
  run_ok run' /\ last_key run' = Some k /\
  opt_expand o ++ opt_expand run' = opt_expand run ++ [(k, v)] /\
  (match run, o with
   | Some m, None => exists m', run' = Some m' /\ m_thin m' = m_thin m /\ m_data m' = m_data m /\ m_time m' = m_time m
   | Some m, Some m0 => m0 = m /\ exists m', run' = Some m' /\ ~ mergeable m m'
   | None, None => exists m', run' = Some m'
   | None, Some _ => False
   end).
Proof.
  intros Hr Hk Hv Hw E. unfold rb_next in E. destruct run as [m|].
  - cbn in Hr. destruct Hr as (H1 & H2 & H3).
    destruct ((k =? wadd (m_thin m) (m_len m)) && (bt_block v =? wadd (m_data m) (m_len m)) && (m_time m =? bt_time v)) eqn:C.
    + injection E as <- <-. apply andb_prop in C as [C C3]. apply andb_prop in C as [C1 C2].
      apply N.eqb_eq in C1, C2, C3.
      assert (Hd: bt_block v = m_data m + m_len m).
      { rewrite C2. apply wadd_small. assert (2 ^ 40 < 2 ^ 64) by reflexivity. lia. }
      assert (Ht: k = m_thin m + m_len m).
      { destruct (wadd_eq _ _ _ H2 Hk C1) as [|[Z ?]]; auto. exfalso. apply Hw; auto. cbn. f_equal. lia. }
      assert (El: wadd (m_len m) 1 = m_len m + 1).
      { apply wadd_small. assert (2 ^ 40 < 2 ^ 64) by reflexivity. lia. }
      rewrite El. conj.
      * cbn. lia.
      * cbn. f_equal. lia.
      * cbn [opt_expand app]. rewrite expand_snoc. f_equal. f_equal. rewrite Ht.
        f_equal. destruct v; cbn in *. congruence.
      * eexists. split; [reflexivity|]. auto.
    + injection E as <- <-. conj.
      * cbn. lia.
      * cbn. f_equal. lia.
      * cbn [opt_expand]. rewrite expand_one. destruct v; reflexivity.
      * reflexivity.
      * eexists. split; [reflexivity|]. intros (A & B & D). cbn in A, B, D.
        rewrite <- not_true_iff_false in C. apply C.
        rewrite wadd_small, wadd_small; [|assert (2 ^ 40 < 2 ^ 64) by reflexivity; lia|].
        { rewrite !andb_true_iff, !N.eqb_eq. auto. }
        { destruct (N.eq_dec (m_thin m + m_len m) (2 ^ 64)); lia. }
  - injection E as <- <-. conj.
    + cbn. lia.
    + cbn. f_equal. lia.
    + cbn [opt_expand app]. rewrite expand_one. destruct v; reflexivity.
    + eauto.
Qed.

Lemma runs_of_spec kvs : forall run,
  run_ok run -> Forall (fun kv => fst kv < 2 ^ 64 /\ bt_block (snd kv) < 2 ^ 40) kvs ->
  no_wrap (last_key run) (map fst kvs) ->
  concat (map expand (runs_of run kvs)) = opt_expand run ++ kvs /\
  Forall (fun m => 1 <= m_len m) (runs_of run kvs) /\
  consecutive (fun a b => ~ mergeable a b) (runs_of run kvs) /\
  (forall m, run = Some m -> exists m' r, runs_of run kvs = m' :: r /\
      m_thin m' = m_thin m /\ m_data m' = m_data m /\ m_time m' = m_time m).
Proof.
  induction kvs as [|[k v] r IH]; intros run Hr HF Hw.
  - cbn [runs_of]. destruct run as [m|]; cbn [mv_end].
    + cbn in Hr. conj.
      * cbn. rewrite !app_nil_r. reflexivity.
      * constructor; auto. lia.
      * cbn. auto.
      * intros m0 [= <-]. eauto 10.
    + cbn. conj; auto. discriminate.
  - inversion HF as [|x l [Hk Hv] HF']; subst. cbn [fst snd] in Hk, Hv. cbn [map fst no_wrap] in Hw. destruct Hw as [Hw1 Hw2].
    cbn [runs_of]. destruct (rb_next run k (bt_block v) (bt_time v)) as [run' o] eqn:E.
    destruct (rb_next_spec _ _ _ _ _ Hr Hk Hv Hw1 E) as (Hr' & Hl & He & Hm).
    rewrite <- Hl in Hw2. destruct (IH run' Hr' HF' Hw2) as (I1 & I2 & I3 & I4).
    destruct run as [m|], o as [m0|]; try contradiction.
    + destruct Hm as (-> & m' & -> & Hn). destruct (I4 m' eq_refl) as (m2 & r2 & E2 & ? & ? & ?).
      conj.
      * cbn [map concat]. rewrite I1, app_assoc. cbn [opt_expand] in *. rewrite He, <- app_assoc. reflexivity.
      * constructor; auto. cbn in Hr. lia.
      * cbn [consecutive]. split; auto. rewrite E2. unfold mergeable in *. intros (?&?&?). apply Hn. conj; congruence.
      * intros ? [= <-]. eauto 10.
    + destruct Hm as (m' & -> & ? & ? & ?). destruct (I4 m' eq_refl) as (m2 & r2 & E2 & ? & ? & ?).
      conj; auto.
      * rewrite I1. cbn [opt_expand app] in *. rewrite He, <- app_assoc. reflexivity.
      * intros ? [= <-]. exists m2, r2. conj; auto; congruence.
    + destruct Hm as (m' & ->). conj; auto.
      * rewrite I1. cbn [opt_expand app] in *. rewrite He. reflexivity.
      * discriminate.
Qed.

Lemma increasing_no_wrap ks : forall prev, increasing ks -> (forall p k, prev = Some p -> In k ks -> p < k) -> no_wrap prev ks.
Proof.
  induction ks as [|k r IH]; intros prev Hi Hp; cbn; auto. split.
  - intros -> ->. specialize (Hp _ 0 eq_refl (or_introl eq_refl)). lia.
  - apply increasing_strong in Hi as [H1 H2]. apply IH; auto. intros p k' [= <-]. auto.
Qed.
Lemma small_no_wrap ks : Forall (fun k => k < 2 ^ 64 - 1) ks -> forall prev, prev <> Some (2 ^ 64 - 1) -> no_wrap prev ks.
Proof.
  induction 1; intros; cbn; auto. split; auto. apply IHForall. intros [= E]. lia.
Qed.

Lemma emit_entries_denote eng leaf resolve es : forall pend evs,
  (forall b, In (EnLeaf b) es \/ In b pend -> leaf_is eng b (leaf b) /\
     Forall (fun kv => fst kv < 2 ^ 64 - 1 /\ bt_block (snd kv) < 2 ^ 40) (leaf b)) ->
  emit_entries_ eng pend es = (evs, Ok tt) ->
  flat_map (denote resolve) evs = flat_map leaf pend ++ flat_map (denote_entry leaf resolve) es.
Proof.
  assert (HL: forall pend evs x,
    (forall b, In b pend -> leaf_is eng b (leaf b) /\
       Forall (fun kv => fst kv < 2 ^ 64 - 1 /\ bt_block (snd kv) < 2 ^ 40) (leaf b)) ->
    match pend with [] => ([], Ok tt) | _ => emit_leaves eng pend end = (evs, x) ->
    flat_map (denote resolve) evs = flat_map leaf pend /\ x = Ok tt).
  { intros pend evs x Hp E. destruct pend as [|p0 pr] eqn:Ep.
    { injection E as <- <-. auto. }
    rewrite <- Ep in *. clear Ep p0 pr.
    unfold emit_leaves in E. rewrite (emit_leaves_runs eng pend (map leaf pend)) in E.
    2: { clear E. induction pend; constructor; [apply Hp; left; auto|apply IHpend; intros; apply Hp; right; auto]. }
    injection E as <- <-. split; auto.
    assert (HF: Forall (fun kv => fst kv < 2 ^ 64 - 1 /\ bt_block (snd kv) < 2 ^ 40) (concat (map leaf pend))).
    { rewrite Forall_forall. intros kv Hin. apply in_concat in Hin as (l & Hl & Hkv).
      apply in_map_iff in Hl as (b & <- & Hb). destruct (Hp b Hb) as [_ HF]. rewrite Forall_forall in HF. auto. }
    destruct (runs_of_spec (concat (map leaf pend)) None) as (R & _); cbn; auto.
    { eapply Forall_impl; [|apply HF]. cbv beta. intros; lia. }
    { apply small_no_wrap; [|discriminate]. rewrite Forall_map. eapply Forall_impl; [|apply HF]. cbv beta. intros; lia. }
    cbn [opt_expand app] in R. rewrite (flat_map_concat_map leaf).
    etransitivity; [|exact R].
    rewrite flat_map_concat_map, map_map. reflexivity. }
  induction es as [|e r IH]; intros pend evs Hp E.
  - cbn [emit_entries_] in E. destruct (HL pend evs (Ok tt)) as [H _]; auto. cbn. rewrite app_nil_r. auto.
  - destruct e as [b|id]; cbn [emit_entries_] in E.
    + apply IH in E.
      * rewrite E. cbn [flat_map denote_entry]. rewrite flat_map_app. cbn. rewrite app_nil_r, <- app_assoc. reflexivity.
      * intros b' [H|H]; apply Hp; [left; right; auto|]. apply in_app_or in H as [H|[->|[]]]; [right; auto|left; left; auto].
    + destruct (match pend with [] => _ | _ => _ end) as [o1 x] eqn:E1.
      destruct (HL pend o1 x) as [H ->]; auto.
      destruct (emit_entries_ eng [] r) as [o2 y] eqn:E2. injection E as <- ->.
      apply IH in E2.
      * rewrite flat_map_app. cbn [flat_map denote denote_entry]. rewrite H, E2. reflexivity.
      * intros b' [H0|[]]. apply Hp. left. right. auto.
Qed.

(** ** delta *)
(** runs of mappings one after the other from [lo] on *)
Fixpoint dm_ok (lo : N) (ms : list dmap) : Prop :=
  match ms with
  | [] => True
  | m :: r => lo <= d_thin m /\ 1 <= d_len m /\ d_thin m + d_len m < 2 ^ 64 /\ d_data m + d_len m <= 2 ^ 40 /\
              dm_ok (d_thin m + d_len m) r
  end.
Fixpoint dm_get (ms : list dmap) (t : N) : option N :=
  match ms with
  | [] => None
  | m :: r => if (d_thin m <=? t) && (t <? d_thin m + d_len m) then Some (d_data m + (t - d_thin m)) else dm_get r t
  end.

Lemma dm_get_below ms : forall lo t, dm_ok lo ms -> t < lo -> dm_get ms t = None.
Proof.
  induction ms as [|m r IH]; intros lo t H Ht; cbn in *; auto. destruct H as (? & ? & ? & ? & ?).
  replace (d_thin m <=? t) with false by (symmetry; apply N.leb_gt; lia). cbn [andb].
  eapply IH; eauto. lia.
Qed.
Lemma dm_ok_mono lo lo' ms : lo' <= lo -> dm_ok lo ms -> dm_ok lo' ms.
Proof. intros. destruct ms; cbn in *; auto. destruct H0. split; auto. lia. Qed.

Lemma record_spec kvs : forall run lo,
  increasing (map fst kvs) -> Forall (fun kv => fst kv < 2 ^ 64 - 1 /\ bt_block (snd kv) < 2 ^ 40) kvs ->
  match run with
  | Some m => lo <= d_thin m /\ 1 <= d_len m /\ d_thin m + d_len m < 2 ^ 64 /\ d_data m + d_len m <= 2 ^ 40 /\
              (forall k, In k (map fst kvs) -> d_thin m + d_len m <= k)
  | None => forall k, In k (map fst kvs) -> lo <= k
  end ->
  dm_ok lo (record_mappings_ run kvs) /\
  forall t, dm_get (record_mappings_ run kvs) t =
    match dm_get (match run with Some m => [m] | None => [] end) t with
    | Some d => Some d
    | None => option_map bt_block (assoc kvs t)
    end.
Proof.
  induction kvs as [|[k v] r IH]; intros run lo Hi HF Hr.
  - cbn. destruct run as [m|]; cbn in *.
    + split; [tauto|]. intros. destruct (_ && _); reflexivity.
    + auto.
  - inversion HF as [|x l [Hk Hv] HF']; subst. cbn [fst snd] in Hk, Hv.
    cbn [map fst] in Hi. apply increasing_strong in Hi as [Hlt Hi].
    assert (Hnone: forall t, ~ In t (map fst r) -> assoc r t = None).
    { clear. induction r as [|[a b] r IH]; intros; cbn in *; auto. destruct (N.eqb_spec t a); [subst; tauto|auto]. }
    assert (HA: forall t, t <= k -> assoc r t = None).
    { intros. apply Hnone. intros Hin. apply Hlt in Hin. lia. }
    cbn [record_mappings_]. unfold drb_next. destruct run as [m|].
    + destruct Hr as (H1 & H2 & H3 & H4 & H5).
      assert (Hmk: d_thin m + d_len m <= k) by (apply H5; left; auto).
      assert (Hlt2: d_thin m + d_len m < 2 ^ 64) by lia.
      assert (2 ^ 40 < 2 ^ 64) by reflexivity.
      rewrite (wadd_small _ _ Hlt2), (wadd_small (d_data m) (d_len m)), (wadd_small (d_len m) 1) by lia.
      destruct ((d_thin m + d_len m =? k) && (d_data m + d_len m =? bt_block v)) eqn:C.
      * apply andb_prop in C as [C1 C2]. apply N.eqb_eq in C1, C2.
        destruct (IH (Some (mkdm (d_thin m) (d_data m) (d_len m + 1))) lo Hi HF') as [I1 I2].
        { cbn. conj; try lia. intros k' Hk'. apply Hlt in Hk'. lia. }
        split; auto. intros t. rewrite I2. cbn [dm_get d_thin d_data d_len assoc].
        destruct (N.eqb_spec t k) as [->|Hne].
        { replace (d_thin m <=? k) with true by (symmetry; apply N.leb_le; lia).
          replace (k <? d_thin m + (d_len m + 1)) with true by (symmetry; apply N.ltb_lt; lia).
          replace (k <? d_thin m + d_len m) with false by (symmetry; apply N.ltb_ge; lia).
          cbn. f_equal. lia. }
        { replace (t <? d_thin m + (d_len m + 1)) with (t <? d_thin m + d_len m); [reflexivity|].
          apply eq_true_iff_eq. rewrite !N.ltb_lt. lia. }
      * destruct (IH (Some (mkdm k (bt_block v) 1)) (d_thin m + d_len m) Hi HF') as [I1 I2].
        { cbn. conj; try lia. intros k' Hk'. apply Hlt in Hk'. lia. }
        split; [cbn; conj; auto|]. intros t. cbn [dm_get]. destruct ((d_thin m <=? t) && (t <? d_thin m + d_len m)); auto.
        rewrite I2. cbn [dm_get d_thin d_data d_len assoc].
        destruct (N.eqb_spec t k) as [->|Hne].
        { rewrite N.leb_refl. replace (k <? k + 1) with true by (symmetry; apply N.ltb_lt; lia). cbn. f_equal. lia. }
        { replace ((k <=? t) && (t <? k + 1)) with false; [reflexivity|]. symmetry.
          apply andb_false_iff. rewrite N.leb_gt, N.ltb_ge. lia. }
    + destruct (IH (Some (mkdm k (bt_block v) 1)) lo Hi HF') as [I1 I2].
      { cbn. assert (2 ^ 40 < 2 ^ 64) by reflexivity. conj; try lia. apply Hr; left; auto. intros k' Hk'. apply Hlt in Hk'. lia. }
      split; auto. intros t. rewrite I2. cbn [dm_get d_thin d_data d_len assoc].
      destruct (N.eqb_spec t k) as [->|Hne].
      { rewrite N.leb_refl. replace (k <? k + 1) with true by (symmetry; apply N.ltb_lt; lia). cbn. f_equal. lia. }
      { replace ((k <=? t) && (t <? k + 1)) with false; [reflexivity|]. symmetry.
        apply andb_false_iff. rewrite N.leb_gt, N.ltb_ge. lia. }
Qed.

Definition dclassify (a b : option N) : option (dkind * option N * option N) :=
  match a, b with
  | Some x, Some y => Some (if x =? y then KSame else KDiffer, Some x, Some y)
  | Some x, None => Some (KLeft, Some x, None)
  | None, Some y => Some (KRight, None, Some y)
  | None, None => None
  end.
Fixpoint first_claim (ds : list delta) (t : N) : option (dkind * option N * option N) :=
  match ds with
  | [] => None
  | d :: r => match claims d t with Some x => Some x | None => first_claim r t end
  end.

Lemma ms_consume_spec lo ms len : dm_ok lo ms -> 1 <= len ->
  match ms with [] => False | m :: _ => len <= d_len m end ->
  exists ms', ms_consume ms len = Ok ms' /\
    (length ms' <= length ms)%nat /\
    (match ms with [] => False | m :: _ => dm_ok (d_thin m + len) ms' /\
        (len = d_len m -> S (length ms') = length ms) /\
        (len < d_len m -> exists d n r, ms' = mkdm (d_thin m + len) d n :: r) /\
        forall t, d_thin m + len <= t -> dm_get ms' t = dm_get ms t end).
Proof.
  intros Hok Hl. destruct ms as [|m r]; [tauto|]. intros Hm. cbn in Hok. destruct Hok as (? & ? & ? & ? & ?).
  cbn [ms_consume]. replace (d_len m <? len) with false by (symmetry; apply N.ltb_ge; auto).
  destruct (N.eqb_spec len (d_len m)) as [->|Hne].
  - exists r. conj; auto.
    + cbn; lia.
    + lia.
    + intros t Ht. cbn. replace (t <? d_thin m + d_len m) with false by (symmetry; apply N.ltb_ge; lia).
      rewrite andb_false_r. auto.
  - assert (2 ^ 40 < 2 ^ 64) by reflexivity.
    rewrite !wadd_small by lia. rewrite wsub_small by lia.
    eexists. split; [reflexivity|]. conj.
    + cbn; lia.
    + cbn [dm_ok d_thin d_data d_len]. conj; try lia.
      replace (d_thin m + len + (d_len m - len)) with (d_thin m + d_len m) by lia. auto.
    + intros; lia.
    + intros; eauto.
    + intros t Ht. cbn [dm_get d_thin d_data d_len].
      replace (d_thin m + len <=? t) with true by (symmetry; apply N.leb_le; lia).
      replace (d_thin m <=? t) with true by (symmetry; apply N.leb_le; lia).
      replace (d_thin m + len + (d_len m - len)) with (d_thin m + d_len m) by lia.
      destruct (t <? d_thin m + d_len m); cbn; auto. f_equal. lia.
Qed.

Definition heads_differ (ls rs : list dmap) : nat :=
  match ls, rs with l :: _, r :: _ => if d_thin l =? d_thin r then 0 else 1 | _, _ => 1 end.

Definition d_begin (d : delta) : N := let '(_, b, _) := simple_elem d in b.

Lemma only_claims (K : dmap -> delta) (kd : dkind) lo ms :
  (forall m, simple_elem (K m) = (kd, d_thin m, d_len m)) ->
  dm_ok lo ms -> in_order lo (map simple_elem (map K ms)).
Proof.
  intros HK. revert lo. induction ms as [|m r IH]; intros lo H; cbn in *; auto.
  destruct H as (? & ? & ? & ? & ?). rewrite HK. conj; auto.
Qed.

Lemma delta_loop_spec fuel : forall ls rs lo,
  dm_ok lo ls -> dm_ok lo rs -> (2 * (length ls + length rs) + 1 + heads_differ ls rs <= fuel)%nat ->
  exists ds, delta_loop fuel ls rs = Ok ds /\ in_order lo (map simple_elem ds) /\
    Forall (fun d => let '(_, b, n) := simple_elem d in b + n < 2 ^ 64) ds /\
    forall t, first_claim ds t = dclassify (dm_get ls t) (dm_get rs t).
Proof.
  induction fuel as [|f IH]; intros ls rs lo Hl Hr Hf; [lia|].
  cbn [delta_loop]. destruct ls as [|lm l'].
  { exists (map RightOnly rs). split; [reflexivity|]. split; [|split].
    - apply (only_claims RightOnly KRight); auto.
    - clear - Hr. revert lo Hr. induction rs as [|m r IH]; intros; constructor.
      + cbn in *. tauto.
      + cbn in Hr. eapply IH. apply Hr.
    - intros t. cbn [dm_get]. clear Hf IH Hl. revert lo Hr. induction rs as [|m r IH]; intros lo Hr; [reflexivity|].
      cbn in Hr. destruct Hr as (? & ? & ? & ? & ?).
      cbn [map first_claim dm_get]. unfold claims. cbn [verbose_elem].
      destruct ((d_thin m <=? t) && (t <? d_thin m + d_len m)); [reflexivity|]. eapply IH; eauto. }
  destruct rs as [|rm r'].
  { exists (map LeftOnly (lm :: l')). split; [reflexivity|]. split; [|split].
    - apply (only_claims LeftOnly KLeft); auto.
    - clear - Hl. revert lo Hl. induction (lm :: l') as [|m r IH]; intros; constructor.
      + cbn in *. tauto.
      + cbn in Hl. eapply IH. apply Hl.
    - intros t. clear Hf IH Hr. revert lo Hl. induction (lm :: l') as [|m r IH]; intros lo Hl; [reflexivity|].
      cbn in Hl. destruct Hl as (? & ? & ? & ? & ?).
      cbn [map first_claim dm_get]. unfold claims. cbn [verbose_elem].
      destruct ((d_thin m <=? t) && (t <? d_thin m + d_len m)); [reflexivity|]. eapply IH; eauto. }
  pose proof Hl as Hl0. pose proof Hr as Hr0.
  cbn in Hl0, Hr0. destruct Hl0 as (L1 & L2 & L3 & L4 & L5). destruct Hr0 as (R1 & R2 & R3 & R4 & R5).
  assert (GL: forall t, t < d_thin lm -> dm_get (lm :: l') t = None).
  { intros. eapply (dm_get_below _ (d_thin lm)); auto. cbn. conj; auto. lia. }
  assert (GR: forall t, t < d_thin rm -> dm_get (rm :: r') t = None).
  { intros. eapply (dm_get_below _ (d_thin rm)); auto. cbn. conj; auto. lia. }
  assert (HL: forall t, d_thin lm <= t < d_thin lm + d_len lm -> dm_get (lm :: l') t = Some (d_data lm + (t - d_thin lm))).
  { intros t Ht. cbn. replace (d_thin lm <=? t) with true by (symmetry; apply N.leb_le; lia).
    replace (t <? d_thin lm + d_len lm) with true by (symmetry; apply N.ltb_lt; lia). reflexivity. }
  assert (HR: forall t, d_thin rm <= t < d_thin rm + d_len rm -> dm_get (rm :: r') t = Some (d_data rm + (t - d_thin rm))).
  { intros t Ht. cbn. replace (d_thin rm <=? t) with true by (symmetry; apply N.leb_le; lia).
    replace (t <? d_thin rm + d_len rm) with true by (symmetry; apply N.ltb_lt; lia). reflexivity. }
  cbn [heads_differ length] in Hf. destruct (N.ltb_spec (d_thin lm) (d_thin rm)) as [Hlt|Hge].
  { rewrite wsub_small by lia. set (len := N.min (d_len lm) (d_thin rm - d_thin lm)).
    destruct (ms_consume_spec lo (lm :: l') len Hl) as (ls' & -> & Hlen & Hok' & Hfull & Hpart & Hget); [lia|lia|].
    cbn [bind]. destruct (IH ls' (rm :: r') (d_thin lm + len)) as (ds & -> & I1 & I2 & I3).
    { auto. }
    { cbn. conj; auto. lia. }
    { cbn [length] in *. destruct (N.eqb_spec (d_thin lm) (d_thin rm)); [lia|].
      destruct (N.eq_dec len (d_len lm)).
      - specialize (Hfull e). unfold heads_differ. destruct ls'; [lia|]. destruct (_ =? _); lia.
      - destruct Hpart as (d & nn & rr & ->); [lia|]. cbn [heads_differ d_thin].
        replace (d_thin lm + len) with (d_thin rm) by lia. rewrite N.eqb_refl. cbn [length] in *. lia. }
    cbn [bind]. eexists. split; [reflexivity|]. split; [|split].
    - cbn. conj; auto; lia.
    - constructor; auto. cbn. lia.
    - intros t. cbn [first_claim]. unfold claims. cbn [verbose_elem d_thin d_data d_len].
      destruct (N.leb_spec (d_thin lm) t); destruct (N.ltb_spec t (d_thin lm + len)); cbn [andb].
      + rewrite HL by lia. rewrite GR by lia. reflexivity.
      + rewrite I3, Hget by lia. reflexivity.
      + rewrite I3. rewrite GL, GR by lia. rewrite (dm_get_below ls' (d_thin lm + len)) by auto. reflexivity.
      + lia. }
  destruct (N.ltb_spec (d_thin rm) (d_thin lm)) as [Hlt|Hge2].
  { rewrite wsub_small by lia. set (len := N.min (d_len rm) (d_thin lm - d_thin rm)).
    destruct (ms_consume_spec lo (rm :: r') len Hr) as (rs' & -> & Hlen & Hok' & Hfull & Hpart & Hget); [lia|lia|].
    cbn [bind]. destruct (IH (lm :: l') rs' (d_thin rm + len)) as (ds & -> & I1 & I2 & I3).
    { cbn. conj; auto. lia. }
    { auto. }
    { cbn [length] in *. destruct (N.eqb_spec (d_thin lm) (d_thin rm)); [lia|].
      destruct (N.eq_dec len (d_len rm)).
      - specialize (Hfull e). unfold heads_differ. destruct rs'; [lia|]. destruct (_ =? _); cbn [length] in *; lia.
      - destruct Hpart as (d & nn & rr & ->); [lia|]. cbn [heads_differ d_thin].
        replace (d_thin rm + len) with (d_thin lm) by lia. rewrite N.eqb_refl. cbn [length] in *. lia. }
    cbn [bind]. eexists. split; [reflexivity|]. split; [|split].
    - cbn. conj; auto; lia.
    - constructor; auto. cbn. lia.
    - intros t. cbn [first_claim]. unfold claims. cbn [verbose_elem d_thin d_data d_len].
      destruct (N.leb_spec (d_thin rm) t); destruct (N.ltb_spec t (d_thin rm + len)); cbn [andb].
      + rewrite HR by lia. rewrite GL by lia. reflexivity.
      + rewrite I3, Hget by lia. reflexivity.
      + rewrite I3. rewrite GL, GR by lia. rewrite (dm_get_below rs' (d_thin rm + len)) by auto. reflexivity.
      + lia. }
  assert (Heq: d_thin rm = d_thin lm) by lia.
  set (len := N.min (d_len lm) (d_len rm)).
  destruct (ms_consume_spec lo (lm :: l') len Hl) as (ls' & -> & Hlen & Hok' & Hfull & _ & Hget); [lia|lia|].
  destruct (ms_consume_spec lo (rm :: r') len Hr) as (rs' & -> & Hlen2 & Hok2 & Hfull2 & _ & Hget2); [lia|lia|].
  cbn [bind]. destruct (IH ls' rs' (d_thin lm + len)) as (ds & -> & I1 & I2 & I3); auto.
  { rewrite <- Heq. auto. }
  { cbn [length] in *. replace (d_thin lm =? d_thin rm) with true in Hf by (symmetry; apply N.eqb_eq; lia).
    assert (heads_differ ls' rs' <= 1)%nat.
    { unfold heads_differ. destruct ls', rs'; auto. destruct (_ =? _); auto. }
    destruct (N.eq_dec len (d_len lm)) as [e|].
    - specialize (Hfull e). lia.
    - assert (e: len = d_len rm) by lia. specialize (Hfull2 e). lia. }
  cbn [bind].
  assert (HO: forall x, simple_elem x = (match x with Same _ => KSame | _ => KDiffer end, d_thin lm, len) ->
      (forall t, claims x t = if (d_thin lm <=? t) && (t <? d_thin lm + len)
          then Some (match x with Same _ => KSame | _ => KDiffer end, Some (d_data lm + (t - d_thin lm)), Some (d_data rm + (t - d_thin lm))) else None) ->
      (match x with Same _ => d_data lm = d_data rm | _ => d_data lm <> d_data rm end) ->
      in_order lo (map simple_elem (x :: ds)) /\
      Forall (fun d => let '(_, b, n) := simple_elem d in b + n < 2 ^ 64) (x :: ds) /\
      forall t, first_claim (x :: ds) t = dclassify (dm_get (lm :: l') t) (dm_get (rm :: r') t)).
  { intros x Hx1 Hx2 Hx3. split; [|split].
    - cbn [map]. rewrite Hx1. cbn. conj; auto; lia.
    - constructor; auto. rewrite Hx1. lia.
    - intros t. cbn [first_claim]. rewrite Hx2.
      destruct (N.leb_spec (d_thin lm) t); destruct (N.ltb_spec t (d_thin lm + len)); cbn [andb].
      + rewrite HL, HR by lia. cbn [dclassify]. rewrite Heq.
        destruct x; try (replace (_ =? _) with false by (symmetry; apply N.eqb_neq; lia); reflexivity).
        replace (_ =? _) with true by (symmetry; apply N.eqb_eq; lia). reflexivity.
      + rewrite I3, Hget, Hget2 by lia. reflexivity.
      + rewrite I3. rewrite GL, GR by lia. rewrite (dm_get_below ls' (d_thin lm + len)) by auto.
        rewrite (dm_get_below rs' (d_thin lm + len)); auto. rewrite <- Heq. auto.
      + lia. }
  destruct (N.eqb_spec (d_data lm) (d_data rm)) as [Hd|Hd].
  - eexists. split; [reflexivity|]. apply HO; auto. intros t. unfold claims. cbn. rewrite <- Hd. reflexivity.
  - eexists. split; [reflexivity|]. apply HO; auto.
Qed.

(** merging *)
Definition k_of (o : option (dkind * option N * option N)) : option dkind := option_map (fun x => fst (fst x)) o.

Definition el_covers (e : dkind * N * N) (t : N) : bool := let '(_, b, n) := e in (b <=? t) && (t <? b + n).
Definition el_kind (e : dkind * N * N) : dkind := fst (fst e).
Fixpoint first_cover (es : list (dkind * N * N)) (t : N) : option dkind :=
  match es with [] => None | e :: r => if el_covers e t then Some (el_kind e) else first_cover r t end.

Lemma first_claim_cover ds t : first_cover (map simple_elem ds) t = k_of (first_claim ds t).
Proof.
  induction ds as [|d r IH]; [reflexivity|]. cbn [map first_cover first_claim].
  unfold claims, el_covers, el_kind. destruct d; cbn; destruct ((_ <=? t) && (t <? _)); cbn; auto.
Qed.

Definition bounded (es : list (dkind * N * N)) := Forall (fun e => let '(_, b, n) := e in b + n < 2 ^ 64) es.

(** dlr_next on elements *)
Lemma dlr_next_spec d d' lo : 
  let '(k, b, n) := simple_elem d in let '(k', b', n') := simple_elem d' in
  lo <= b -> 1 <= n -> b + n <= b' -> 1 <= n' -> b' + n' < 2 ^ 64 ->
  match dlr_next (Some d) d' with
  | (Some x, None) => k = k' /\ b' = b + n /\ simple_elem x = (k, b, n + n')
  | (Some x, Some y) => x = d' /\ y = d /\ ~ (k = k' /\ b' = b + n)
  | _ => False
  end.
Proof.
  destruct d as [m|m|t a c n|m], d' as [m'|m'|t' a' c' n'|m']; cbn [simple_elem]; intros; cbn [dlr_next]; try (conj; auto; intros [? ?]; discriminate);
  unfold merge_dm; rewrite ?wadd_small by lia;
  match goal with |- context [?a =? ?b] => destruct (N.eqb_spec a b) end; cbn [simple_elem d_thin d_len]; conj; auto; try tauto;
  rewrite ?wadd_small by lia; auto.
Qed.

Lemma delta_runs_spec ds : forall run lo,
  in_order lo (map simple_elem (match run with Some d => d :: ds | None => ds end)) ->
  bounded (map simple_elem (match run with Some d => d :: ds | None => ds end)) ->
  in_order lo (map simple_elem (delta_runs_ run ds)) /\
  (forall t, first_cover (map simple_elem (delta_runs_ run ds)) t =
     first_cover (map simple_elem (match run with Some d => d :: ds | None => ds end)) t) /\
  consecutive not_mergeable (map simple_elem (delta_runs_ run ds)) /\
  (forall d, run = Some d -> exists e r, map simple_elem (delta_runs_ run ds) = e :: r /\
     fst e = fst (simple_elem d)).
Proof.
  induction ds as [|d' r IH]; intros run lo Ho Hb.
  - cbn [delta_runs_]. destruct run; cbn in *; conj; auto; try discriminate. intros d0 [= <-]. eauto.
  - cbn [delta_runs_]. destruct run as [d|].
    + pose proof (dlr_next_spec d d' lo) as HS. cbn [map in_order] in Ho. unfold bounded in Hb. cbn [map] in Hb.
      inversion Hb as [|? ? B1 Hb1]; subst. inversion Hb1 as [|? ? B2 Hb2]; subst.
      destruct (simple_elem d) as [[k b] n] eqn:Ed. destruct (simple_elem d') as [[k' b'] n'] eqn:Ed'.
      destruct Ho as (O1 & O2 & O3 & O4 & O5). specialize (HS O1 O2 O3 O4 B2).
      destruct (dlr_next (Some d) d') as [[x|] [y|]] eqn:E; try contradiction.
      * destruct HS as (-> & -> & Hn). destruct (IH (Some d') (b + n)) as (I1 & I2 & I3 & I4).
        { cbn [map in_order]. rewrite Ed'. auto. }
        { cbn [map]. unfold bounded. rewrite Ed'. auto. }
        cbn [map in_order]. rewrite Ed. conj; auto.
        { intros t. cbn [map first_cover]. rewrite I2. rewrite ?Ed. reflexivity. }
        { cbn [consecutive]. split; auto. destruct (I4 d' eq_refl) as (e & r0 & -> & He). rewrite Ed' in He.
          destruct e as [[ke be] ne]. cbn in He. injection He as -> ->. unfold not_mergeable. auto. }
        { intros d0 [= <-]. rewrite Ed. eauto. }
      * destruct HS as (<- & -> & Ex). destruct (IH (Some x) lo) as (I1 & I2 & I3 & I4).
        { cbn [map in_order]. rewrite Ex. conj; auto. lia. replace (b + (n + n')) with (b + n + n') by lia. auto. }
        { cbn [map]. unfold bounded. rewrite Ex. constructor; auto. lia. }
        conj; auto.
        { intros t. rewrite I2. cbn [map first_cover]. rewrite Ed, Ed', Ex. cbn [el_covers el_kind fst].
          destruct (N.leb_spec b t), (N.ltb_spec t (b + n)), (N.leb_spec (b + n) t), (N.ltb_spec t (b + (n + n'))), (N.ltb_spec t (b + n + n')); cbn; auto; lia. }
        { intros d0 [= <-]. destruct (I4 x eq_refl) as (e & r0 & He1 & He2). rewrite Ex in He2. rewrite Ed. eauto. }
    + cbn [dlr_next]. destruct (IH (Some d') lo Ho Hb) as (I1 & I2 & I3 & I4). conj; auto. discriminate.
Qed.

Lemma first_cover_spec es : forall lo, in_order lo es -> forall t k,
  covers es k t <-> first_cover es t = Some k.
Proof.
  induction es as [|[[k0 b] n] r IH]; intros lo Ho t k; cbn in *.
  - split; [|discriminate]. intros (? & ? & [] & ?).
  - destruct Ho as (? & ? & ?). unfold covers in *. cbn [In].
    assert (HB: forall k b' n', In (k, b', n') r -> b + n <= b').
    { clear - H1. revert H1. generalize (b + n). induction r as [|[[? ?] ?] r IH]; intros lo Ho k b' n' Hin; cbn in *; [tauto|].
      destruct Ho as (? & ? & ?). destruct Hin as [[= <- <- <-]|Hin]; auto. specialize (IH _ H1 _ _ _ Hin). lia. }
    destruct (N.leb_spec b t), (N.ltb_spec t (b + n)); cbn [andb]; unfold el_kind; cbn [fst].
    + split.
      * intros (b' & n' & [[= -> -> ->]|Hin] & Hc); auto. apply HB in Hin. lia.
      * intros [= ->]. exists b, n. auto.
    + rewrite <- (IH _ H1). split; intros (b' & n' & Hin & Hc).
      * destruct Hin as [[= -> -> ->]|Hin]; [lia|]. eauto.
      * eauto.
    + rewrite <- (IH _ H1). split; intros (b' & n' & Hin & Hc).
      * destruct Hin as [[= -> -> ->]|Hin]; [lia|]. eauto.
      * eauto.
    + lia.
Qed.

Lemma record_ok kvs : mappings_ok kvs -> dm_ok 0 (record_mappings kvs) /\
  forall t, dm_get (record_mappings kvs) t = option_map bt_block (assoc kvs t).
Proof.
  intros [Hi HF]. destruct (record_spec kvs None 0 Hi HF) as [H1 H2].
  - intros; lia.
  - split; auto.
Qed.
Lemma dclassify_truth L R t :
  dclassify (option_map bt_block (assoc L t)) (option_map bt_block (assoc R t)) = truth L R t.
Proof. unfold truth, classify, dclassify. destruct (assoc L t), (assoc R t); reflexivity. Qed.

Lemma dump_delta_spec L R : mappings_ok L -> mappings_ok R ->
  exists ds, dump_delta_mappings (record_mappings L) (record_mappings R) = Ok ds /\
    in_order 0 (map simple_elem ds) /\ bounded (map simple_elem ds) /\
    forall t, first_claim ds t = truth L R t.
Proof.
  intros HL HR. destruct (record_ok L HL) as [A1 A2], (record_ok R HR) as [B1 B2].
  destruct (delta_loop_spec (S (S (2 * (length (record_mappings L) + length (record_mappings R)))))
              (record_mappings L) (record_mappings R) 0 A1 B1) as (ds & E & I1 & I2 & I3).
  { unfold heads_differ. destruct (record_mappings L), (record_mappings R); try lia. destruct (_ =? _); lia. }
  exists ds. conj; auto.
  - unfold bounded. rewrite Forall_map. auto.
  - intros t. rewrite I3, A2, B2. apply dclassify_truth.
Qed.
