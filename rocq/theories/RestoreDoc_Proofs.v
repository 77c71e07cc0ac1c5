(** All sections of a document. *)
From Coq Require Import Permutation.
From Verif Require Import Base Csum_Model Codec_Model Codec_Spec Codec_Proofs SpaceMap_Model SpaceMap_Spec SpaceMap_Proofs Batcher_Model Batcher_Proofs IoMany_Proofs
  Builder_Model Builder_Spec Builder_Proofs Utils_Proofs NodeBuilder_Proofs BtreeBuild_Proofs Session_Model Session_Spec Session_Proofs ThinOut_Model Walker_Model SmWrite_Model Restore_Model
  RestoreSafe_Proofs Props_SmWrite ContigSafe_Proofs RestoreDoc_Spec RestoreRun_Proofs.

Lemma bmap_perm {V} k (v : V) m : ~ In k (map fst m) -> Permutation (m ++ [(k, v)]) (bmap_insert k v m).
Proof.
  induction m as [|[k' v'] m IH]; cbn [map In fst app bmap_insert]; intros H; auto.
  destruct (N.ltb_spec k k'). { symmetry. change ((k', v') :: m ++ [(k, v)]) with (((k', v') :: m) ++ [(k, v)]). apply Permutation_cons_append. }
  destruct (N.eqb_spec k k'); [subst; tauto|]. constructor. apply IH. tauto.
Qed.
Lemma bmap_increasing {V} k (v : V) m : ~ In k (map fst m) -> increasing (map fst m) -> increasing (map fst (bmap_insert k v m)).
Proof.
  induction m as [|[k' v'] m IH]; cbn [map In fst bmap_insert]; intros H Hi; [split; auto|].
  apply increasing_strong in Hi as [H1 H2].
  destruct (N.ltb_spec k k') as [L|L]; [|destruct (N.eqb_spec k k'); [subst; tauto|]].
  - cbn [map fst]. apply increasing_strong. split; [|apply increasing_strong; auto]. intros y [<-|Hy]; auto. apply H1 in Hy. lia.
  - cbn [map fst]. apply increasing_strong. split; [|apply IH; tauto]. intros y Hy.
    assert (In y (map fst (m ++ [(k, v)]))) as Hy'.
    { eapply Permutation_in; [|exact Hy]. apply Permutation_map. symmetry. apply bmap_perm. tauto. }
    rewrite map_app in Hy'. apply in_app_or in Hy' as [Hy'|[<-|[]]]; auto. cbn [fst]. lia.
Qed.
Lemma find_name {V} (l : list (N * V)) name x : NoDup (map fst l) -> In (name, x) l -> find (fun p => fst p =? name) l = Some (name, x).
Proof.
  induction l as [|[k v] l IH]; intros Hd Hi; [destruct Hi|]. cbn [find fst]. cbn [map fst] in Hd. inversion Hd as [|? ? Hn Hd']; subst.
  destruct Hi as [Hi|Hi].
  - inversion Hi; subst. rewrite N.eqb_refl. auto.
  - destruct (N.eqb_spec k name) as [->|]; auto. exfalso. apply Hn. apply (in_map fst) in Hi. exact Hi.
Qed.
Lemma assoc_nth {V} (l : list (N * V)) k v : assoc l k = Some v -> exists i, nth_error l i = Some (k, v).
Proof.
  induction l as [|[k' v'] l IH]; cbn [assoc]; [discriminate|]. destruct (N.eqb_spec k k') as [->|].
  - intros [= ->]. exists O. auto.
  - intros H. destruct (IH H) as (i & Hi). exists (S i). auto.
Qed.
Lemma combine_app_eq {A B} (a b : list A) (a' b' : list B) : length a = length a' -> combine (a ++ b) (a' ++ b') = combine a a' ++ combine b b'.
Proof. revert a'. induction a as [|x a IH]; intros [|y a'] H; cbn in H; try lia; auto. cbn. f_equal. apply IH. lia. Qed.
Lemma wp_safe {S A} (P : S -> Prop) (m : st S A) s Q E : wp m s Q E -> safe P m any -> P s -> wp m s (fun s a => Q s a /\ P s) E.
Proof. unfold wp, safe. intros H Hs Hp. specialize (Hs s Hp). destruct (m s) as [s' [a| |]]; auto. split; [auto|apply Hs]. Qed.

Definition run_t := (N * (list summary * list (list (N * block_time))))%type.
Definition runs_of (P : list run_t) := map (fun p => fst (snd p)) P.
Definition rks_of (P : list run_t) := map (fun p => snd (snd p)) P.
Definition defs_of (P : list run_t) := map (fun p => (fst p, concat (snd (snd p)))) P.
Definition subs_of (P : list run_t) := map (fun p => (fst p, fst (snd p))) P.

(** From names to positions. *)
Lemma content_items P subs its : NoDup (map fst P) -> Permutation (subs_of P) subs ->
  forall kvs, content_entries (defs_of P) its = Some kvs ->
  Forall (fun kv : N * block_time => fst kv < 2 ^ 64 /\ bt_range (snd kv)) kvs ->
  (forall name, In (CRef name) its -> assoc (defs_of P) name <> Some []) ->
  exists items, expand (map (@concat _) (rks_of P)) items = Some kvs /\ item_ops (runs_of P) items = content_ops subs its /\
    forall i, In (IRef i) items -> nth_error (map (@concat _) (rks_of P)) i <> Some [].
Proof.
  intros Hd Hp. induction its as [|[m|name] its IH]; intros kvs Hc HF Hr; cbn [content_entries content_ops] in *.
  - injection Hc as <-. exists []. conj; auto.
  - destruct (content_entries _ its) as [l|] eqn:El; [|discriminate]. injection Hc as <-. apply Forall_app in HF as [F1 F2].
    destruct (IH l eq_refl F2) as (items & A & B & C); [intros; apply Hr; right; auto|].
    exists (map (fun kv => IVal (fst kv) (snd kv)) (map_entries m) ++ items). conj.
    + clear - A. induction (map_entries m) as [|[k v] es IH]; cbn [map app expand]; auto. rewrite IH. reflexivity.
    + rewrite map_ops_entries by auto. rewrite <- B. clear. induction (map_entries m) as [|[k v] es IH]; cbn [map app item_ops].
      * destruct (item_ops _ items); auto.
      * rewrite IH. cbn [fst snd]. destruct (item_ops (runs_of P) items); reflexivity.
    + intros i Hi. apply in_app_or in Hi as [Hi|Hi]; auto. apply in_map_iff in Hi as (? & ? & _). discriminate.
  - destruct (assoc (defs_of P) name) as [r|] eqn:Er; [|discriminate]. destruct (content_entries _ its) as [l|] eqn:El; [|discriminate].
    injection Hc as <-. apply Forall_app in HF as [F1 F2].
    destruct (IH l eq_refl F2) as (items & A & B & C); [intros; apply Hr; right; auto|].
    pose proof Er as Er0. apply assoc_nth in Er as (i & Hi). unfold defs_of in Hi. rewrite nth_error_map in Hi.
    destruct (nth_error P i) as [[nm [run kvss]]|] eqn:Ei; [|discriminate]. cbn in Hi. injection Hi as -> <-.
    assert (Hf : find (fun p => fst p =? name) subs = Some (name, run)).
    { apply find_name.
      - eapply Permutation_NoDup; [apply Permutation_map; exact Hp|]. unfold subs_of. rewrite map_map. exact Hd.
      - eapply Permutation_in; [exact Hp|]. unfold subs_of. apply in_map_iff. exists (name, (run, kvss)). split; auto. eapply nth_error_In; eauto. }
    assert (N1 : nth_error (map (@concat _) (rks_of P)) i = Some (concat kvss)).
    { unfold rks_of. rewrite !nth_error_map, Ei. reflexivity. }
    assert (N2 : nth_error (runs_of P) i = Some run) by (unfold runs_of; rewrite nth_error_map, Ei; reflexivity).
    exists (IRef i :: items). conj.
    + cbn [expand]. rewrite N1, A. auto.
    + cbn [item_ops]. rewrite N2, B, Hf. reflexivity.
    + intros j [E|Hj]; auto. injection E as ->. rewrite N1. intros E. apply (Hr name); [left; auto|]. rewrite Er0. exact E.
Qed.

(** The same when the first reference may be to an empty definition. *)
Lemma content_items_first P subs its : NoDup (map fst P) -> Permutation (subs_of P) subs ->
  forall kvs, content_entries (defs_of P) its = Some kvs ->
  Forall (fun kv : N * block_time => fst kv < 2 ^ 64 /\ bt_range (snd kv)) kvs ->
  (forall name, In (CRef name) (tl its) -> assoc (defs_of P) name <> Some []) ->
  exists items, expand (map (@concat _) (rks_of P)) items = Some kvs /\ item_ops (runs_of P) items = content_ops subs its /\
    forall i, In (IRef i) (tl items) -> nth_error (map (@concat _) (rks_of P)) i <> Some [].
Proof.
  intros Hd Hp kvs Hc HF Hr.
  assert (HD : (forall name, In (CRef name) its -> assoc (defs_of P) name <> Some []) \/
               exists name its', its = CRef name :: its' /\ assoc (defs_of P) name = Some []).
  { destruct its as [|[m|name] its']; [left; intros ? []|left; intros i [[=]|Hi]; auto|].
    destruct (assoc (defs_of P) name) as [[|kv r]|] eqn:E.
    - right. eauto.
    - left. intros j [[= <-]|Hj]; [congruence|auto].
    - left. intros j [[= <-]|Hj]; [congruence|auto]. }
  destruct HD as [HD|(name & its' & -> & Er)].
  { destruct (content_items P subs its Hd Hp kvs Hc HF HD) as (items & A & B & C). exists items. conj; auto. intros i Hi. apply C. destruct items; [destruct Hi|right; auto]. }
  cbn [content_entries] in Hc. rewrite Er in Hc. destruct (content_entries (defs_of P) its') as [l|] eqn:El; [|discriminate]. cbn [app] in Hc. injection Hc as ->.
  destruct (content_items P subs its' Hd Hp kvs El HF Hr) as (items & A & B & C).
  apply assoc_nth in Er as (i & Hi). unfold defs_of in Hi. rewrite nth_error_map in Hi.
  destruct (nth_error P i) as [[nm [run kvss]]|] eqn:Ei; [|discriminate]. cbn in Hi. injection Hi as -> Hk.
  assert (Hf : find (fun p => fst p =? name) subs = Some (name, run)).
  { apply find_name.
    - eapply Permutation_NoDup; [apply Permutation_map; exact Hp|]. unfold subs_of. rewrite map_map. exact Hd.
    - eapply Permutation_in; [exact Hp|]. unfold subs_of. apply in_map_iff. exists (name, (run, kvss)). split; auto. eapply nth_error_In; eauto. }
  assert (N1 : nth_error (map (@concat _) (rks_of P)) i = Some []).
  { unfold rks_of. rewrite !nth_error_map, Ei. cbn. rewrite Hk. reflexivity. }
  assert (N2 : nth_error (runs_of P) i = Some run) by (unfold runs_of; rewrite nth_error_map, Ei; reflexivity).
  exists (IRef i :: items). conj.
  - cbn [expand]. rewrite N1, A. auto.
  - cbn [item_ops content_ops]. rewrite N2, B, Hf. reflexivity.
  - exact C.
Qed.

Section Doc.
Variables n max nd mx : N.
Hypothesis Hn : n < 2 ^ 64.
Hypothesis Hnd : nd < 2 ^ 64.
Variable w0 : wb.
Notation rep := (mapping_rep nd mx (fun _ => 0)).
Notation bad := (mapping_bad nd mx (fun _ => 0)).
Definition dev_entry (d : device) (root : N) : N * (device_detail * N) := (dv_id d, (dv_details d, root)).
Definition entries_for (done : list device) (roots : list N) := map (fun p => dev_entry (fst p) (snd p)) (combine done roots).

Record RI (P : list run_t) (done : list device) roots ts w (subs : list (N * list summary)) dv (rc : core_sm) LS : Prop := {
  ri_si : SI n max bt_codec rep w0 [] (concat (runs_of P)) (concat (rks_of P)) roots ts w rc LS;
  ri_runs : runs_ok bt_codec (runs_of P) (rks_of P);
  ri_names : NoDup (map fst P);
  ri_subs : Permutation (subs_of P) subs;
  ri_ts : map (fun t : @tinfo block_time => snd (fst t)) ts = map dv_maps done;
  ri_len : length roots = length done;
  ri_roots : Forall (fun r => r < n) roots;
  ri_devs : Permutation (entries_for done roots) dv;
  ri_sorted : increasing (map fst dv);
  ri_ids : NoDup (map dv_id done);
  ri_range : Forall (fun d => dv_id d < 2 ^ 64 /\ dd_range (dv_details d)) done;
  ri_ci : CI n max w }.

Lemma m_bt : calc_max_entries bt_codec = 252.
Proof using. reflexivity. Qed.
Lemma run_alloc P done roots ts w subs dv rc LS : RI P done roots ts w subs dv rc LS ->
  forall b, In b (map su_block (concat (runs_of P))) -> In b (wb_allocs w).
Proof using Hn Hnd.
  intros H b Hb. destruct (ri_ci _ _ _ _ _ _ _ _ _ H) as (_ & k & (Hk & Ha & Ho) & _). apply Ha.
  destruct (N.lt_ge_cases b k) as [|Hge]; auto. exfalso. specialize (Ho b Hge).
  pose proof (si_counts _ _ _ _ _ _ _ _ _ _ _ _ _ (ri_si _ _ _ _ _ _ _ _ _ H) b) as Hc. unfold cnt in Hc. apply occ_in in Hb. lia.
Qed.
Lemma failed_within all (kvs : list (N * block_time)) (LS : list (N * list block_time)) U w :
  build_failed n max bad (map snd kvs ++ concat (map snd LS) ++ []) w -> within (concat (map snd LS)) U ->
  within (map snd kvs ++ U) all -> build_failed n max bad all w.
Proof using Hn Hnd.
  intros [H|(v & vs & Hb & Hw)] HU Ha; [left; auto|right]. exists v, vs. split; auto.
  eapply within_trans; [exact Hw|]. rewrite app_nil_r. eapply within_trans; [|exact Ha]. apply within_app2; auto. apply within_refl.
Qed.
Lemma fst_entries done : forall roots, length roots = length done -> map fst (entries_for done roots) = map dv_id done.
Proof using Hn Hnd.
  unfold entries_for. induction done as [|d done IH]; intros [|r roots] H; cbn in H; try lia; auto. cbn. f_equal. apply IH. lia.
Qed.

Lemma sections_wp o sb Q all rest : forall secs P done devs roots ts w subs dv rc LS U,
  sections (defs_of P) secs devs -> RI P done roots ts w subs dv rc LS ->
  within (concat (map snd LS)) U -> within (doc_values secs devs ++ U) all ->
  (forall d, In d (map dv_id devs) -> ~ In d (map dv_id done)) ->
  (forall P' roots' ts' w' subs' dv' rc' LS', RI P' (done ++ devs) roots' ts' w' subs' dv' rc' LS' ->
     wp (visits o rest) (between w' subs' sb dv' rc') Q (fun s => build_failed n max bad all (r_w s))) ->
  wp (visits o (flat_map sect_events secs ++ rest)) (between w subs sb dv rc) Q (fun s => build_failed n max bad all (r_w s)).
Proof using Hn Hnd.
  pose proof (mapping_ok nd mx (fun _ => 0) Hnd) as Hrc.
  assert (Hm4 : 4 <= calc_max_entries bt_codec) by (rewrite m_bt; lia).
  induction secs as [|x secs IH]; intros P done devs roots ts w subs dv rc LS U Hs HI HU Ha Hdis HQ.
  { inversion Hs; subst. rewrite app_nil_r in HQ. cbn [flat_map app]. eapply HQ; eauto. }
  pose proof (ri_si _ _ _ _ _ _ _ _ _ HI) as S. destruct x as [name ms|d its]; cbn [flat_map]; rewrite <- app_assoc.
  - inversion Hs as [|? ? ? ? ? Hnew Hok Hs'|]; subst. apply def_wp. rewrite maps_ops_entries by apply Hok.
    assert (HJ : J n max [] w) by (split; [apply (ri_ci _ _ _ _ _ _ _ _ _ HI)|intros ? []]).
    eapply wp_mono; [eapply wp_safe; [|apply (j_build_nodes n max Hn []); apply values_in; intros kv; eauto|exact HJ]| |].
    + apply (define_wp n max Hn bt_codec bt_range mapping_inc rep bad bt_lossless eq_refl Hm4 Hrc w0 [] _ _ _ _ _ _ _ _ S Hok).
    + intros w' [ns rc'] [(kvss' & LS' & S' & Hc & Hl & Hne & Hh & HU') [HC _]]. cbn [fst snd] in *.
      assert (Hnew' : ~ In name (map fst P)).
      { intros Hi. apply Hnew. unfold defs_of. rewrite map_map. exact Hi. }
      assert (Hnsub : ~ In name (map fst subs)).
      { intros Hi. apply Hnew'. assert (Hi' : In name (map fst (subs_of P))).
        { eapply Permutation_in; [|exact Hi]. apply Permutation_map. symmetry. apply (ri_subs _ _ _ _ _ _ _ _ _ HI). }
        unfold subs_of in Hi'. rewrite map_map in Hi'. exact Hi'. }
      eapply (IH (P ++ [(name, (ns, kvss'))]) done devs roots ts w' _ dv rc' LS' (map snd (flat_map map_entries ms) ++ U)); auto.
      * unfold defs_of. rewrite map_app. cbn [map fst snd]. rewrite Hc. exact Hs'.
      * destruct HI. constructor; auto.
        -- unfold runs_of, rks_of. rewrite !map_app, !concat_app. cbn [map concat fst snd]. rewrite !app_nil_r. exact S'.
        -- unfold runs_of, rks_of. rewrite !map_app. apply Forall2_app; [auto|]. constructor; [|constructor]. cbn [fst snd]. conj; auto.
        -- rewrite map_app. cbn [map fst]. eapply Permutation_NoDup; [apply Permutation_cons_append|]. constructor; auto.
        -- unfold subs_of. rewrite map_app. cbn [map fst snd]. etransitivity; [|apply bmap_perm; auto]. apply Permutation_app_tail. auto.
      * eapply within_trans; [exact HU'|]. apply within_app2; auto. apply within_refl.
      * eapply within_trans; [|exact Ha]. exists []. rewrite app_nil_r. unfold doc_values. cbn [flat_map]. perm.
    + intros w' Hf. eapply failed_within; [exact Hf|exact HU|]. eapply within_trans; [|exact Ha]. unfold doc_values. cbn [flat_map].
      exists (flat_map (fun x => match x with SDef _ ms => map snd (flat_map map_entries ms) | SDev _ _ => [] end) secs ++ flat_map (fun d => map snd (dv_maps d)) devs). perm.
  - inversion Hs as [| |? ? ? kvs ? devs0 Hce Hok Href Hid Hdd Hnid Hs']; subst.
    destruct (content_items_first P subs its (ri_names _ _ _ _ _ _ _ _ _ HI) (ri_subs _ _ _ _ _ _ _ _ _ HI) kvs Hce (proj2 Hok) Href) as (items & I1 & I2 & I3).
    assert (Hpos : forall s, In s (concat (runs_of P)) -> 0 < cnt w (su_block s)).
    { intros s Hs0. rewrite (si_counts _ _ _ _ _ _ _ _ _ _ _ _ _ S). apply (in_map su_block) in Hs0. apply occ_in in Hs0. lia. }
    destruct (item_pushed n max Hn bt_codec eq_refl Hm4 w (runs_of P) (rks_of P) items (si_env _ _ _ _ _ _ _ _ _ _ _ _ _ S) (ri_runs _ _ _ _ _ _ _ _ _ HI)
       (si_nodes _ _ _ _ _ _ _ _ _ _ _ _ _ S) (si_shared _ _ _ _ _ _ _ _ _ _ _ _ _ S) Hpos kvs I1 I3) as (os & O1 & O2 & O3).
    rewrite I2 in O1. apply dev_wp with (os := os); auto.
    assert (HJ : J n max (map su_block (concat (runs_of P))) w) by (split; [apply (ri_ci _ _ _ _ _ _ _ _ _ HI)|eapply run_alloc; eauto]).
    eapply wp_mono; [eapply wp_safe; [|apply (j_btree_build n max Hn (map su_block (concat (runs_of P))))|exact HJ]| |].
    + apply (tree_wp n max Hn bt_codec bt_range mapping_inc rep bad bt_lossless eq_refl Hm4 Hrc w0 [] _ _ _ _ _ _ _ _ kvs S O2 O3 Hok).
    + eapply Forall_impl; [|exact O3]. intros [k v|ns] Ho; [exact I|]. cbn [op_in op_pre] in *. eapply Forall_impl; [|exact Ho].
      intros s Hs0. apply in_map. exact Hs0.
    + intros w' [root rc'] [(t & LS' & S' & Ht & Hlt & HU') [HC _]]. cbn [fst snd] in *.
      assert (Hnd' : ~ In (id_dev d) (map dv_id done)) by (apply Hdis; left; auto).
      assert (Hndv : ~ In (id_dev d) (map fst dv)).
      { intros Hi. apply Hnd'. rewrite <- (fst_entries done roots) by apply HI. eapply Permutation_in; [|exact Hi].
        apply Permutation_map. symmetry. apply HI. }
      eapply (IH P (done ++ [mkdev (id_dev d) (details_of d) kvs]) devs0 (roots ++ [root]) (ts ++ [t]) w' subs _ rc' LS' (map snd kvs ++ U)); auto.
      * destruct HI. constructor; auto.
        -- rewrite !map_app. cbn [map]. rewrite Ht. f_equal. auto.
        -- rewrite !app_length, ri_len0. auto.
        -- apply Forall_app. split; auto.
        -- unfold entries_for. rewrite combine_app_eq by (symmetry; auto). rewrite map_app. cbn [combine map fst snd].
           etransitivity; [|apply bmap_perm; auto]. apply Permutation_app_tail. auto.
        -- apply bmap_increasing; auto.
        -- rewrite map_app. cbn [map dv_id]. eapply Permutation_NoDup; [apply Permutation_cons_append|]. constructor; auto.
        -- apply Forall_app. split; auto.
      * eapply within_trans; [exact HU'|]. apply within_app2; auto. apply within_refl.
      * eapply within_trans; [|exact Ha]. exists []. rewrite app_nil_r. unfold doc_values. cbn [flat_map dv_maps]. perm.
      * intros e He. rewrite map_app. cbn [map dv_id]. intros Hi. apply in_app_or in Hi as [Hi|[<-|[]]]; [|auto].
        exact (Hdis e (or_intror He) Hi).
      * rewrite <- app_assoc. exact HQ.
    + intros w' Hf. eapply failed_within; [exact Hf|exact HU|]. eapply within_trans; [|exact Ha]. unfold doc_values. cbn [flat_map dv_maps].
      exists (flat_map (fun x => match x with SDef _ ms => map snd (flat_map map_entries ms) | SDev _ _ => [] end) secs ++ flat_map (fun d => map snd (dv_maps d)) devs0). perm.
Qed.
End Doc.
