(** From the trees to the document. *)
From Verif Require Import Base Csum_Model Codec_Model Codec_Spec Codec_Proofs NodeCodec_Proofs SpaceMap_Model Utils_Model Utils_Spec Utils_Proofs UtilsNum_Proofs
  Pack_Proofs Builder_Model Builder_Spec BtreeRead_Proofs Walker_Model Walker_Spec Walker_Proofs ThinOut_Model ThinOut_Spec ThinOut_Proofs ThinCheck_Spec Runs_Model Runs_Spec
  Restore_Model Repair_Model RestoreDoc_Spec Dump_Model Dump_Spec Dump_Proofs Props_Runs.

(** ** The content of a leaf *)
Definition content_at (eng : N -> option (list N)) (b : N) : list (N * block_time) :=
  match eng b with Some data => match dump_leaf data with Ok kvs => kvs | _ => [] end | None => [] end.
Lemma content_is eng b kvs : leaf_is eng b kvs -> content_at eng b = kvs.
Proof.
  intros (data & h & ks & vs & E & T & U & ->). unfold content_at, dump_leaf. rewrite E, T, U. reflexivity.
Qed.
Lemma contents eng ls kvss : Forall2 (leaf_is eng) ls kvss -> flat_map (content_at eng) ls = concat kvss.
Proof. induction 1; cbn [flat_map concat]; auto. rewrite (content_is _ _ _ H). f_equal. auto. Qed.

Section Doc.
Context (nr : N) (eng : N -> option (list N)).
Hypothesis Hdev : device_of nr eng.

Lemma leaf_range b kvs : leaf_is eng b kvs -> Forall (fun kv => bt_range (snd kv)) kvs.
Proof using Hdev.
  intros (data & h & ks & vs & E & T & U & ->). destruct (proj2 Hdev b data E) as (_ & HL & HB).
  pose proof (unpack_node_sound bt_codec bt_range data true true (Leaf h ks vs) bt_lossless ltac:(cbn; lia) HB ltac:(unfold nlen; lia) U) as [HX _].
  unfold node_layout in HX. decompose [and] HX. 
  match goal with H : forall j v, _ -> nth_error vs _ = _ -> _ /\ _ |- _ => rename H into HR end.
  rewrite Forall_forall. intros [k v] Hin. apply in_combine_r in Hin. apply In_nth_error in Hin as (j & Hj). cbn [snd].
  apply (HR (N.of_nat j) v); rewrite ?Nat2N.id; auto. apply nth_error_Some in Hj || idtac.
  assert (j < length vs)%nat by (apply nth_error_Some; congruence). unfold nlen in *. cbn [get_header get_keys] in *. lia.
Qed.

(** ** Collecting the leaves *)
Lemma set_insert_in x l y : In y (snd (set_insert x l)) <-> y = x \/ In y l.
Proof using.
  induction l as [|z l IH]; cbn [set_insert]; [cbn; intuition|]. destruct (N.ltb_spec x z); [cbn; intuition|]. destruct (N.eqb_spec x z); [subst; cbn; intuition|].
  destruct (set_insert x l) as [nw l']. cbn [snd] in *. cbn [In]. rewrite IH. intuition.
Qed.
Lemma roots_in (devs : list (N * (N * device_detail))) : forall l y,
  In y (fold_left (fun l d => snd (set_insert (fst (snd d)) l)) devs l) <-> In y l \/ exists d, In d devs /\ y = fst (snd d).
Proof using.
  induction devs as [|d devs IH]; intros l y; cbn [fold_left]; [split; [auto|intros [?|(? & [] & _)]; auto]|]. rewrite IH, set_insert_in. split.
  - intros [[->|?]|(d' & H & E)]; auto; right; [exists d; split; [left|]; auto|exists d'; split; [right|]; auto].
  - intros [?|(d' & [<-|H] & E)]; eauto.
Qed.

Lemma collect_ok : forall roots sm, r_nr sm = nr -> Forall (fun r => exists depth kvs, mapping_tree eng true depth r kvs) roots ->
  exists m, collect_leaves nr eng roots sm = Ok m /\
    forall r depth kvs, In r roots -> mapping_tree eng true depth r kvs -> map_get m r = Some (map EnLeaf (tree_leaves eng depth r)).
Proof using Hdev.
  induction roots as [|r roots IH]; intros sm Hs HF; [exists []; split; [auto|intros ? ? ? []]|]. apply Forall_cons_iff in HF as [(depth & kvs & Ht) HF].
  destruct (lw_walk_ok nr eng Hdev depth r kvs sm Ht Hs) as (sm' & out & E & Hs' & Eo). cbn [collect_leaves]. rewrite E.
  destruct (IH sm' Hs' HF) as (m & Em & Hm). rewrite Em. eexists. split; [reflexivity|]. intros r' d' k' Hin Ht'. cbn [map_get].
  destruct (N.eqb_spec r' r) as [->|Hne].
  - rewrite <- (tree_depth eng depth d' true true r kvs k' Ht Ht'), <- Eo, map_map. reflexivity.
  - destruct Hin as [->|Hin]; [congruence|]. eapply Hm; eauto.
Qed.

Definition leaves_are (p : pool_dev) (l : list N) : Prop :=
  exists depth, mapping_tree eng true depth (pd_root p) (pd_maps p) /\ l = tree_leaves eng depth (pd_root p).
Definition pd_tuple (p : pool_dev) : N * (N * device_detail) := (pd_id p, (pd_root p, pd_detail p)).
Definition pd_md (x : pool_dev * list entry) : md_dev := mkmd (pd_id (fst x)) (pd_detail (fst x)) (snd x).

Lemma build_ok pool : pool_ok eng pool -> exists Ls, Forall2 leaves_are pool Ls /\
  build_metadata_with_dev_ nr eng (map pd_tuple pool) = Ok (mkmeta [] (map pd_md (combine pool (map (map EnLeaf) Ls))) nr).
Proof using Hdev.
  intros [Ht [_ Hid] _ _]. unfold build_metadata_with_dev_. set (roots := fold_left _ _ _).
  assert (HR : forall y, In y roots <-> exists p, In p pool /\ y = pd_root p).
  { intros y. unfold roots. rewrite roots_in. split; [intros [[]|(d & Hd & ->)]|intros (p & Hp & ->); right].
    - apply in_map_iff in Hd as (p & <- & Hp). exists p. auto.
    - exists (pd_tuple p). split; [apply in_map; auto|reflexivity]. }
  destruct (collect_ok roots (rsm_new nr) eq_refl) as (m & Em & Hm).
  { rewrite Forall_forall. intros y Hy. apply HR in Hy as (p & Hp & ->). rewrite Forall_forall in Ht. destruct (Ht p Hp) as (d & H). eauto. }
  rewrite Em. cbn [bind]. 
  assert (HB : forall l, (forall p, In p l -> In p pool) -> exists Ls, Forall2 leaves_are l Ls /\ build_devs m (map pd_tuple l) = Ok (map pd_md (combine l (map (map EnLeaf) Ls)))).
  { induction l as [|p l IH]; intros Hin; [exists []; split; [constructor|reflexivity]|]. destruct IH as (Ls & A & B); [intros; apply Hin; right; auto|].
    pose proof (Hin p (or_introl eq_refl)) as Hp. rewrite Forall_forall in Ht, Hid. destruct (Ht p Hp) as (d & H). specialize (Hid p Hp).
    exists (tree_leaves eng d (pd_root p) :: Ls). split; [constructor; auto; exists d; auto|]. cbn [map build_devs pd_tuple].
    rewrite (Hm (pd_root p) d (pd_maps p)); [|apply HR; eauto|auto]. change (map (fun p0 => pd_tuple p0) l) with (map pd_tuple l). rewrite B. cbn [bind combine map pd_md fst snd].
    rewrite N.mod_small by (unfold W32; lia). reflexivity. }
  destruct (HB pool) as (Ls & A & B); auto. exists Ls. split; auto. rewrite B. reflexivity.
Qed.

(** ** What is printed *)
Definition printable (b : N) : Prop :=
  leaf_is eng b (content_at eng b) /\ Forall (fun kv => fst kv < 2 ^ 64 - 1 /\ bt_block (snd kv) < 2 ^ 40) (content_at eng b).
Lemma print_leaves ls : Forall printable ls -> exists ms, emit_leaves eng ls = (map EvMap ms, Ok tt) /\ flat_map map_entries ms = flat_map (content_at eng) ls.
Proof using.
  intros HF. assert (F2 : Forall2 (leaf_is eng) ls (map (content_at eng) ls)) by (induction HF as [|x l [H _]]; constructor; auto).
  unfold emit_leaves. rewrite (emit_leaves_runs eng ls _ F2). eexists. split; [reflexivity|].
  assert (HB : Forall (fun kv => fst kv < 2 ^ 64 - 1 /\ bt_block (snd kv) < 2 ^ 40) (concat (map (content_at eng) ls))).
  { clear F2. induction HF as [|x l [_ H]]; cbn [map concat]; [constructor|apply Forall_app; auto]. }
  destruct (runs_of_spec (concat (map (content_at eng) ls)) None) as (R & _); cbn; auto.
  { eapply Forall_impl; [|apply HB]. cbv beta. intros; lia. }
  { apply small_no_wrap; [|discriminate]. rewrite Forall_map. eapply Forall_impl; [|apply HB]. cbv beta. intros; lia. }
  cbn [opt_expand app] in R. rewrite !flat_map_concat_map. exact R.
Qed.

Lemma content_entries_app D : forall a b x y, content_entries D a = Some x -> content_entries D b = Some y -> content_entries D (a ++ b) = Some (x ++ y).
Proof using.
  induction a as [|[m|n] a IH]; intros b x y Ha Hb; cbn [content_entries app] in *.
  - injection Ha as <-. exact Hb.
  - destruct (content_entries D a) as [l|]; [|discriminate]. injection Ha as <-. rewrite (IH b l y eq_refl Hb), app_assoc. reflexivity.
  - destruct (assoc D n) as [k|]; [|discriminate]. destruct (content_entries D a) as [l|]; [|discriminate]. injection Ha as <-. rewrite (IH b l y eq_refl Hb), app_assoc. reflexivity.
Qed.
Lemma content_maps D ms : content_entries D (map CMap ms) = Some (flat_map map_entries ms).
Proof using. induction ms as [|m ms IH]; cbn [map content_entries flat_map]; auto. rewrite IH. reflexivity. Qed.

Lemma print_entries D resolve es : forall pend, Forall printable pend -> (forall b, In (EnLeaf b) es -> printable b) ->
  (forall n, In (EnRef n) es -> assoc D n = Some (resolve n)) ->
  exists its, emit_entries_ eng pend es = (map content_event its, Ok tt) /\
    content_entries D its = Some (flat_map (content_at eng) pend ++ flat_map (denote_entry (content_at eng) resolve) es) /\
    forall n, In (CRef n) its -> In (EnRef n) es.
Proof using.
  assert (HP : forall pend, Forall printable pend -> exists ms, match pend with [] => ([], Ok tt) | _ => emit_leaves eng pend end = (map EvMap ms, Ok tt) /\
     flat_map map_entries ms = flat_map (content_at eng) pend).
  { intros pend HF. destruct pend as [|b pend]; [exists []; auto|]. apply (print_leaves (b :: pend) HF). }
  induction es as [|[b|n] es IH]; intros pend Hp He Hr; cbn [emit_entries_].
  - destruct (HP pend Hp) as (ms & E & F). rewrite E. exists (map CMap ms). rewrite map_map. conj; auto.
    + rewrite content_maps, F. cbn [flat_map]. rewrite app_nil_r. reflexivity.
    + intros n Hin. apply in_map_iff in Hin as (m & X & _). discriminate.
  - destruct (IH (pend ++ [b])) as (its & A & B & C).
    + apply Forall_app. split; auto. constructor; [apply He; left; auto|constructor].
    + intros x Hx. apply He. right; auto.
    + intros n Hn. apply Hr. right; auto.
    + exists its. conj; auto.
      * rewrite B, flat_map_app. cbn [flat_map denote_entry]. rewrite app_nil_r, <- app_assoc. reflexivity.
      * intros n Hn. right. auto.
  - destruct (HP pend Hp) as (ms & E & F). rewrite E. destruct (IH []) as (its & A & B & C).
    + constructor.
    + intros x Hx. apply He. right; auto.
    + intros n' Hn. apply Hr. right; auto.
    + rewrite A. exists (map CMap ms ++ CRef n :: its). conj.
      * rewrite map_app, map_map. cbn [map content_event]. reflexivity.
      * apply content_entries_app; [rewrite content_maps, F; reflexivity|]. cbn [content_entries flat_map denote_entry]. rewrite (Hr n) by (left; auto). rewrite B. reflexivity.
      * intros n' Hn. apply in_app_or in Hn as [Hn|[[= ->]|Hn]]; [|left; auto|right; auto]. apply in_map_iff in Hn as (m & X & _). discriminate.
Qed.

(** ** The sections *)
Definition def_maps (es : list entry) : list (N * block_time) := flat_map (content_at eng) (flat_map leaf_of es).
Definition defs_mean (defs : list (N * list entry)) : list (N * list (N * block_time)) := map (fun d => (fst d, def_maps (snd d))) defs.
Definition resolve_in (defs : list (N * list entry)) (n : N) : list (N * block_time) := def_maps (def_entries defs n).
Lemma assoc_defs defs n : In n (map fst defs) -> assoc (defs_mean defs) n = Some (resolve_in defs n).
Proof using.
  unfold resolve_in. induction defs as [|[m es] defs IH]; intros H; [destruct H|]. cbn [defs_mean map fst snd assoc def_entries] in *.
  rewrite (N.eqb_sym m n). destruct (N.eqb_spec n m) as [->|Hne]; [reflexivity|]. destruct H as [->|H]; [congruence|]. apply IH; auto.
Qed.
Lemma leaf_of_leaves l : flat_map leaf_of (map EnLeaf l) = l.
Proof using. induction l as [|x l IH]; cbn [map flat_map leaf_of app]; congruence. Qed.
Lemma print_def l : Forall printable l -> exists ms, emit_entries eng (map EnLeaf l) = (map EvMap ms, Ok tt) /\ flat_map map_entries ms = flat_map (content_at eng) l.
Proof using.
  intros H. assert (HG : forall l pend, emit_entries_ eng pend (map EnLeaf l) = match pend ++ l with [] => ([], Ok tt) | _ => emit_leaves eng (pend ++ l) end).
  { induction l0 as [|x l0 IH]; intros pend; cbn [map emit_entries_]; [rewrite app_nil_r; reflexivity|]. rewrite IH, <- app_assoc. reflexivity. }
  unfold emit_entries. rewrite HG. cbn [app]. destruct l as [|x l]; [exists []; auto|]. apply (print_leaves (x :: l) H).
Qed.
Lemma dump_defs rest : forall defs, (forall id es, In (id, es) defs -> exists l, es = map EnLeaf l /\ Forall printable l) ->
  exists secs, dump_sections eng (fun d => EvDefB (fst d)) snd EvDefE defs rest = (flat_map sect_events secs ++ fst rest, snd rest) /\
    (forall acc more devs, NoDup (map fst defs) -> (forall n, In n (map fst acc) -> ~ In n (map fst defs)) ->
      (forall id es, In (id, es) defs -> entries_ok bt_range (def_maps es)) ->
      sections (acc ++ defs_mean defs) more devs -> sections acc (secs ++ more) devs) /\
    forall x, In x secs -> exists id ms es, x = SDef id ms /\ In (id, es) defs /\ flat_map map_entries ms = def_maps es.
Proof using.
  induction defs as [|[id es] defs IH]; intros Hd; cbn [dump_sections].
  - exists []. split; [destruct rest; reflexivity|]. split; [|intros x []]. intros acc more devs _ _ _ H. cbn [defs_mean map] in H. rewrite app_nil_r in H. exact H.
  - destruct IH as (secs & E & S & X); [intros; eapply Hd; right; eauto|]. destruct (Hd id es (or_introl eq_refl)) as (l & -> & Hl).
    destruct (print_def l Hl) as (ms & Em & Fm). cbn [fst snd]. rewrite Em, E. exists (SDef id ms :: secs). conj.
    + cbn [flat_map sect_events]. cbn [app]. rewrite <- !app_assoc. reflexivity.
    + intros acc more devs HN Hdis He Hs. cbn [app map fst] in *. inversion HN as [|? ? N1 N2]; subst.
      assert (EM : flat_map map_entries ms = def_maps (map EnLeaf l)) by (unfold def_maps; rewrite leaf_of_leaves; exact Fm).
      apply secs_def.
      * intros Hin. apply (Hdis id Hin). left; auto.
      * rewrite EM. apply (He id). left; auto.
      * apply S; auto.
        -- intros n Hn Hn2. rewrite map_app in Hn. apply in_app_or in Hn as [Hn|[<-|[]]]; [apply (Hdis n Hn); right; auto|auto].
        -- intros id' es' Hin. apply (He id'). right; auto.
        -- cbn [defs_mean map fst snd] in Hs. rewrite <- app_assoc. cbn [app]. rewrite EM. exact Hs.
    + intros x [<-|Hx].
      * exists id, ms, (map EnLeaf l). conj; auto; [left; auto|]. unfold def_maps. rewrite leaf_of_leaves. exact Fm.
      * destruct (X x Hx) as (i & m & e & A & B & C). exists i, m, e. conj; auto. right; auto.
Qed.
Lemma dump_devs D resolve : forall xs : list (pool_dev * list entry),
  (forall p es, In (p, es) xs -> (forall b, In (EnLeaf b) es -> printable b) /\ (forall n, In (EnRef n) es -> assoc D n = Some (resolve n) /\ (resolve n <> [] \/ es = [EnRef n])) /\
     flat_map (denote_entry (content_at eng) resolve) es = pd_maps p /\ entries_ok bt_range (pd_maps p) /\ pd_id p < 2 ^ 32 /\ dd_range (pd_detail p)) ->
  NoDup (map (fun x => pd_id (fst x)) xs) ->
  exists secs, dump_sections eng (fun d => EvDevB (dev_ir d)) md_entries EvDevE (map pd_md xs) ([EvSbE; EvEof], Ok tt) = (flat_map sect_events secs ++ [EvSbE; EvEof], Ok tt) /\
    sections D secs (map (fun x => as_device (fst x)) xs) /\ forall x, In x secs -> exists d its, x = SDev d its.
Proof using.
  induction xs as [|[p es] xs IH]; intros Hx HN; cbn [map dump_sections].
  - exists []. conj; [reflexivity|constructor|intros x []].
  - cbn [map fst] in HN. inversion HN as [|? ? N1 N2]; subst. destruct IH as (secs & E & S & X); [intros; apply Hx; right; auto|auto|].
    destruct (Hx p es (or_introl eq_refl)) as (H1 & H2 & H3 & H4 & H5 & H6).
    destruct (print_entries D resolve es [] ltac:(constructor) H1 (fun n Hn => proj1 (H2 n Hn))) as (its & A & B & C). cbn [flat_map app] in B. rewrite H3 in B.
    change (md_entries (pd_md (p, es))) with es. unfold emit_entries. rewrite A, E. exists (SDev (dev_ir (pd_md (p, es))) its :: secs). conj.
    + cbn [flat_map sect_events app]. rewrite <- !app_assoc. reflexivity.
    + cbn [fst]. replace (as_device p) with (mkdev (id_dev (dev_ir (pd_md (p, es)))) (details_of (dev_ir (pd_md (p, es)))) (pd_maps p)).
      2:{ unfold as_device, details_of, dev_ir, pd_md. cbn. destruct (pd_detail p); reflexivity. }
      assert (ED : details_of (dev_ir (pd_md (p, es))) = pd_detail p) by (unfold details_of, dev_ir, pd_md; cbn; destruct (pd_detail p); reflexivity).
      apply secs_dev.
      * exact B.
      * assumption.
      * intros n Hn. assert (Hn' : In (CRef n) its) by (destruct its; [destruct Hn|right; exact Hn]). apply C in Hn'. destruct (H2 n Hn') as [-> [Hne|He]]; [congruence|].
        exfalso. subst es. cbn in A. destruct its as [|x its]; [destruct Hn|]. cbn [map] in A. cbn [tl] in Hn. destruct its as [|y its]; [destruct Hn|]. discriminate A.
      * change (id_dev (dev_ir (pd_md (p, es)))) with (pd_id p). clear - H5. lia.
      * rewrite ED. assumption.
      * change (id_dev (dev_ir (pd_md (p, es)))) with (pd_id p). rewrite map_map. exact N1.
      * exact S.
    + intros x [<-|H]; eauto.
Qed.

(** ** All of it *)
Lemma leaves_facts p l : leaves_are p l -> Forall (fun kv => fst kv < 2 ^ 64 - 1) (pd_maps p) ->
  flat_map (content_at eng) l = pd_maps p /\ Forall printable l /\ Forall (fun b => b < nr) l /\ entries_ok bt_range (pd_maps p) /\
  (forall b, In b l -> content_at eng b = [] -> l = [pd_root p]).
Proof using Hdev.
  intros (depth & Ht & ->) Hk. destruct (tree_leaves_hold eng depth true _ _ Ht) as (kvss & A & B & C).
  pose proof (contents _ _ _ A) as E. rewrite B in E. 
  assert (HR : Forall (fun kv => bt_range (snd kv)) (concat kvss)).
  { clear - A Hdev. induction A; cbn [concat]; [constructor|]. apply Forall_app. split; auto. eapply leaf_range; eauto. }
  rewrite B in HR. conj; auto.
  - rewrite <- B in Hk, HR. clear - A Hk HR. induction A as [|b kvs ls kvss H A IH]; [constructor|]. cbn [concat] in *. apply Forall_app in Hk as [K1 K2]. apply Forall_app in HR as [R1 R2].
    constructor; auto. unfold printable. rewrite (content_is _ _ _ H). split; auto. rewrite Forall_forall in *. intros kv Hin. split; [auto|]. apply R1; auto.
  - clear - A Hdev. induction A as [|b kvs ls kvss (data & h & ks & vs & E & _) A IH]; constructor; auto. apply (proj2 Hdev) in E. tauto.
  - split; [apply (tree_increasing _ _ _ _ _ Ht)|]. rewrite Forall_forall in *. intros kv Hin. split; auto. specialize (Hk kv Hin). lia.
  - intros b Hb He. assert (HM : pd_maps p = []).
    { destruct (pd_maps p) as [|kv r] eqn:Ep; auto. exfalso. assert (F := C ltac:(discriminate)). clear - A F Hb He.
      induction A as [|x kvs ls kvss H A IH]; [destruct Hb|]. inversion F; subst. destruct Hb as [->|Hb]; auto. rewrite (content_is _ _ _ H) in He. auto. }
    destruct depth as [|dp]; [reflexivity|]. exfalso.
    cbn [mapping_tree] in Ht. destruct Ht as (h & ks & bs & subs & _ & Hne & Hc & Em). rewrite HM in Em. pose proof (children_nonempty _ _ _ _ Hc) as HN.
    destruct ks as [|k ks]; [congruence|]. destruct bs; [destruct Hc|]. destruct subs as [|s0 subs]; [destruct Hc|]. inversion HN; subst. destruct s0; [congruence|discriminate].
Qed.

Lemma increasing_mid a b c : increasing (a ++ b ++ c) -> increasing b.
Proof using. intros H. apply increasing_app in H as (_ & H & _). apply increasing_app in H as (H & _). exact H. Qed.

Lemma dump_pool sb ir pool : to_superblock_ir sb = Ok ir -> pool_ok eng pool ->
  exists secs,
    match (md <- build_metadata_with_dev_ nr eng (map pd_tuple pool) ;; optimise md) with
    | Ok md => dump_metadata eng sb md | Err => ([], Err) | Panic => ([], Panic) end = (doc_events ir secs ++ [EvEof], Ok tt) /\
    sections [] secs (map as_device pool) /\
    forall name ms, In (SDef name ms) secs -> exists p, In p pool /\ incl (flat_map map_entries ms) (pd_maps p).
Proof using Hdev.
  intros Esb Hp. destruct (build_ok pool Hp) as (Ls & HL & Eb). rewrite Eb. cbn [bind]. destruct Hp as [Ht [Hinc Hid] Hdd Hk].
  assert (Hfacts : forall p l, In (p, l) (combine pool Ls) -> leaves_are p l /\ In p pool /\ In l Ls).
  { clear - HL. induction HL; intros p0 l0 H0; [destruct H0|]. destruct H0 as [[= <- <-]|Hin]; [conj; auto; left; auto|]. destruct (IHHL _ _ Hin) as (? & ? & ?). conj; auto; right; auto. }
  assert (Hnr : Forall (Forall (fun b => b < nr)) Ls).
  { clear - HL Hk Hdev. induction HL; constructor; inversion Hk; subst; auto. apply (leaves_facts x y); auto. }
  destruct (C25_definitions_expand nr Ls Hnr) as (defs & outs & Eo & Es & Hdef & Href & Hnd & _ & _ & Hsh & Hown).
  unfold optimise. cbn [mt_devs mt_nr].
  assert (HLen : length pool = length Ls) by (clear - HL; induction HL; cbn; auto).
  replace (map md_entries (map pd_md (combine pool (map (map EnLeaf) Ls)))) with (map (map EnLeaf) Ls).
  2:{ clear - HLen. revert Ls HLen. induction pool as [|p pool IH]; intros [|l Ls] H; cbn in H; try lia; auto. cbn. f_equal. apply IH. lia. }
  rewrite Eo. cbn [bind]. unfold dump_metadata. rewrite Esb. cbn [mt_defs mt_devs].
  assert (HLo : length outs = length Ls) by (rewrite <- Es, map_length; reflexivity).
  replace (map (fun x => mkmd (md_id (fst x)) (md_detail (fst x)) (snd x)) (combine (map pd_md (combine pool (map (map EnLeaf) Ls))) outs)) with (map pd_md (combine pool outs)).
  2:{ clear - HLen HLo. revert Ls HLen outs HLo. induction pool as [|p pool IH]; intros [|l Ls] H [|o outs] Ho; cbn in H, Ho; try lia; auto. cbn. f_equal. apply (IH Ls); lia. }
  assert (Hall : forall p l, In (p, l) (combine pool Ls) -> flat_map (content_at eng) l = pd_maps p /\ Forall printable l /\ entries_ok bt_range (pd_maps p)).
  { intros p l Hin. destruct (Hfacts p l Hin) as (H1 & H2 & _). rewrite Forall_forall in Hk. destruct (leaves_facts p l H1 (Hk p H2)) as (? & ? & ? & ? & _). auto. }
  assert (HLall : forall l, In l Ls -> exists p, In (p, l) (combine pool Ls)).
  { clear - HLen. revert pool HLen. induction Ls as [|l Ls IH]; intros [|p pool] H l' Hin; cbn in H; try lia; [destruct Hin|].
    destruct Hin as [->|Hin]; [exists p; left; auto|]. destruct (IH pool) with (l := l') as (p' & Hp'); auto. exists p'. right; auto. }
  assert (Hprint : forall b, In b (concat Ls) -> printable b).
  { intros b Hb. apply in_concat in Hb as (l & Hl & Hb). destruct (HLall l Hl) as (p & Hp). destruct (Hall p l Hp) as (_ & HF & _). rewrite Forall_forall in HF. auto. }
  (* a definition is a stretch of the leaves of some device *)
  assert (Hstretch : forall id es, In (id, es) defs -> exists p l r, In (p, l) (combine pool Ls) /\ es = map EnLeaf (id :: r) /\ exists u v, l = u ++ (id :: r) ++ v).
  { intros id es Hin. destruct (Hdef id es Hin) as ((r & ->) & Hrefs).
    assert (exists o, In o outs /\ In (EnRef id) o) as (o & Ho & Hr).
    { clear - Hrefs. unfold refs_to in Hrefs. assert (HX : exists e, In e (filter (fun e => match e with EnRef i => i =? id | EnLeaf _ => false end) (concat outs))).
      { destruct (filter _ (concat outs)) as [|e l]; [cbn in Hrefs; lia|]. exists e. left; auto. }
      destruct HX as (e & He). apply filter_In in He as [He Hi]. destruct e as [|i]; [discriminate|]. apply N.eqb_eq in Hi. subst i. apply in_concat in He as (o & Ho & Hr). eauto. }
    assert (Hde : def_entries defs id = map EnLeaf (id :: r)).
    { clear - Hin Hnd. induction defs as [|[n es] defs IH]; [destruct Hin|]. cbn [def_entries map fst] in *. inversion Hnd as [|? ? N1 N2]; subst.
      destruct Hin as [[= -> ->]|Hin]; [rewrite N.eqb_refl; auto|]. destruct (N.eqb_spec n id) as [->|]; [|auto]. exfalso. apply N1. change id with (fst (id, map EnLeaf (id :: r))). apply in_map. auto. }
    assert (Hl : In (substituted defs o) Ls) by (rewrite <- Es; apply in_map; auto).
    destruct (HLall _ Hl) as (p & Hp). exists p, (substituted defs o), r. conj; auto.
    apply in_split in Hr as (o1 & o2 & ->). exists (substituted defs o1), (substituted defs o2). unfold substituted. rewrite flat_map_app. cbn [flat_map leaves_of]. rewrite Hde, leaf_of_leaves. reflexivity. }
  assert (Hdefok : forall id es, In (id, es) defs -> entries_ok bt_range (def_maps es)).
  { intros id es Hin. destruct (Hstretch id es Hin) as (p & l & r & Hp & -> & u & v & ->). unfold def_maps. rewrite leaf_of_leaves.
    destruct (Hall p _ Hp) as (Em & HF & [He1 He2]). rewrite <- Em in He1, He2. rewrite !flat_map_app in He1, He2.
    split; [rewrite !map_app in He1; eapply increasing_mid; exact He1|]. apply Forall_app in He2 as [_ He2]. apply Forall_app in He2 as [He2 _]. exact He2. }
  assert (Hdefp : forall id es, In (id, es) defs -> exists l, es = map EnLeaf l /\ Forall printable l).
  { intros id es Hin. destruct (Hstretch id es Hin) as (p & l & r & Hp & -> & u & v & ->). exists (id :: r). split; auto.
    destruct (Hall p _ Hp) as (_ & HF & _). apply Forall_app in HF as [_ HF]. apply Forall_app in HF as [HF _]. exact HF. }
  destruct (dump_devs (defs_mean defs) (resolve_in defs) (combine pool outs)) as (secs & Ed & Sd & Xd).
  { intros p es Hin.
    assert (Hpl : In (p, substituted defs es) (combine pool Ls) /\ In es outs).
    { rewrite <- Es. clear - Hin. revert outs Hin. induction pool as [|q pool IH]; intros [|o outs] Hin; try (destruct Hin; fail). cbn [combine] in Hin. destruct Hin as [Hin|Hin].
      - injection Hin as -> ->. split; left; auto.
      - destruct (IH outs Hin). split; right; auto. }
    destruct Hpl as [Hpl Heso]. destruct (Hall _ _ Hpl) as (Em & HF & Hok). destruct (Hfacts _ _ Hpl) as (_ & Hpin & _).
    rewrite Forall_forall in Hid, Hdd. conj; auto.
    - intros b Hb. apply Hprint. assert (times Ls b = 1)%nat as Ht1. { apply Hown. apply in_flat_map. exists (EnLeaf b). split; [apply in_concat; eauto|left; auto]. }
      unfold times in Ht1. apply (count_occ_In N.eq_dec). lia.
    - intros n Hn. assert (Hnin : In n (map fst defs)) by (apply Href; apply in_concat; eauto). split; [apply assoc_defs; auto|].
      apply in_map_iff in Hnin as ([n' es'] & <- & Hin'). cbn [fst].
      assert (Hde : def_entries defs n' = es').
      { clear - Hin' Hnd. induction defs as [|[n es] defs IH]; [destruct Hin'|]. cbn [def_entries map fst] in *. inversion Hnd as [|? ? N1 N2]; subst.
        destruct Hin' as [[= -> ->]|Hin']; [rewrite N.eqb_refl; auto|]. destruct (N.eqb_spec n n') as [->|]; [|auto]. exfalso. apply N1. change n' with (fst (n', es')). apply in_map. auto. }
      destruct (resolve_in defs n') as [|kv0 kvs0] eqn:Er; [right|left; discriminate].
      (* an empty definition is all there is in the device *)
      assert (Hfst : In n' (substituted defs es)).
      { unfold substituted. apply in_flat_map. exists (EnRef n'). split; auto. cbn [leaves_of]. rewrite Hde. destruct (Hdef n' es' Hin') as ((r & ->) & _). left; auto. }
      assert (Hce : content_at eng n' = []).
      { unfold resolve_in in Er. rewrite Hde in Er. destruct (Hdef n' es' Hin') as ((r & ->) & _). unfold def_maps in Er. rewrite leaf_of_leaves in Er. cbn [flat_map] in Er. apply app_eq_nil in Er. tauto. }
      destruct (Hfacts _ _ Hpl) as (Hla & _ & _). rewrite Forall_forall in Hk. destruct (leaves_facts p _ Hla (Hk p Hpin)) as (_ & _ & _ & _ & Hu).
      specialize (Hu n' Hfst Hce).
      assert (HLen1 : (length es <= 1)%nat).
      { assert (Hge : (length es <= length (substituted defs es))%nat).
        { assert (Hrefs : forall m, In (EnRef m) es -> In m (map fst defs)) by (intros m Hm; apply Href; apply in_concat; eauto).
          clear - Hrefs Hdef Hnd. unfold substituted. induction es as [|e es IH]; cbn [flat_map length]; [auto|]. rewrite app_length.
          assert (1 <= length (leaves_of defs e))%nat; [|specialize (IH (fun m Hm => Hrefs m (or_intror Hm))); lia].
          destruct e as [b|m]; [cbn; auto|]. cbn [leaves_of]. pose proof (Hrefs m (or_introl eq_refl)) as Hm. apply in_map_iff in Hm as ([m' em] & <- & Hm). cbn [fst].
          assert (Hde : def_entries defs m' = em).
          { clear - Hm Hnd. induction defs as [|[n es] defs IH]; [destruct Hm|]. cbn [def_entries map fst] in *. inversion Hnd as [|? ? N1 N2]; subst.
            destruct Hm as [[= -> ->]|Hm]; [rewrite N.eqb_refl; auto|]. destruct (N.eqb_spec n m') as [->|]; [|auto]. exfalso. apply N1. change m' with (fst (m', em)). apply in_map. auto. }
          rewrite Hde. destruct (Hdef m' em Hm) as ((r & ->) & _). cbn. lia. }
        rewrite Hu in Hge. exact Hge. }
      destruct es as [|e [|e2 es2]]; [destruct Hn| |cbn in HLen1; lia]. destruct Hn as [->|[]]. reflexivity.
    - rewrite <- Em. unfold substituted. clear. induction es as [|[b|n] es IH]; [reflexivity| |]; cbn [flat_map denote_entry leaves_of]; rewrite IH, flat_map_app; [cbn [flat_map]; rewrite app_nil_r; reflexivity|reflexivity]. }
  { apply increasing_NoDup. replace (map (fun x => pd_id (fst x)) (combine pool outs)) with (map pd_id pool); [exact Hinc|].
    assert (HLx : length pool = length outs) by lia. clear - HLx. revert outs HLx. induction pool as [|p pool IH]; intros [|o outs] H; cbn in H; try lia; auto. cbn. f_equal. apply IH. lia. }
  rewrite Ed. destruct (dump_defs (flat_map sect_events secs ++ [EvSbE; EvEof], Ok tt) defs Hdefp) as (secs0 & Ed0 & Sd0 & Hd0). rewrite Ed0. cbn [fst snd].
  exists (secs0 ++ secs). conj.
  - unfold doc_events. rewrite flat_map_app. cbn [app]. rewrite <- !app_assoc. reflexivity.
  - apply Sd0; auto.
    cbn [app]. replace (map as_device pool) with (map (fun x : pool_dev * list entry => as_device (fst x)) (combine pool outs)); [exact Sd|].
      assert (HLx : length pool = length outs) by lia. clear - HLx. revert outs HLx. induction pool as [|p pool IH]; intros [|o outs] H; cbn in H; try lia; auto. cbn. f_equal. apply IH. lia.
  - intros name ms Hin. apply in_app_or in Hin as [Hin|Hin]; [|destruct (Xd _ Hin) as (? & ? & [=])].
    destruct (Hd0 _ Hin) as (i & m & es & [= <- <-] & Hes & Em). destruct (Hstretch name es Hes) as (p & l & r & Hp & -> & u & v & ->).
    exists p. split; [apply (Hfacts _ _ Hp)|]. rewrite Em. unfold def_maps. rewrite leaf_of_leaves. destruct (Hall p _ Hp) as (<- & _). rewrite !flat_map_app.
    intros x Hx. apply in_or_app. right. apply in_or_app. left. exact Hx.
Qed.
End Doc.
