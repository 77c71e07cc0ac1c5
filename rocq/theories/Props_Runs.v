(** C25: shared leaf definitions expand to the original leaf sequences. *)
From Verif Require Import Base ThinOut_Model Runs_Model Runs_Spec Runs_Proofs.

Lemma concat_nested {A B} (f : A -> list B) Ds :
  concat (map (fun D => concat (map f D)) Ds) = concat (map f (concat Ds)).
Proof. induction Ds as [|D Ds IH]; cbn; [auto|]. rewrite map_app, concat_app, IH. auto. Qed.

(** For every set of devices, given by their sequences of leaves (below the size
    of the metadata device), the optimiser succeeds; replacing the references by the
    definitions gives back every device; every definition is a non-empty run of leaves
    named after its first leaf and referenced at least twice, and every reference has a
    definition; no leaf is in two definitions or twice in the devices, the leaves in definitions
    are those that occur at least twice, and the leaves left in devices those that occur once. *)
Theorem C25_definitions_expand : forall nr ds, Forall (Forall (fun b => b < nr)) ds ->
  exists defs outs,
    optimise_metadata nr (map (map EnLeaf) ds) = Ok (defs, outs) /\
    map (substituted defs) outs = ds /\
    (forall id es, In (id, es) defs ->
       (exists r, es = map EnLeaf (id :: r)) /\ (2 <= refs_to id (concat outs))%nat) /\
    (forall id, In (EnRef id) (concat outs) -> In id (map fst defs)) /\
    NoDup (map fst defs) /\
    NoDup (flat_map leaf_of (flat_map snd defs)) /\
    NoDup (flat_map leaf_of (concat outs)) /\
    (forall b, In b (flat_map leaf_of (flat_map snd defs)) <-> (2 <= times ds b)%nat) /\
    (forall b, In b (flat_map leaf_of (concat outs)) <-> times ds b = 1%nat).
Proof.
  intros nr ds Hnr. destruct (complete_fin nr ds Hnr) as (g0 & g1 & g & E0 & E1 & E2 & F).
  unfold optimise_metadata, build_runs. rewrite E0. cbn [bind]. unfold gather. rewrite E1. cbn [bind]. rewrite E2. cbn [bind].
  destruct (gather_heads_ok nr ds g F Hnr (hs nr g)) as (rs & E3 & E4).
  { intros h Hh. apply (in_hs nr ds g F Hnr) in Hh. exact Hh. }
  unfold hs in E3 at 1. rewrite E3. cbn [bind]. rewrite E4. cbn [bind]. fold (rmap nr g).
  destruct (decompose_all nr ds g F Hnr ds (incl_refl _)) as (Ds & HDs & Eds & Eouts).
  set (H := fun h => g_heads g h = true).
  assert (HD : Forall H (concat Ds)) by (apply Forall_concat; exact HDs).
  assert (Cds : concat ds = concat (map (runf nr g) (concat Ds))).
  { rewrite Eds at 1. apply concat_nested. }
  exists (build_defs (rmap nr g)), (map (entries_to_runs (rmap nr g)) (map (map EnLeaf) ds)). rewrite Eouts.
  assert (Co : concat (map (fun D => concat (map (outf nr g) D)) Ds) = concat (map (outf nr g) (concat Ds))).
  { apply concat_nested. }
  (* the definitions *)
  set (SH := filter (g_shared g) (hs nr g)).
  assert (Edefs : build_defs (rmap nr g) = map (fun h => (h, map EnLeaf (runf nr g h))) SH).
  { unfold build_defs, rmap, SH. clear. induction (hs nr g) as [|h l IH]; cbn [map flat_map filter]; [auto|].
    destruct (g_shared g h); cbn [app map]; [f_equal|]; exact IH. }
  assert (HSH : forall h, In h SH <-> g_heads g h = true /\ g_shared g h = true).
  { intros h. unfold SH. rewrite filter_In, (in_hs nr ds g F Hnr). reflexivity. }
  assert (NSH : NoDup SH) by (apply NoDup_filter, hs_nodup).
  assert (Lrun : forall l, flat_map leaf_of (map EnLeaf l) = l).
  { induction l as [|x l IH]; cbn; [auto|]. cbn in IH. rewrite IH. auto. }
  assert (Ldefs : flat_map leaf_of (flat_map snd (build_defs (rmap nr g))) = concat (map (runf nr g) SH)).
  { rewrite Edefs. clear - Lrun. induction SH as [|h l IH]; cbn [map flat_map concat]; [auto|].
    cbn [snd]. rewrite flat_map_app, IH, Lrun. auto. }
  assert (Hres : forall h, In h SH -> def_entries (build_defs (rmap nr g)) h = map EnLeaf (runf nr g h)).
  { intros h. rewrite Edefs. clear. induction SH as [|x l IH]; [intros []|]. cbn [map def_entries].
    intros Hi. destruct (N.eqb_spec x h) as [->|]; [auto|]. destruct Hi; [congruence|auto]. }
  assert (TH : forall h x, H h -> In x (runf nr g h) -> times ds x = count_occ N.eq_dec (concat Ds) h).
  { intros h x Hh Hx. unfold times. rewrite Cds. apply (count_runs nr ds g F Hnr); auto. }
  assert (HRh : forall h, H h -> In h (runf nr g h)).
  { intros h Hh. destruct (runf_ext nr ds g F Hnr h Hh) as [_ He]. destruct (ext_head _ _ _ _ He) as [r ->]. left; auto. }
  assert (THH : forall h x, H h -> In x (runf nr g h) -> times ds x = times ds h).
  { intros h x Hh Hx. rewrite (TH h x Hh Hx), (TH h h Hh); auto. }
  assert (Hocc : forall x, In x (concat ds) -> exists h, In h (concat Ds) /\ H h /\ In x (runf nr g h)).
  { intros x. rewrite Cds. intros Hx. apply in_concat in Hx as (r & Hr & Hx). apply in_map_iff in Hr as (h & <- & Hh).
    exists h. conj; auto. rewrite Forall_forall in HD. auto. }
  assert (Hpos : forall x, In x (concat ds) <-> (1 <= times ds x)%nat).
  { intros x. unfold times. rewrite (count_occ_In N.eq_dec). lia. }
  assert (Lout : flat_map leaf_of (concat (map (outf nr g) (concat Ds))) =
                 concat (map (runf nr g) (filter (fun h => negb (g_shared g h)) (concat Ds)))).
  { clear - Lrun. induction (concat Ds) as [|h l IH]; cbn [map concat filter flat_map]; [auto|].
    rewrite flat_map_app, IH. unfold outf at 1. destruct (g_shared g h); cbn [negb flat_map leaf_of app]; [auto|].
    rewrite Lrun. auto. }
  conj.
  - reflexivity.
  - rewrite map_map, Eds at 1. apply map_ext_in. intros D HDin. rewrite Forall_forall in HDs. specialize (HDs D HDin).
    clear - HDs Hres HSH Lrun. unfold substituted. induction HDs as [|h D Hh HDs IH]; [auto|].
    cbn [map concat]. rewrite flat_map_app, IH. f_equal. unfold outf. destruct (g_shared g h) eqn:Es.
    + cbn [flat_map leaves_of]. rewrite Hres, Lrun, app_nil_r; auto. apply HSH; auto.
    + clear. induction (runf nr g h) as [|x l IH]; cbn [map flat_map leaves_of app]; [auto|congruence].
  - intros id es Hin. rewrite Edefs in Hin. apply in_map_iff in Hin as (h & [= -> <-] & Hh). apply HSH in Hh as [Hh Hs].
    destruct (runf_ext nr ds g F Hnr id Hh) as [_ He]. destruct (ext_head _ _ _ _ He) as [r Er]. split; [exists r; congruence|].
    apply (f_shared _ _ _ F id Hh) in Hs. rewrite (TH id id Hh (HRh id Hh)) in Hs. rewrite Co.
    assert (HE : refs_to id (concat (map (outf nr g) (concat Ds))) = count_occ N.eq_dec (concat Ds) id).
    { assert (Hsid : g_shared g id = true).
      { apply (f_shared _ _ _ F id Hh). rewrite (TH id id Hh (HRh id Hh)). exact Hs. }
      clear - Hsid. unfold refs_to. induction (concat Ds) as [|x l IH]; [auto|]. cbn [map concat count_occ].
      rewrite filter_app, app_length, IH. unfold outf at 1. destruct (g_shared g x) eqn:Ex.
      - cbn [filter]. destruct (N.eqb_spec x id) as [->|Hne]; destruct (N.eq_dec _ id); try congruence; auto.
      - destruct (N.eq_dec x id); [congruence|].
        assert (HL : forall l, filter (fun e => match e with EnRef i => i =? id | EnLeaf _ => false end) (map EnLeaf l) = []).
        { induction l0; cbn; auto. }
        rewrite HL. auto. }
    rewrite HE. exact Hs.
  - intros id Hin. rewrite Co in Hin. apply in_concat in Hin as (o & Ho & Hi). apply in_map_iff in Ho as (h & <- & Hh).
    unfold outf in Hi. destruct (g_shared g h) eqn:Es.
    + destruct Hi as [[= ->]|[]]. rewrite Edefs, map_map. cbn [fst]. rewrite map_id. apply HSH. split; auto.
      rewrite Forall_forall in HD. apply HD; auto.
    + apply in_map_iff in Hi as (? & ? & _). discriminate.
  - rewrite Edefs, map_map. cbn [fst]. rewrite map_id. exact NSH.
  - rewrite Ldefs. apply (nodup_runs nr ds g F Hnr); auto. rewrite Forall_forall. intros h Hh. apply HSH in Hh. tauto.
  - rewrite Co, Lout. apply (nodup_runs nr ds g F Hnr).
    + apply (NoDup_count_occ N.eq_dec). intros h.
      destruct (in_dec N.eq_dec h (filter (fun h => negb (g_shared g h)) (concat Ds))) as [Hi|Hi].
      * apply filter_In in Hi as [Hi Hs]. assert (Hh : H h) by (rewrite Forall_forall in HD; auto).
        assert (Hle : forall l, (count_occ N.eq_dec (filter (fun h => negb (g_shared g h)) l) h <= count_occ N.eq_dec l h)%nat).
        { clear. induction l as [|x l IH]; cbn [filter count_occ]; [lia|].
          destruct (negb (g_shared g x)); cbn [count_occ]; destruct (N.eq_dec x h); lia. }
        specialize (Hle (concat Ds)). rewrite <- (TH h h Hh (HRh h Hh)) in Hle.
        destruct (le_lt_dec 2 (times ds h)) as [Hge|]; [|lia].
        apply (f_shared _ _ _ F h Hh) in Hge. rewrite Hge in Hs. discriminate.
      * rewrite (proj1 (count_occ_not_In N.eq_dec _ _)); auto.
    + rewrite Forall_forall in *. intros h Hh. apply filter_In in Hh as [Hh _]. apply HD; auto.
  - intros b. rewrite Ldefs. split.
    + intros Hb. apply in_concat in Hb as (r & Hr & Hb). apply in_map_iff in Hr as (h & <- & Hh). apply HSH in Hh as [Hh Hs].
      rewrite (THH h b Hh Hb). apply (f_shared _ _ _ F h Hh). auto.
    + intros Hb. destruct (Hocc b) as (h & _ & Hh & Hx); [apply Hpos; lia|]. rewrite (THH h b Hh Hx) in Hb.
      apply in_concat. exists (runf nr g h). split; auto. apply in_map. apply HSH. split; auto. apply (f_shared _ _ _ F h Hh). auto.
  - intros b. rewrite Co, Lout. split.
    + intros Hb. apply in_concat in Hb as (r & Hr & Hb). apply in_map_iff in Hr as (h & <- & Hh). apply filter_In in Hh as [Hi Hs].
      assert (Hh : H h) by (rewrite Forall_forall in HD; auto).
      rewrite (THH h b Hh Hb).
      destruct (le_lt_dec 2 (times ds h)) as [Hge|].
      * apply (f_shared _ _ _ F h Hh) in Hge. rewrite Hge in Hs. discriminate.
      * rewrite (TH h h Hh (HRh h Hh)) in *. apply (count_occ_In N.eq_dec) in Hi. lia.
    + intros Hb. destruct (Hocc b) as (h & Hi & Hh & Hx); [apply Hpos; lia|]. rewrite (THH h b Hh Hx) in Hb.
      apply in_concat. exists (runf nr g h). split; auto. apply in_map. apply filter_In. split; auto.
      destruct (g_shared g h) eqn:Es; auto. apply (f_shared _ _ _ F h Hh) in Es. lia.
Qed.

(** Two snapshots and an unrelated device. *)
Example C25_example :
  optimise_metadata 20 (map (map EnLeaf) [[5; 6; 7; 8]; [9; 6; 7; 10]; [11; 12]; [5]]) =
  Ok ([(5, [EnLeaf 5]); (6, [EnLeaf 6; EnLeaf 7])],
      [[EnRef 5; EnRef 6; EnLeaf 8]; [EnLeaf 9; EnRef 6; EnLeaf 10]; [EnLeaf 11; EnLeaf 12]; [EnRef 5]]).
Proof. vm_compute. reflexivity. Qed.

(** The leaves must be below the size of the metadata device: a device whose
    first leaf is beyond it makes the optimiser panic. *)
Example C25_out_of_range_panics : optimise_metadata 20 [[EnLeaf 20]] = Panic.
Proof. vm_compute. reflexivity. Qed.

Print Assumptions C25_definitions_expand.
