(** thin_ls: the leaves and the summaries. *)
From Coq Require Import Permutation.
From Verif Require Import Base Csum_Model Codec_Model Codec_Spec Codec_Proofs Pack_Proofs SpaceMap_Model Walker_Model Utils_Model Utils_Spec Utils_Proofs UtilsNum_Proofs Builder_Spec Builder_Proofs BtreeRead_Proofs Walker_Proofs ThinCheck_Model ThinCheck_Spec ThinSum_Proofs ThinRead_Proofs Dump_Spec Dump_Proofs Ls_Model Ls_Spec LsAlg_Proofs LsRead_Proofs.

Lemma thin_det eng : forall d r r' b kvs kvs', thin_tree eng r d b kvs -> thin_tree eng r' d b kvs' -> kvs = kvs'.
Proof.
  induction d as [|d IH]; intros r r' b kvs kvs' H H'; cbn [thin_tree] in *.
  - destruct H as (h & ks & vs & (Hn & _) & ->), H' as (h' & ks' & vs' & (Hn' & _) & ->). pose proof (node_on_det _ _ _ _ _ _ _ Hn Hn') as E. congruence.
  - destruct H as (h & ks & bs & subs & (Hn & _) & _ & Hc & ->), H' as (h' & ks' & bs' & subs' & (Hn' & _) & _ & Hc' & ->). pose proof (node_on_det _ _ _ _ _ _ _ Hn Hn') as E.
    assert (bs' = bs) by congruence. subst bs'. apply children_F2 in Hc, Hc'. f_equal. clear - IH Hc Hc'. revert subs' Hc'.
    induction Hc as [|x s bs subs Hx Hc IHc]; intros [|s' subs'] Hc'; inversion Hc'; subst; auto. f_equal; eauto.
Qed.

Lemma filter_map {A B} (f : B -> bool) (g : A -> B) l : nlen (filter f (map g l)) = nlen (filter (fun x => f (g x)) l).
Proof. unfold nlen. induction l as [|x l IH]; [reflexivity|]. cbn [map filter]. destruct (f (g x)); cbn [length]; lia. Qed.
Lemma nlen_filter {A} (f : A -> bool) l : nlen (filter f l) <= nlen l.
Proof. unfold nlen. induction l as [|x l IH]; cbn [filter]; [lia|]. destruct (f x); cbn [length]; lia. Qed.
Lemma filter_all {A} (f : A -> bool) l : (forall x, In x l -> f x = true) -> filter f l = l.
Proof. induction l as [|x l IH]; intros H; [reflexivity|]. cbn [filter]. rewrite H by (left; auto). f_equal. apply IH. intros; apply H; right; auto. Qed.
Lemma last_app_ne {A} (a b : list A) x : b <> [] -> last (a ++ b) x = last b x.
Proof. intros H. induction a as [|y a IH]; [reflexivity|]. cbn [app last]. destruct (a ++ b) eqn:Eab; [destruct a, b; try discriminate; congruence|exact IH]. Qed.
Lemma last_in {A} (l : list A) x : l <> [] -> In (last l x) l.
Proof. induction l as [|y [|z l] IH]; intros H; [congruence|left; reflexivity|]. right. apply IH. discriminate. Qed.
Lemma inc_bound l : increasing l -> forall m, Forall (fun k => k < m) l -> nlen l <= m.
Proof.
  intros Hi m HF. apply nodup_bound; [apply increasing_NoDup; auto|auto].
Qed.

Section Sum.
Context (nr : N) (eng : N -> option (list N)).
Hypothesis Hdev : device_of nr eng.
Context (pool : list pool_dev) (depth : N -> nat) (nr_data : N).
Hypothesis Hpool : Forall (fun p => thin_tree eng true (depth (pd_root p)) (pd_root p) (pd_maps p)) pool.
Hypothesis Hkeys : Forall (fun p => Forall (fun kv => fst kv < 2 ^ 64 - 1) (pd_maps p)) pool.
Hypothesis Hdata : Forall (fun p => Forall (fun kv => bt_block (snd kv) < nr_data) (pd_maps p)) pool.
Notation X := (unfolded eng pool depth).
Notation K := (kids eng).
Notation T := (targ eng).
Context (E L : list N) (msm : tsm) (nodes : nmap).
Hypothesis HE : NoDup E /\ incl E X /\ forall b, In b X -> K b <> [] -> In b E.
Hypothesis HL : NoDup L /\ (forall b, In b L <-> In b X /\ leafish eng b).
Hypothesis Hmsm : forall b, In b X -> two_get msm b = N.min 2 (links eng pool E b).
Hypothesis Hnodes : forall b, In b X -> innerish eng b -> nm_get_type nodes b = NTInternal /\ hv_get (nm_info nodes) b = Ok (Some (nkeys eng b, K b)).

(** ** Facts about the trees *)
Lemma leafish_targ b : In b X -> T b <> [] -> leafish eng b.
Proof using Hpool.
  intros Hb Ht. destruct (unfolded_tree _ _ _ Hpool b Hb) as (r & [|d] & kvs & H); [exists r, kvs; exact H|]. destruct H as (h & ks & bs & subs & (Hn & _) & _).
  exfalso. apply Ht. apply (kids_internal _ _ _ _ _ _ Hn).
Qed.
Lemma HLo : NoDup L /\ incl L X /\ forall b, In b X -> T b <> [] -> In b L.
Proof using HL Hpool. clear HE Hmsm Hnodes. destruct HL as [A B]. conj; auto; [intros b Hb; apply B in Hb; tauto|]. intros b Hb Ht. apply B. split; auto. apply leafish_targ; auto. Qed.
(** every mapping of a tree is one of a device *)
Lemma sub_maps : forall b r d kvs, In b X -> thin_tree eng r d b kvs -> exists p, In p pool /\ incl kvs (pd_maps p).
Proof using Hpool.
  intros b r d kvs Hb Ht. revert b Hb r d kvs Ht. apply (unfolded_least eng pool depth Hpool (fun b => forall r d kvs, thin_tree eng r d b kvs -> exists p, In p pool /\ incl kvs (pd_maps p))).
  - intros b Hb r d kvs Ht. apply in_map_iff in Hb as (p & <- & Hp). exists p. split; auto. rewrite Forall_forall in Hpool. specialize (Hpool p Hp).
    pose proof (thin_root _ _ _ _ _ Ht _ _ Hpool) as Ed. subst d. rewrite (thin_det _ _ _ _ _ _ _ Ht Hpool). apply incl_refl.
  - intros b c IH HbX Hc r d kvs Ht. destruct (unfolded_tree _ _ _ Hpool b HbX) as (r' & d' & kvs' & Hb).
    destruct d' as [|d']; [destruct Hb as (h & ks & vs & (Hn & _) & _); rewrite (proj1 (kids_leaf _ _ _ _ _ _ Hn)) in Hc; destruct Hc|].
    destruct (IH _ _ _ Hb) as (p & Hp & Hi). exists p. split; auto. eapply incl_tran; [|exact Hi]. destruct (thin_kids _ _ _ _ _ _ Hb Hc) as (s & Hs).
    pose proof (tree_depth _ _ _ _ _ _ _ _ (thin_mapping _ _ _ _ _ Ht) (thin_mapping _ _ _ _ _ Hs)) as Ed. subst d'. rewrite (thin_det _ _ _ _ _ _ _ Ht Hs).
    destruct Hb as (h & ks & bs & subs & (Hn & _) & _ & Hch & ->). rewrite (proj1 (kids_internal _ _ _ _ _ _ Hn)) in Hc. apply children_F2 in Hch. clear - Hch Hc Hs.
    induction Hch as [|x s' bs subs Hx Hch IHc]; [destruct Hc|]. cbn [concat]. destruct Hc as [<-|Hc]; [rewrite (thin_det _ _ _ _ _ _ _ Hs Hx); apply incl_appl, incl_refl|apply incl_appr; auto].
Qed.
Lemma sub_keys b r d kvs : In b X -> thin_tree eng r d b kvs -> Forall (fun kv => fst kv < 2 ^ 64 - 1) kvs /\ Forall (fun kv => bt_block (snd kv) < nr_data) kvs.
Proof using Hpool Hkeys Hdata.
  clear HE HL Hmsm Hnodes.
  intros Hb Ht. destruct (sub_maps b r d kvs Hb Ht) as (p & Hp & Hi). rewrite Forall_forall in Hkeys, Hdata. specialize (Hkeys p Hp). specialize (Hdata p Hp). cbv beta in *.
  rewrite Forall_forall in Hkeys, Hdata. split; apply Forall_forall; auto.
Qed.
Lemma sub_few b r d kvs : In b X -> thin_tree eng r d b kvs -> nlen kvs < W64.
Proof using Hpool Hkeys Hdata.
  clear HE HL Hmsm Hnodes.
  intros Hb Ht. destruct (sub_keys b r d kvs Hb Ht) as [HF _]. apply thin_mapping in Ht. pose proof (tree_increasing _ _ _ _ _ Ht) as Hi.
  pose proof (inc_bound (map fst kvs) Hi (2 ^ 64 - 1) (proj2 (Forall_map fst (fun k => k < 2 ^ 64 - 1) kvs) HF)) as H. unfold nlen in *. rewrite map_length in H. unfold W64. lia.
Qed.
Lemma node_small r b n : full_node eng r b n -> nlen (get_keys n) < 256.
Proof using Hdev. intros ((data & Ed & _ & U) & _). eapply (raw_small bt_codec); [reflexivity|exact U|]. apply (proj2 Hdev b data Ed). Qed.

(** ** The leaves *)
Lemma leaf_read b : In b X -> leafish eng b -> exists data h vs, eng b = Some data /\ check_and_unpack_node bt_codec (mkblock b data) false true = Ok (Leaf h (nkeys eng b) vs) /\
  nh_block h = b /\ T b = map bt_block vs /\ Forall (fun v => bt_block v < nr_data) vs.
Proof using Hpool Hdata Hkeys.
  clear HE HL Hmsm Hnodes.
  intros Hb (r & kvs & Ht). pose proof (sub_keys b r 0 kvs Hb Ht) as [_ HF]. destruct Ht as (h & ks & vs & Hn & ->). destruct (full_read _ _ _ _ Hn) as (data & Ed & Ec & _).
  exists data, h, vs. rewrite (nkeys_full _ _ _ _ Hn). conj; auto; [apply Hn|apply (kids_leaf _ _ _ _ _ _ (proj1 Hn))|].
  destruct Hn as ((data' & _ & _ & U) & _). apply raw_facts in U as (_ & _ & Hlen). clear - HF Hlen. revert vs HF Hlen. induction ks as [|k ks IH]; intros [|v vs] HF Hlen; cbn in *; try lia; auto.
  apply Forall_cons_iff in HF as [F1 F2]. constructor; auto.
Qed.
Lemma inc_data_ok : forall vs dsm refs, counted nr_data dsm refs -> Forall (fun v => bt_block v < nr_data) vs ->
  exists dsm', ls_inc_data vs dsm = Ok dsm' /\ counted nr_data dsm' (refs ++ map bt_block vs).
Proof using.
  induction vs as [|v vs IH]; intros dsm refs H HF; cbn [ls_inc_data map]; [rewrite app_nil_r; eauto|]. apply Forall_cons_iff in HF as [F1 F2].
  destruct (counted_inc _ _ _ _ H F1) as (d1 & -> & H1). cbn [bind]. destruct (IH d1 _ H1 F2) as (d2 & A & B). exists d2. split; auto. rewrite <- app_assoc in B. exact B.
Qed.
Definition in_l (x : N) (l : list N) : bool := existsb (N.eqb x) l.
Lemma in_l_spec x l : in_l x l = true <-> In x l.
Proof using. unfold in_l. rewrite existsb_exists. split; [intros (y & A & B); apply N.eqb_eq in B; subst; auto|intros H; exists x; split; auto; apply N.eqb_refl]. Qed.
Definition full_sum (b : N) : lsum := lsum_leaf (nkeys eng b) (nlen (nkeys eng b)).
Lemma X_mod' b : In b X -> b mod W32 = b.
Proof using Hdev Hpool. apply (X_mod nr); auto. Qed.
Lemma leaves_ok : forall order dsm ss refs, (forall b, In b order -> In b X /\ leafish eng b) -> counted nr_data dsm refs ->
  exists dsm' ss', ls_leaves (ls_leaf eng false msm) order (nodes, dsm, ss) = Ok (nodes, dsm', ss') /\ counted nr_data dsm' (refs ++ flat_map T order) /\
    forall x, ss' x = if in_l x order && (1 <? two_get msm x) then Some (full_sum x) else ss x.
Proof using Hpool Hdata Hkeys Hdev.
  clear HE HL Hmsm Hnodes.
  induction order as [|b order IH]; intros dsm ss refs Ho Hc; cbn [ls_leaves flat_map].
  - exists dsm, ss. rewrite app_nil_r. auto.
  - destruct (Ho b (or_introl eq_refl)) as [Hb Hl]. destruct (leaf_read b Hb Hl) as (data & h & vs & E1 & E2 & E3 & E4 & E5). unfold ls_leaf at 1. rewrite E1, E2.
    destruct (inc_data_ok vs dsm refs Hc E5) as (d1 & -> & H1). cbn [bind]. rewrite E3, (X_mod' b Hb).
    destruct (IH d1 (if 1 <? two_get msm b then upd ss b (Some (full_sum b)) else ss) (refs ++ map bt_block vs)) as (d2 & ss2 & A & B & C); auto; [intros; apply Ho; right; auto|].
    exists d2, ss2. unfold full_sum in A at 1. conj; [exact A|rewrite E4; rewrite <- app_assoc in B; exact B|]. intros x. rewrite C. cbn [in_l existsb]. unfold in_l.
    destruct (N.eqb_spec x b) as [->|Ne]; cbn [orb andb].
    + destruct (1 <? two_get msm b) eqn:Eg; rewrite ?Bool.andb_true_r, ?Bool.andb_false_r; [|reflexivity]. destruct (existsb _ order); [reflexivity|]. unfold upd. rewrite N.eqb_refl. reflexivity.
    + destruct (existsb (N.eqb x) order && _); [reflexivity|]. destruct (1 <? two_get msm b); [|reflexivity]. unfold upd. destruct (N.eqb_spec x b); [congruence|reflexivity].
Qed.
Definition excl_sum (dsm : tsm) (b : N) : lsum := lsum_leaf (nkeys eng b) (nlen (filter (fun d => 1 <? two_get dsm d) (T b))).
Lemma excl_ok dsm : forall order ss, (forall b, In b order -> In b X /\ leafish eng b /\ two_get msm b = 1) ->
  exists ss', ls_leaves (ls_excl_leaf eng false msm) order (nodes, dsm, ss) = Ok (nodes, dsm, ss') /\ forall x, ss' x = if in_l x order then Some (excl_sum dsm x) else ss x.
Proof using Hpool Hdata Hkeys Hdev.
  clear HE HL Hmsm Hnodes.
  induction order as [|b order IH]; intros ss Ho; cbn [ls_leaves]; [eauto|].
  destruct (Ho b (or_introl eq_refl)) as (Hb & Hl & Hg). destruct (leaf_read b Hb Hl) as (data & h & vs & E1 & E2 & E3 & E4 & E5). unfold ls_excl_leaf at 1. rewrite E1, E2. cbn [bind].
  rewrite E3, Hg, (X_mod' b Hb). cbn [N.eqb]. destruct (IH (upd ss b (Some (excl_sum dsm b)))) as (ss2 & A & B); [intros; apply Ho; right; auto|].
  exists ss2. split; [unfold excl_sum in A at 1; rewrite E4, filter_map in A; exact A|]. intros x. rewrite B. cbn [in_l existsb]. unfold in_l. unfold upd. destruct (N.eqb_spec x b) as [->|Ne]; cbn [orb]; [|reflexivity].
  destruct (existsb _ order); reflexivity.
Qed.

(** ** The summaries *)
Definition shared_in (kvs : list (N * block_time)) : N := nlen (filter (fun kv => 2 <=? uses pool (bt_block (snd kv))) kvs).
Definition good (b : N) (kvs : list (N * block_time)) (s : lsum) : Prop :=
  ls_low s = hd 0 (map fst kvs) /\ ls_high s = last (map fst kvs) 0 /\ ls_nr s = nlen kvs /\ ls_errors s = 0 /\ ls_entries s = nlen (nkeys eng b) /\
  ls_shared s <= nlen kvs /\ (ups eng pool depth b = 1 \/ 2 <= links eng pool E b -> ls_shared s = shared_in kvs).
Definition SS (ss : lsums) : Prop := forall x, In x X ->
  (leafish eng x -> ss x <> None) /\ forall s, ss x = Some s -> forall r d kvs, thin_tree eng r d x kvs -> good x kvs s.

Lemma shared_in_app a b : shared_in (a ++ b) = shared_in a + shared_in b.
Proof using. clear. unfold shared_in. rewrite filter_app. apply nlen_app. Qed.
Lemma shared_all b r d kvs : thin_tree eng r d b kvs -> 2 <= ups eng pool depth b -> shared_in kvs = nlen kvs.
Proof using Hpool HE.
  clear HL Hmsm Hnodes.
  intros Ht Hu. unfold shared_in. f_equal. apply filter_all. intros kv Hkv. pose proof (below_used eng pool depth Hpool E HE _ _ _ _ Ht kv Hkv). apply N.leb_le. lia.
Qed.

(** after the two phases *)
Lemma leaf_sums order1 order2 : Permutation order1 L -> (forall b, In b order2 <-> In b L /\ two_get msm b = 1) ->
  exists dsm ss ss', ls_leaves (ls_leaf eng false msm) order1 (nodes, tsm_new nr_data, fun _ => None) = Ok (nodes, dsm, ss) /\
    ls_leaves (ls_excl_leaf eng false msm) order2 (nodes, dsm, ss) = Ok (nodes, dsm, ss') /\ SS ss'.
Proof using Hpool Hdata Hkeys Hdev HE HL Hmsm.
  clear Hnodes.
  intros HP HO2. pose proof HLo as HLo'. destruct HL as [HLn HLi].
  assert (Ho1 : forall b, In b order1 <-> In b X /\ leafish eng b). { intros b. rewrite <- HLi. split; apply Permutation_in; auto. symmetry; auto. }
  destruct (leaves_ok order1 (tsm_new nr_data) (fun _ => None) []) as (dsm & ss & A & B & C); [apply Ho1|split; [reflexivity|intros; reflexivity]|].
  destruct (excl_ok dsm order2 ss) as (ss2 & A2 & B2); [intros b Hb; apply HO2 in Hb as [Hb Hg]; apply HLi in Hb as [H1 H2]; auto|].
  exists dsm, ss, ss2. conj; auto. cbn [app] in B.
  assert (Hd : forall d, d < nr_data -> two_get dsm d = N.min 2 (dlinks eng L d)).
  { intros d Hd. rewrite (counted_get _ _ _ _ B Hd). unfold dlinks. f_equal. apply RestoreFin_Proofs.occ_perm. apply Permutation_flat_map. auto. }
  intros x Hx. split.
  - intros Hl. rewrite B2. destruct (in_l x order2) eqn:E2; [discriminate|]. rewrite C.
    assert (in_l x order1 = true) as -> by (apply in_l_spec, Ho1; auto). destruct (N.ltb_spec 1 (two_get msm x)) as [L1|L1]; [discriminate|].
    exfalso. assert (in_l x order2 = true); [|congruence]. apply in_l_spec, HO2. split; [apply HLi; auto|]. pose proof (links_pos eng pool depth Hpool E HE x Hx). rewrite Hmsm in * by auto. lia.
  - intros s Hs r d kvs Ht. rewrite B2, C in Hs.
    assert (Hlx : leafish eng x).
    { destruct (in_l x order2) eqn:E2; [apply in_l_spec, HO2 in E2 as [E2 _]; apply HLi in E2; tauto|]. destruct (in_l x order1) eqn:E1; [apply in_l_spec, Ho1 in E1; tauto|]. discriminate. }
    destruct d as [|d]; [|exfalso; eapply leafish_innerish; [exact Hlx|exists r, d, kvs; exact Ht]].
    pose proof Ht as (h & ks & vs & Hn & Ekv). pose proof (nkeys_full _ _ _ _ Hn) as Ek. cbn [get_keys] in Ek. pose proof (node_small _ _ _ Hn) as Hsm. cbn [get_keys] in Hsm.
    destruct Hn as ((data & _ & _ & U) & _). apply raw_facts in U as (_ & _ & Hlen). assert (Efst : map fst kvs = ks) by (rewrite Ekv; apply map_fst_combine'; auto).
    assert (Enl : nlen kvs = nlen ks) by (rewrite <- Efst; unfold nlen; rewrite map_length; auto).
    assert (G : forall n, n <= nlen kvs -> (ups eng pool depth x = 1 \/ 2 <= links eng pool E x -> n = shared_in kvs) -> good x kvs (lsum_leaf (nkeys eng x) n)).
    { intros n Hn1 Hn2. unfold good, lsum_leaf. cbn [ls_low ls_high ls_nr ls_errors ls_entries ls_shared]. rewrite Ek, Efst, Enl. conj; auto; [apply N.mod_small; lia|lia]. }
    pose proof (links_ups eng pool depth Hpool E HE x) as Hlu.
    destruct (in_l x order2) eqn:E2.
    + assert (s = excl_sum dsm x) by congruence. subst s. apply in_l_spec, HO2 in E2 as [_ E2]. rewrite Hmsm in E2 by auto.
      pose proof (nodes_targ eng 0 _ _ _ Ht) as Et. cbn [nodes_in flat_map] in Et. rewrite app_nil_r in Et. apply G.
      * rewrite Et. unfold refs_of. rewrite filter_map. apply nlen_filter.
      * intros [Hu|Hu]; [|lia]. rewrite Et. unfold refs_of. rewrite filter_map. unfold shared_in. f_equal.
        destruct (sub_keys x _ _ _ Hx Ht) as [_ HF]. rewrite Forall_forall in HF. apply filter_ext_in. intros kv Hkv. rewrite (Hd _ (HF kv Hkv)).
        pose proof (dlinks_uses eng pool depth Hpool L HLo' (bt_block (snd kv))) as H1.
        assert (Hi : In (bt_block (snd kv)) (T x)) by (rewrite Et; unfold refs_of; apply (in_map (fun kv => bt_block (snd kv))); auto).
        destruct (N.le_gt_cases (dlinks eng L (bt_block (snd kv))) 1) as [Hle|Hgt].
        { rewrite (leaf_once eng pool depth Hpool L HLo' x _ Hx Hi Hle), Hu. destruct (N.ltb_spec 1 (N.min 2 (dlinks eng L (bt_block (snd kv))))); [lia|reflexivity]. }
        { destruct (N.ltb_spec 1 (N.min 2 (dlinks eng L (bt_block (snd kv))))); [|lia]. symmetry. apply N.leb_le. lia. }
    + destruct (in_l x order1 && _) eqn:E1; [|discriminate]. assert (s = full_sum x) by congruence. subst s. apply andb_prop in E1 as [_ E1]. apply N.ltb_lt in E1. rewrite Hmsm in E1 by auto.
      unfold full_sum. apply G; [rewrite Ek; lia|]. intros _. rewrite Ek, <- Enl. symmetry. apply (shared_all x _ _ _ Ht). lia.
Qed.

(** ** Adding up *)
Definition in_range_of (kr : key_range) (kvs : list (N * block_time)) : Prop :=
  forall k, In k (map fst kvs) -> match kr_start kr with Some n => n <= k | None => True end /\ below k (kr_end kr).
Definition fine (n : N) (pre : list (N * block_time)) (C : Prop) (s : lsum) : Prop :=
  ls_low s = hd 0 (map fst pre) /\ ls_high s = last (map fst pre) 0 /\ ls_nr s = nlen pre /\ ls_errors s = 0 /\ ls_entries s = n /\
  ls_shared s <= nlen pre /\ (C -> ls_shared s = shared_in pre).
Lemma append_fine n pre (C C' : Prop) acc b s sum : fine n pre C acc -> good b s sum -> (C -> C') -> (C' -> ls_shared sum = shared_in s) -> s <> [] ->
  increasing (map fst (pre ++ s)) -> nlen (pre ++ s) < W64 -> n + 1 < 256 -> exists acc', lsum_append acc sum = Some acc' /\ fine (n + 1) (pre ++ s) C acc'.
Proof using. clear HE HL Hmsm Hnodes Hpool Hkeys Hdata Hdev.
  intros (A1 & A2 & A3 & A4 & A5 & A6 & A7) (B1 & B2 & B3 & B4 & B5 & B6 & _) HC HB Hne Hi Hl Hn. unfold lsum_append. rewrite A3, A4, A5, B3, B4. rewrite nlen_app in Hl.
  assert (Hs : nlen s <> 0) by (destruct s; [congruence|unfold nlen; cbn; lia]).
  assert (Hsh : (ls_shared acc + ls_shared sum) mod W64 = ls_shared acc + ls_shared sum) by (apply N.mod_small; lia).
  assert (Hfin : forall low high, low = hd 0 (map fst (pre ++ s)) -> high = last (map fst (pre ++ s)) 0 ->
    fine (n + 1) (pre ++ s) C (mkls low high ((nlen pre + nlen s) mod W64) ((ls_shared acc + ls_shared sum) mod W64) ((n + 1) mod 256) (N.min (0 + 0) 255))).
  { intros low high Hlo Hhi. unfold fine. cbn [ls_low ls_high ls_nr ls_errors ls_entries ls_shared]. rewrite Hsh, nlen_app, shared_in_app. conj; auto.
    - apply N.mod_small. lia.
    - apply N.mod_small. lia.
    - lia.
    - intros c. rewrite A7, HB; auto. }
  rewrite map_app in Hfin. assert (Hms : map fst s <> []) by (destruct s; [congruence|discriminate]). rewrite (last_app_ne _ (map fst s)) in Hfin by auto.
  destruct (N.eqb_spec (nlen pre) 0) as [Z|Z].
  - destruct pre; [|unfold nlen in Z; cbn in Z; lia]. eexists. split; [reflexivity|]. apply Hfin; auto.
  - destruct (N.ltb_spec 0 (nlen s)); [|lia]. assert (Hmp : map fst pre <> []) by (destruct pre; [unfold nlen in Z; cbn in Z; lia|discriminate]).
    assert (Hlt : ls_high acc < ls_low sum).
    { rewrite A2, B1. rewrite map_app in Hi. apply increasing_app in Hi as (_ & _ & Hi). apply Hi; [apply last_in; auto|]. destruct (map fst s); [congruence|left; reflexivity]. }
    destruct (N.leb_spec (ls_low sum) (ls_high acc)); [lia|]. eexists. split; [reflexivity|]. apply Hfin; auto. rewrite A1. destruct (map fst pre); [congruence|reflexivity].
Qed.

Lemma summarize_ok : forall d r b kvs fuel kr ss, thin_tree eng r d b kvs -> (d < fuel)%nat -> In b X -> SS ss -> in_range_of kr kvs ->
  exists ss' sum, ls_summarize false nodes msm fuel r kr b ss = Some (ss', sum) /\ good b kvs sum /\ SS ss' /\ (forall x, ss x <> None -> ss' x <> None) /\ ss' b = Some sum.
Proof using Hpool Hdata Hkeys Hdev HE HL Hmsm Hnodes.
  induction d as [|d IH]; intros r b kvs fuel kr ss Ht Hf Hb HS Hk; (destruct fuel as [|fuel]; [lia|]); cbn [ls_summarize].
  all: assert (H84 : r = false -> 84 <= nlen (nkeys eng b)) by
    (intros Er; pose proof Ht as Ht0; cbn [thin_tree] in Ht0;
     first [destruct Ht0 as (h & ks & vs & Hn & _); rewrite (nkeys_full _ _ _ _ Hn); apply (proj2 (proj2 Hn)); exact Er
           |destruct Ht0 as (h & ks & bs & subs & Hn & _); rewrite (nkeys_full _ _ _ _ Hn); apply (proj2 (proj2 Hn)); exact Er]).
  all: assert (Hcached : forall sum, ss b = Some sum ->
    (if negb false && negb r && (ls_entries sum <? MIN_ENTRIES) then lsum_error
     else if (0 <? ls_nr sum) && (match kr_start kr with Some n => ls_low sum <? n | None => false end || match kr_end kr with Some n => n <? ls_high sum | None => false end) then lsum_error
     else sum) = sum /\ good b kvs sum) by
    (intros sum Es; pose proof (proj2 (HS b Hb) sum Es _ _ _ Ht) as G; split; [|exact G]; destruct G as (G1 & G2 & G3 & G4 & G5 & _);
     replace (negb false && negb r && (ls_entries sum <? MIN_ENTRIES)) with false by (destruct r; [reflexivity|]; specialize (H84 eq_refl); symmetry; cbn [negb andb]; apply N.ltb_ge; rewrite G5; exact H84);
     match goal with |- (if ?c then _ else _) = _ => replace c with false; [reflexivity|] end; symmetry; destruct (N.ltb_spec 0 (ls_nr sum)) as [Hp|]; [|reflexivity]; cbn [andb];
     assert (Hne : map fst kvs <> []) by (intros Z; destruct kvs; [rewrite G3 in Hp; unfold nlen in Hp; cbn in Hp; lia|discriminate]);
     assert (Hl : In (ls_low sum) (map fst kvs)) by (rewrite G1; destruct (map fst kvs); [congruence|left; reflexivity]);
     assert (Hh : In (ls_high sum) (map fst kvs)) by (rewrite G2; apply last_in; auto);
     apply Hk in Hl as [Hl _], Hh as [_ Hh]; destruct (kr_start kr) as [n1|]; destruct (kr_end kr) as [n2|]; cbn [below] in Hh;
     repeat match goal with |- context [?x <? ?y] => destruct (N.ltb_spec x y); try lia end; reflexivity).
  - destruct (ss b) as [sum|] eqn:Es; [|exfalso; apply (proj1 (HS b Hb)); [exists r, kvs; exact Ht|exact Es]].
    destruct (Hcached sum eq_refl) as [Ee G]. exists ss, sum. rewrite Ee. conj; auto.
  - destruct (ss b) as [sum|] eqn:Es.
    { destruct (Hcached sum eq_refl) as [Ee G]. exists ss, sum. rewrite Ee. conj; auto. }
    destruct (Hnodes b Hb) as [-> ->]; [exists r, d, kvs; exact Ht|].
    replace (negb false && negb r && (nlen (nkeys eng b) <? MIN_ENTRIES)) with false by (destruct r; [reflexivity|]; specialize (H84 eq_refl); symmetry; cbn [negb andb]; apply N.ltb_ge; exact H84).
    pose proof Ht as (h & ks & bs & subs & Hn & Hne & Hc & Ekvs). pose proof (sub_few b _ _ _ Hb Ht) as Hfew. pose proof (tree_increasing _ _ _ _ _ (thin_mapping _ _ _ _ _ Ht)) as Hinc.
    pose proof (kids_internal _ _ _ _ _ _ (proj1 Hn)) as [Ek _]. pose proof (nkeys_full _ _ _ _ Hn) as Enk. cbn [get_keys] in Enk. pose proof (node_small _ _ _ Hn) as Hsm. cbn [get_keys] in Hsm.
    rewrite Enk, Ek. destruct ks as [|k0 ks]; [congruence|].
    assert (Hik : increasing (k0 :: ks)) by (destruct Hn as ((data & _ & _ & U) & _); apply raw_facts in U; tauto).
    assert (ES : split_key_ranges kr (k0 :: ks) = Ok (ranges_of k0 ks (kr_end kr))).
    { cbn [split_key_ranges]. apply split_loop_iff. conj; auto. intros k Hin.
      pose proof (thin_mapping _ _ _ _ _ Ht) as Htm. destruct Htm as (h' & ks' & bs' & subs' & Hn' & _ & Hc' & Ekvs'). pose proof (node_on_det _ _ _ _ _ _ _ (proj1 Hn) Hn') as En.
      assert (ks' = k0 :: ks) by congruence. subst ks'. apply (tree_keys_below eng d (fun _ _ _ => True) _ _ _ (kr_end kr) Hc'); [|right; exact Hin].
      intros k1 Hk1. rewrite <- Ekvs' in Hk1. apply Hk in Hk1. tauto. }
    rewrite ES.
    set (C := ups eng pool depth b = 1).
    assert (HCH : forall (ks : list N) (k0 : N) (bs : list N) (subs : list (list (N * block_time))) (e : option N) (n : N) (pre : list (N * block_time)) (acc : lsum) (ss0 : lsums), Builder_Spec.children_ok (fun _ b s => thin_tree eng false d b s) (k0 :: ks) bs subs -> SS ss0 -> fine n pre C acc -> n + nlen (k0 :: ks) < 256 ->
      increasing (map fst (pre ++ concat subs)) -> nlen (pre ++ concat subs) < W64 -> (forall k, In k (map fst (concat subs)) -> below k e) -> increasing (k0 :: ks) -> incl bs (K b) ->
      exists ss' sum, ls_children (ls_summarize false nodes msm fuel false) (ranges_of k0 ks e) bs acc ss0 = Some (ss', sum) /\ fine (n + nlen (k0 :: ks)) (pre ++ concat subs) C sum /\ SS ss' /\
        (forall x, ss0 x <> None -> ss' x <> None)).
    { clear - IH Hf Hb Hpool HE Hmsm Hdev. assert (Hf' : (d < fuel)%nat) by lia. clear Hf. induction ks as [|k1 ks IHk]; intros k0 [|c bs] [|s subs] e n pre acc ss0 Hc HS HA Hn Hi Hl Hbe Hik Hin; cbn [Builder_Spec.children_ok] in Hc; try tauto;
        destruct Hc as (Hct & Hsne & Hr & Hc); try (destruct Hc; fail).
      all: assert (Hcb : In c (K b)) by (apply Hin; left; auto).
      all: assert (HcX : In c X) by (eapply unfolded_kids; eauto).
      all: cbn [ranges_of ls_children].
      - destruct bs; [|destruct Hc]. destruct subs; [|destruct Hc]. cbn [concat] in *. rewrite app_nil_r in *.
        destruct (IH false c s fuel (mkkr (Some k0) e) ss0 Hct Hf' HcX HS) as (ss1 & sum & A & G & HS1 & HM & _).
        { intros k Hkk. cbn [kr_start kr_end]. split; [apply Hr in Hkk; tauto|apply Hbe; auto]. }
        rewrite A. destruct (append_fine n pre C (ups eng pool depth c = 1 \/ 2 <= links eng pool E c) acc c s sum HA G) as (acc' & -> & HA'); auto.
        { intros Hu. pose proof (links_pos eng pool depth Hpool E HE c HcX). destruct (N.eq_dec (links eng pool E c) 1) as [E1|E1]; [left; rewrite (child_once eng pool depth Hpool E HE b c); auto|right; lia]. }
        { apply G. }
        exists ss1, acc'. conj; auto.
      - cbn [concat] in *.
        destruct (IH false c s fuel (mkkr (Some k0) (Some k1)) ss0 Hct Hf' HcX HS) as (ss1 & sum & A & G & HS1 & HM & _).
        { intros k Hkk. cbn [kr_start kr_end below]. apply Hr in Hkk. tauto. }
        rewrite A. rewrite app_assoc in Hi, Hl.
        destruct (append_fine n pre C (ups eng pool depth c = 1 \/ 2 <= links eng pool E c) acc c s sum HA G) as (acc' & -> & HA'); auto.
        { intros Hu. pose proof (links_pos eng pool depth Hpool E HE c HcX). destruct (N.eq_dec (links eng pool E c) 1) as [E1|E1]; [left; rewrite (child_once eng pool depth Hpool E HE b c); auto|right; lia]. }
        { apply G. }
        { rewrite map_app in Hi. apply increasing_app in Hi. tauto. }
        { rewrite nlen_app in Hl. lia. }
        { unfold nlen in Hn. cbn [length] in Hn. lia. }
        apply increasing_cons in Hik as [_ Hik].
        destruct (IHk k1 bs subs e (n + 1) (pre ++ s) acc' ss1 Hc HS1 HA') as (ss2 & sum2 & A2 & G2 & HS2 & HM2); auto.
        { unfold nlen in *. cbn [length] in *. lia. }
        { intros k Hkk. apply Hbe. rewrite map_app. apply in_or_app. auto. }
        { intros x Hx. apply Hin. right. exact Hx. }
        exists ss2, sum2. rewrite A2. conj; auto. rewrite app_assoc. replace (n + nlen (k0 :: k1 :: ks)) with (n + 1 + nlen (k1 :: ks)) by (unfold nlen; cbn [length]; lia). exact G2. }
    destruct (HCH ks k0 bs subs (kr_end kr) 0 [] lsum_default ss Hc HS) as (ss1 & sum & A & G & HS1 & HM); auto.
    { unfold fine, lsum_default. cbn. conj; auto; lia. }
    { cbn [app]. rewrite <- Ekvs. exact Hinc. }
    { cbn [app]. rewrite <- Ekvs. exact Hfew. }
    { intros k Hkk. rewrite <- Ekvs in Hkk. apply Hk in Hkk. tauto. }
    { rewrite Ek. apply incl_refl. }
    rewrite A. cbn [app] in G. rewrite <- Ekvs in G. rewrite N.add_0_l in G.
    pose proof (links_ups eng pool depth Hpool E HE b) as Hlu. pose proof (links_pos eng pool depth Hpool E HE b Hb) as Hlp.
    destruct G as (G1 & G2 & G3 & G4 & G5 & G6 & G7).
    assert (HG : good b kvs (if 1 <? two_get msm b then mkls (ls_low sum) (ls_high sum) (ls_nr sum) (ls_nr sum) (ls_entries sum) (ls_errors sum) else sum)).
    { rewrite Hmsm by auto. destruct (N.ltb_spec 1 (N.min 2 (links eng pool E b))) as [Hg|Hg]; unfold good; cbn [ls_low ls_high ls_nr ls_errors ls_entries ls_shared]; rewrite Enk; conj; auto.
      - lia.
      - intros _. rewrite G3. symmetry. apply (shared_all b _ _ _ Ht). lia.
      - intros [Hu|Hu]; [apply G7; exact Hu|lia]. }
    eexists _, _. split; [reflexivity|]. split; [exact HG|]. conj.
    + intros x Hx. unfold upd. destruct (N.eqb_spec x b) as [->|Ne]; [|apply HS1; auto]. split; [discriminate|]. intros s0 Es0 r0 d0 kvs0 Ht0.
      pose proof (tree_depth _ _ _ _ _ _ _ _ (thin_mapping _ _ _ _ _ Ht0) (thin_mapping _ _ _ _ _ Ht)) as Ed. subst d0. rewrite (thin_det _ _ _ _ _ _ _ Ht0 Ht).
      match type of Es0 with Some ?y = _ => replace s0 with y by congruence end. exact HG.
    + intros x Hx. unfold upd. destruct (N.eqb_spec x b); [discriminate|auto].
    + unfold upd. rewrite N.eqb_refl. reflexivity.
Qed.

Lemma count_ok fuel : (forall r, In r (roots pool) -> (depth r < fuel)%nat) -> forall rs ss, incl rs (roots pool) -> SS ss ->
  exists ss', ls_count false nodes msm fuel rs ss = Some ss' /\ SS ss' /\ (forall x, ss x <> None -> ss' x <> None) /\ forall r, In r rs -> ss' r <> None.
Proof using Hpool Hdata Hkeys Hdev HE HL Hmsm Hnodes.
  intros Hf. induction rs as [|r rs IH]; intros ss Hi HS; cbn [ls_count].
  - exists ss. conj; auto; intros ? [].
  - assert (Hr : In r (roots pool)) by (apply Hi; left; auto). pose proof (unfolded_roots _ _ _ Hpool r Hr) as HX. rewrite (X_mod' r HX).
    destruct (root_tree _ _ _ Hpool r Hr) as (kvs & Ht). destruct (summarize_ok _ _ _ _ fuel full_range ss Ht (Hf r Hr) HX HS) as (ss1 & sum & A & _ & HS1 & HM & HB).
    { intros k _. cbn. auto. }
    rewrite A. destruct (IH ss1) as (ss2 & A2 & HS2 & HM2 & HR); auto; [intros x Hx; apply Hi; right; auto|]. exists ss2. conj; auto. intros x [<-|Hx]; auto. apply HM2. congruence.
Qed.
(** the summaries of the roots *)
Lemma good_root ss p : SS ss -> In p pool -> forall s, ss (pd_root p) = Some s ->
  ls_nr s = nlen (pd_maps p) /\ ls_shared s = nlen (shared_of pool p) /\ ls_high s = highest p /\ ls_errors s = 0.
Proof using Hpool HE.
  clear HL Hmsm Hnodes.
  intros HS Hp s Es. assert (Hr : In (pd_root p) (roots pool)) by (apply in_map; auto). pose proof (unfolded_roots _ _ _ Hpool _ Hr) as HX.
  assert (Ht : thin_tree eng true (depth (pd_root p)) (pd_root p) (pd_maps p)) by (rewrite Forall_forall in Hpool; apply Hpool; auto).
  destruct (proj2 (HS _ HX) s Es _ _ _ Ht) as (G1 & G2 & G3 & G4 & G5 & G6 & G7). conj; auto.
  apply G7. pose proof (links_pos eng pool depth Hpool E HE _ HX). destruct (N.eq_dec (links eng pool E (pd_root p)) 1) as [E1|E1]; [left; apply (root_once eng pool depth Hpool E HE); auto|right; lia].
Qed.
End Sum.

(** ** All together *)
Lemma root_depths eng pool : Forall (fun p => exists depth, thin_tree eng true depth (pd_root p) (pd_maps p)) pool ->
  exists depth, Forall (fun p => thin_tree eng true (depth (pd_root p)) (pd_root p) (pd_maps p)) pool.
Proof.
  induction 1 as [|p l (d & Hp) Hl (f & IH)]; [exists (fun _ => 0%nat); constructor|]. exists (fun x => if x =? pd_root p then d else f x). constructor.
  - rewrite N.eqb_refl. exact Hp.
  - rewrite Forall_forall in *. intros q Hq. specialize (IH q Hq). destruct (N.eqb_spec (pd_root q) (pd_root p)) as [E|]; [|exact IH].
    rewrite E in IH at 2. pose proof (tree_depth _ _ _ _ _ _ _ _ (thin_mapping _ _ _ _ _ IH) (thin_mapping _ _ _ _ _ Hp)) as Ed. rewrite <- Ed, E. rewrite <- E at 1. exact IH.
Qed.
Theorem mappings_counted nr eng nr_data pool fuel order1 order2 :
  device_of nr eng -> thin_pool eng nr_data pool -> nr <= N.of_nat fuel -> (forall l, Permutation (order1 l) l) -> (forall l, Permutation (order2 l) l) ->
  exists ss, count_data_mappings_ nr eng false fuel order1 order2 (map pd_root pool) (tsm_new nr) (tsm_new nr_data) = Ok ss /\
    forall p, In p pool -> exists s, ss (pd_root p) = Some s /\ ls_nr s = nlen (pd_maps p) /\ ls_shared s = nlen (shared_of pool p) /\ ls_high s = highest p /\ ls_errors s = 0.
Proof.
  intros Hdev [Hp Hk Hd] Hf HP1 HP2. destruct (root_depths eng pool Hp) as (depth & Hpool).
  destruct (collect_ok nr eng Hdev pool depth Hpool) as (msm & nodes & E & A & HE & HL & Hmsm & Hn & _).
  unfold count_data_mappings_. unfold roots in A. rewrite A. cbn [bind].
  destruct (leaf_sums nr eng Hdev pool depth nr_data Hpool Hk Hd E (leaves_of nodes) msm nodes HE HL Hmsm (order1 (leaves_of nodes)) (order2 (filter (fun b => two_get msm b =? 1) (leaves_of nodes))))
    as (dsm & ss & ss2 & A1 & A2 & HS).
  { apply HP1. }
  { intros b. rewrite <- (N.eqb_eq (two_get msm b)). rewrite <- (filter_In (fun b => two_get msm b =? 1)). split; apply Permutation_in; [apply HP2|symmetry; apply HP2]. }
  rewrite A1. cbn [bind]. rewrite A2. cbn [bind].
  destruct (count_ok nr eng Hdev pool depth nr_data Hpool Hk Hd E (leaves_of nodes) msm nodes HE HL Hmsm Hn fuel) with (rs := map pd_root pool) (ss := ss2) as (ss3 & A3 & HS3 & _ & HR); auto.
  - intros r Hr. destruct (root_tree _ _ _ Hpool r Hr) as (kvs & Ht). pose proof (tree_shallow nr eng _ _ _ _ Hdev (thin_mapping _ _ _ _ _ Ht)). lia.
  - apply incl_refl.
  - rewrite A3. exists ss3. split; [reflexivity|]. intros p Hp0. destruct (ss3 (pd_root p)) as [s|] eqn:Es; [|exfalso; apply (HR (pd_root p)); auto; apply in_map; auto].
    exists s. split; [reflexivity|]. apply (good_root eng pool depth Hpool E HE ss3 p HS3 Hp0 s Es).
Qed.
