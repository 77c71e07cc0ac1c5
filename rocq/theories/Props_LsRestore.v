(** Property C57: trees made by the builder, and so the metadata thin_restore writes. *)
From Coq Require Import Permutation.
From Verif Require Import Base Csum_Model Codec_Model Codec_Spec Codec_Proofs Pack_Proofs SpaceMap_Model Utils_Model Builder_Model Builder_Spec Builder_Proofs BtreeRead_Proofs Walker_Model Walker_Spec Walker_Proofs WalkTree_Proofs Props_Walker
  ThinOut_Model Restore_Model Repair_Model Props_RepairSb Writeback_Model RestoreDoc_Spec ThinCheck_Model ThinCheck_Spec ThinRead_Proofs Dump_Model Dump_Spec Dump_Proofs DumpTop_Proofs Props_Dump Ls_Model Ls_Spec LsAlg_Proofs Props_Ls Utils_Proofs.

Lemma walk_log {V} (c : codec V) nr eng (d : disk) depth root kvs foot inf : tree c d true depth root kvs foot -> NoDup foot -> increasing (map fst kvs) -> nr < 2 ^ 64 ->
  (forall b, In b foot -> b < nr /\ eng b = Some (d b)) ->
  exists s calls, walk c inf eng (fun _ _ => true) [0] root (walker_new nr) = (s, None) /\ w_log s = calls ++ [CEnd] /\ flat_map (@call_entries V) calls = kvs /\ Forall leaf_call calls.
Proof.
  intros HT HN Hi Hnr Hf. destruct (undamaged_walk c inf eng d depth root _ foot [0] (walker_new nr) HT HN Hi) as (s' & calls & E & L & K & KL & _ & _ & _).
  - unfold map_ok, walker_new, rsm_new. cbn [w_sm wsm_nr wmax wcount r_nr r_bits]. split; [auto|split; [lia|intros; lia]].
  - intros b Hb. cbn. destruct (Hf b Hb). auto.
  - unfold accept_all in E. exists s', calls. auto.
Qed.
Lemma value_vec_any {V} (c : codec V) nr eng (d : disk) depth root kvs foot inf : tree c d true depth root kvs foot -> NoDup foot -> increasing (map fst kvs) -> nr < 2 ^ 64 ->
  (forall b, In b foot -> b < nr /\ eng b = Some (d b)) -> btree_to_value_vec c nr eng inf root = Ok (map snd kvs).
Proof.
  intros HT HN Hi Hnr Hf. destruct (walk_log c nr eng d depth root kvs foot inf HT HN Hi Hnr Hf) as (s & calls & E & L & K & KL). unfold btree_to_value_vec. rewrite E, L. f_equal.
  rewrite flat_map_app. cbn [flat_map]. rewrite app_nil_r, <- K. clear - KL. induction KL as [|x l Hx Hl IH]; [reflexivity|]. cbn [flat_map]. rewrite map_app, <- IH.
  destruct x as [p kr h ks vs| |]; cbn [leaf_call call_entries] in *; try tauto. destruct Hx as [Hx _].
  f_equal. clear - Hx. revert vs Hx. induction ks as [|k ks IH]; intros [|v vs] Hx; cbn [length] in Hx; try lia; [reflexivity|]. cbn [combine map snd]. f_equal. apply IH. lia.
Qed.
Lemma insert_end k : forall m : list (N * unit), (forall x, In x (map fst m) -> x < k) -> bmap_insert k tt m = m ++ [(k, tt)].
Proof.
  induction m as [|[a u] m IH]; intros H; [reflexivity|]. cbn [bmap_insert app]. pose proof (H a (or_introl eq_refl)) as Ha. destruct (N.ltb_spec k a); [lia|]. destruct (N.eqb_spec k a); [lia|].
  rewrite IH; [reflexivity|]. intros x Hx. apply H. right. exact Hx.
Qed.
Lemma insert_keys : forall ks (m : list (N * unit)), increasing (map fst m ++ ks) -> fold_left (fun m k => bmap_insert k tt m) ks m = m ++ map (fun k => (k, tt)) ks.
Proof.
  induction ks as [|k ks IH]; intros m Hi; cbn [fold_left map]; [rewrite app_nil_r; reflexivity|]. rewrite insert_end.
  - rewrite IH; [rewrite <- app_assoc; reflexivity|]. rewrite map_app. cbn [map fst]. rewrite <- app_assoc. exact Hi.
  - intros x Hx. apply increasing_split in Hi as (_ & _ & H). apply H; [exact Hx|left; auto].
Qed.
Lemma key_set_any {V} (c : codec V) nr eng (d : disk) depth root kvs foot inf : tree c d true depth root kvs foot -> NoDup foot -> increasing (map fst kvs) -> nr < 2 ^ 64 ->
  (forall b, In b foot -> b < nr /\ eng b = Some (d b)) -> btree_to_key_set c nr eng inf root = Ok (map fst kvs).
Proof.
  intros HT HN Hi Hnr Hf. destruct (walk_log c nr eng d depth root kvs foot inf HT HN Hi Hnr Hf) as (s & calls & E & L & K & KL). unfold btree_to_key_set. rewrite E, L. f_equal.
  unfold collect_keys. rewrite fold_left_app. cbn [fold_left]. subst kvs.
  assert (G : forall (m : list (N * unit)), increasing (map fst m ++ map fst (flat_map (@call_entries V) calls)) ->
    fold_left (fun m x => match x with CVisit _ _ _ ks _ => fold_left (fun m k => bmap_insert k tt m) ks m | _ => m end) calls m = m ++ map (fun k => (k, tt)) (map fst (flat_map (@call_entries V) calls))).
  { clear - KL. induction KL as [|x l Hx Hl IH]; intros m Hm; cbn [fold_left flat_map map]; [rewrite app_nil_r; reflexivity|].
    destruct x as [p kr h ks vs| |]; cbn [leaf_call call_entries flat_map] in *; try tauto. destruct Hx as [Hx _].
    rewrite map_app in *. rewrite (map_fst_combine' ks vs Hx) in *. rewrite app_assoc in Hm. rewrite insert_keys by (apply increasing_split in Hm; tauto).
    rewrite IH; [rewrite map_app, <- app_assoc; reflexivity|]. rewrite map_app, map_map. cbn. rewrite map_id. exact Hm. }
  rewrite G by exact Hi. cbn [app]. rewrite map_map. cbn. apply map_id.
Qed.
Lemma list_eqb_refl l : list_eqb l l = true.
Proof. induction l as [|x l IH]; [reflexivity|]. cbn. rewrite N.eqb_refl, IH. reflexivity. Qed.

Lemma holds_full (D : disk) eng r b n : Builder_Spec.holds bt_codec D b n -> eng b = Some (D b) ->
  (r = false -> nh_max_entries (get_header n) / 3 <= nh_nr_entries (get_header n)) -> (r = false -> 84 <= nlen (get_keys n)) -> full_node eng r b n.
Proof.
  intros H E Hr H84. split; [eapply holds_node_on; eauto|]. split; [|exact H84]. destruct H as (_ & _ & H). specialize (H false r ltac:(auto)). apply check_raw in H. tauto.
Qed.
Lemma tree_thin (D : disk) eng depth : forall r b kvs foot, tree bt_codec D r depth b kvs foot -> increasing (map fst kvs) ->
  (forall x, In x foot -> eng x = Some (D x)) -> thin_tree eng r depth b kvs.
Proof.
  induction depth as [|dp IH]; intros r b kvs foot H Hi He; cbn [tree thin_tree] in *.
  - destruct H as (h & ks & vs & Hh & Hl & E & H1 & H2 & H3 & H4 & ->). exists h, ks, vs. split; auto. eapply holds_full; eauto.
    + apply He. left; auto.
    + intros Hr. specialize (H4 Hr). cbn [get_header]. rewrite H1, H2. clear - H4. dlia.
    + intros Hr. specialize (H4 Hr). cbn [get_keys]. change (calc_max_entries bt_codec) with 252 in H4. change (252 / 2) with 126 in H4. subst kvs. unfold nlen in *. rewrite combine_length in H4. lia.
  - destruct H as (h & ch & subs & Hh & H1 & H2 & H3 & H4 & HF & -> & ->).
    exists h, (map fst ch), (map snd ch), (map fst subs). conj; auto.
    + eapply holds_full; eauto; [apply He; left; auto| |]; intros Hr; specialize (H4 Hr).
      * cbn [get_header]. rewrite H1, H2. clear - H4. dlia.
      * cbn [get_keys]. change (calc_max_entries u64_codec) with 252 in H4. change (252 / 2) with 126 in H4. unfold nlen in *. rewrite map_length. lia.
    + destruct ch; [unfold nlen in H3; cbn in H3; lia|discriminate].
    + assert (He' : forall x, In x (flat_map snd subs) -> eng x = Some (D x)) by (intros x Hx; apply He; right; rewrite <- flat_map_concat_map; exact Hx).
      clear H1 H2 H3 H4 Hh He. induction HF as [|kb sub ch subs (A & B & C) HF IHF]; cbn [map Builder_Spec.children_ok]; auto.
      cbn [map concat] in Hi. rewrite map_app in Hi. apply increasing_split in Hi as (I1 & I2 & I3). cbn [flat_map] in He'.
      specialize (IHF I2 ltac:(intros x Hx; apply He'; apply in_or_app; auto)). conj; auto.
      * eapply IH; [exact C|exact I1|]. intros x Hx. apply He'. apply in_or_app. auto.
      * intros k' Hk'. split.
        { rewrite B. destruct (fst sub) as [|[k v] s]; [destruct Hk'|]. cbn [first_key map fst] in *.
          apply increasing_strong in I1 as [I1 _]. destruct Hk' as [<-|Hk']; [lia|]. apply I1 in Hk'. lia. }
        { destruct HF as [|kb2 sub2 ch2 subs2 (A2 & B2 & C2) HF]; cbn [map]; auto. rewrite B2. apply I3; auto.
          cbn [map concat]. rewrite map_app. apply in_or_app. left. destruct (fst sub2) as [|[k v] s]; [congruence|]. left; auto. }
Qed.

(** Listing metadata that thin_restore has written ([restored], C22): the devices of the
    document by increasing id, each with the right numbers. *)
Theorem C57_after_restore : forall D n nr hdr devs fuel order1 order2 fs,
  n <= nr -> nr < 2 ^ 32 -> (forall b, b < nr -> length (D b) = 4096%nat /\ bytes (D b)) -> restored D n hdr devs ->
  Forall (fun d => increasing (map fst (dv_maps d)) /\ Forall (fun kv => fst kv < 2 ^ 64 - 1 /\ bt_block (snd kv) < is_nr_data_blocks hdr) (dv_maps d)) devs ->
  nr <= N.of_nat fuel -> (forall l, Permutation (order1 l) l) -> (forall l, Permutation (order2 l) l) -> counting fs = true ->
  exists pool, Permutation (map as_device pool) devs /\ increasing (map pd_id pool) /\
    thin_ls nr (reading nr D) fuel order1 order2 false fs = Ok (is_data_block_size hdr, map (right_row pool) pool).
Proof.
  intros D n nr hdr devs fuel o1 o2 fs Hn Hnr HD (s & trees & fd & fm & Es & HO & (r & rest & L & enough & Er & En & _) & (mr & mrest & mi & en2 & sms & Em & _ & _ & _ & HN & _ & HF & _)) Hdev Hfuel P1 P2 Hc.
  destruct HO as (O1 & O2 & O3 & O4 & O5 & O6 & HP & Hti & (dd & Td) & (dm & Tm) & Tt).
  assert (H0 : 0 < n) by (inversion HF; auto). apply Forall_cons_iff in HF as [_ HF]. apply Forall_app in HF as [Fd HF]. apply Forall_app in HF as [Fm HF]. apply Forall_app in HF as [_ Ft].
  assert (Hrd : forall b, b < n -> reading nr D b = Some (D b)) by (intros b Hb; unfold reading; destruct (N.ltb_spec b nr); [auto|lia]).
  apply NoDup_cons_iff in HN as [_ HN]. apply NoDup_app_iff_local in HN as (Nd & HN & _). apply NoDup_app_iff_local in HN as (Nm & _ & _).
  rewrite Forall_forall in Fd, Fm, Ft.
  set (mk := fun t => mkpd (dv_id (dt_dev t)) (dt_root t) (dv_details (dt_dev t)) (dv_maps (dt_dev t))).
  assert (Edev : map as_device (map mk trees) = map dt_dev trees) by (rewrite map_map; apply map_ext; intros t; unfold mk, as_device; cbn; destruct (dt_dev t); reflexivity).
  assert (Hd : device_of nr (reading nr D)).
  { split; [exact Hnr|]. intros b data Hb. unfold reading in Hb. destruct (N.ltb_spec b nr) as [Hlt|]; [|discriminate]. injection Hb as <-. destruct (HD b Hlt). auto. }
  assert (Hsb : read_sb (reading nr D) 0 = Ok s) by (unfold read_sb; rewrite Hrd by exact H0; unfold thin_read_superblock in *; exact Es).
  assert (Hfd : forall b, In b fd -> b < nr /\ reading nr D b = Some (D b)) by (intros b Hb; specialize (Fd b Hb); split; [lia|auto]).
  assert (Hfm : forall b, In b fm -> b < nr /\ reading nr D b = Some (D b)) by (intros b Hb; specialize (Fm b Hb); split; [lia|auto]).
  assert (Hid : increasing (map fst (map (fun t => (dv_id (dt_dev t), dv_details (dt_dev t))) trees))) by (rewrite map_map; exact Hti).
  assert (Him : increasing (map fst (map (fun t => (dv_id (dt_dev t), dt_root t)) trees))) by (rewrite map_map; exact Hti).
  exists (map mk trees). split; [rewrite Edev; exact HP|]. split; [rewrite map_map; exact Hti|]. rewrite <- O6.
  assert (Hq : Forall (fun t => increasing (map fst (dv_maps (dt_dev t))) /\ Forall (fun kv => fst kv < 2 ^ 64 - 1 /\ bt_block (snd kv) < is_nr_data_blocks hdr) (dv_maps (dt_dev t))) trees).
  { apply Forall_forall. intros t Ht. rewrite Forall_forall in Hdev. apply Hdev. eapply Permutation_in; [exact HP|]. apply in_map. exact Ht. }
  eapply (C57_counts nr (reading nr D) fuel o1 o2 false fs s s (map mk trees) r rest mr mrest); auto.
  - split; [|split].
    + rewrite map_map. eapply (C54_btree_to_map dd_codec false (reading nr D) D); [exact Td|exact Nd|exact Hid|lia|exact Hfd].
    + rewrite (value_vec_any u64_codec nr (reading nr D) D dm _ _ fm false Tm Nm Him ltac:(lia) Hfm). rewrite !map_map. reflexivity.
    + unfold devices_identical. rewrite (key_set_any u64_codec nr (reading nr D) D dm _ _ fm false Tm Nm Him ltac:(lia) Hfm), (key_set_any dd_codec nr (reading nr D) D dd _ _ fd false Td Nd Hid ltac:(lia) Hfd).
      rewrite !map_map. apply list_eqb_refl.
  - rewrite En. rewrite Forall_forall in Hq, Tt. constructor; apply Forall_forall; intros p Hp; apply in_map_iff in Hp as (t & <- & Ht); cbn [mk pd_root pd_maps]; destruct (Hq t Ht) as [Q1 Q2].
    + exists (dt_depth t). eapply tree_thin; [apply Tt; exact Ht|exact Q1|]. intros x Hx. apply Hrd. apply Ft. apply in_flat_map. eauto.
    + eapply Forall_impl; [|exact Q2]. intros kv [A _]. exact A.
    + eapply Forall_impl; [|exact Q2]. intros kv [_ A]. exact A.
Qed.
Print Assumptions C57_after_restore.
