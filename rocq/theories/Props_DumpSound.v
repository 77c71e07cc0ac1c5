(** Property C61: a dump that reports success has read, and says, everything. *)
From Verif Require Import Base Csum_Model Codec_Model Codec_Spec SpaceMap_Model Batcher_Model Builder_Model Walker_Model ThinOut_Model ThinOut_Spec ThinCheck_Spec Runs_Model Runs_Spec
  Restore_Model Repair_Model RestoreDoc_Spec Dump_Model Dump_Spec DumpSound_Spec Dump_Proofs DumpDoc_Proofs DumpSound_Proofs Props_Runs Props_Dump Props_DumpEx.

Lemma selected_chosen sel devs : selected sel devs = chosen sel devs.
Proof.
  destruct sel as [l|]; [|reflexivity]. cbn [selected chosen]. induction devs as [|d devs IH]; [reflexivity|]. cbn [filter]. rewrite IH.
  destruct (in_dec N.eq_dec (fst d) l) as [Hi|Hi].
  - replace (existsb (N.eqb (fst d)) l) with true; [reflexivity|]. symmetry. apply existsb_exists. exists (fst d). split; auto. apply N.eqb_refl.
  - replace (existsb (N.eqb (fst d)) l) with false; [reflexivity|]. symmetry. destruct (existsb _ l) eqn:E; auto. apply existsb_exists in E as (x & Hx & Ex).
    apply N.eqb_eq in Ex. subst x. contradiction.
Qed.
Lemma zip_listed (details : list (N * device_detail)) (roots : list (N * N)) :
  let devs := map (fun x : (N * N) * device_detail => (fst (fst x), (snd (fst x), snd x))) (combine roots (map snd details)) in
  map fst devs = map fst (firstn (length details) roots) /\ map (fun d => fst (snd d)) devs = map snd (firstn (length details) roots) /\
  map (fun d => snd (snd d)) devs = map snd (firstn (length roots) details).
Proof.
  revert details. induction roots as [|[i r] roots IH]; intros [|[j d] details]; cbn [combine map length firstn fst snd]; auto.
  destruct (IH details) as (A & B & C). conj; f_equal; auto.
Qed.
Lemma inner_read nr eng : forall depth r b ls, inner_tree nr eng r depth b ls -> Forall (readable eng) ls -> read_tree eng r depth b (flat_map (content_at eng) ls).
Proof.
  induction depth as [|dp IH]; intros r b ls H HF; cbn [inner_tree read_tree] in *.
  - destruct H as [-> _]. inversion HF; subst. cbn [flat_map]. rewrite app_nil_r. auto.
  - destruct H as (h & ks & bs & subs & Hn & H2 & ->). exists h, ks, bs, (map (flat_map (content_at eng)) subs). conj; auto.
    + clear Hn. induction H2 as [|x s bs subs Hx H2 IH2]; cbn [map]; constructor; cbn [concat] in HF; apply Forall_app in HF as [F1 F2]; auto.
    + clear. induction subs as [|s subs IH]; [reflexivity|]. cbn [concat map]. rewrite flat_map_app, IH. reflexivity.
Qed.
Lemma denote_substituted eng defs es : flat_map (denote_entry (content_at eng) (resolve_in eng defs)) es = flat_map (content_at eng) (substituted defs es).
Proof. unfold substituted. induction es as [|[b|n] es IH]; [reflexivity| |]; cbn [flat_map denote_entry leaves_of]; rewrite IH, flat_map_app; [cbn [flat_map]; rewrite app_nil_r; reflexivity|reflexivity]. Qed.

Lemma meta_success nr eng sb devs md0 md evs : device_of nr eng -> (forall b kvs, leaf_is eng b kvs -> Forall (fun kv => fst kv < 2 ^ 64 - 1) kvs) ->
  build_metadata_with_dev_ nr eng devs = Ok md0 -> optimise md0 = Ok md -> dump_metadata eng sb md = (evs, Ok tt) ->
  exists ir defs secs, headed sb ir /\ evs = doc_events ir (defs ++ secs) ++ [EvEof] /\ Forall (fun s => exists name ms, s = SDef name ms) defs /\
    Forall2 (fun d s => exists its depth kvs, s = SDev (device_header d) its /\ read_tree eng true depth (fst (snd d)) kvs /\ content_entries (definitions defs) its = Some kvs) devs secs.
Proof.
  intros Hdev Hlast Eb Eo Ed. apply build_inv in Eb as (Ls & HLs & ->). unfold optimise in Eo. cbn [mt_nr mt_devs] in Eo.
  assert (HL : length devs = length Ls) by (clear - HLs; induction HLs; cbn; auto).
  assert (Eents : map md_entries (map md_of (combine devs (map (map EnLeaf) Ls))) = map (map EnLeaf) Ls).
  { clear - HL. revert Ls HL. induction devs as [|d devs IH]; intros [|l Ls] HL; cbn in HL; try lia; auto. cbn [map combine]. f_equal. apply IH. lia. }
  rewrite Eents in Eo. clear Eents.
  assert (Hlt : Forall (Forall (fun b => b < nr)) Ls).
  { clear - HLs. induction HLs as [|d l devs Ls (dp & H) HLs IH]; constructor; auto. eapply inner_lt; eauto. }
  destruct (C25_definitions_expand nr Ls Hlt) as (defs & outs & Eopt & Esub & Hdef & Href & Hnd & _). rewrite Eopt in Eo. cbn [bind] in Eo. injection Eo as <-.
  assert (HLo : length outs = length Ls) by (rewrite <- Esub, map_length; reflexivity).
  assert (Emd : map (fun x => mkmd (md_id (fst x)) (md_detail (fst x)) (snd x)) (combine (map md_of (combine devs (map (map EnLeaf) Ls))) outs) = map md_of (combine devs outs)).
  { clear - HL HLo. revert Ls outs HL HLo. induction devs as [|d devs IH]; intros [|l Ls] [|o outs] HL HLo; cbn in HL, HLo; try lia; auto. cbn [map combine]. f_equal. apply (IH Ls); lia. }
  rewrite Emd in Ed. clear Emd. unfold dump_metadata in Ed. cbn [mt_defs mt_devs] in Ed. destruct (to_superblock_ir sb) as [ir| |] eqn:Eir; try discriminate Ed.
  destruct (dump_sections eng (fun d => EvDefB (fst d)) snd EvDefE defs _) as [o r] eqn:Esec. injection Ed as <- ->.
  destruct (sections_read _ _ _ _ _ _ _ Esec) as [Edv Rdefs]. 
  destruct (dump_sections eng (fun d => EvDevB (dev_ir d)) md_entries EvDevE (map md_of (combine devs outs)) ([EvSbE; EvEof], Ok tt)) as [o2 r2] eqn:Esec2. cbn [snd] in Edv. subst r2.
  destruct (sections_read _ _ _ _ _ _ _ Esec2) as [_ Rdevs].
  assert (Routs : forall es, In es outs -> Forall (readable eng) (flat_map leaf_of es)).
  { intros es Hes. assert (exists d, In (d, es) (combine devs outs)) as (d & Hin).
    { assert (HLx : length devs = length outs) by lia. clear - Hes HLx. revert outs Hes HLx. induction devs as [|d devs IH]; intros [|o outs] Hes HLx; cbn in HLx; try lia; [destruct Hes|].
      destruct Hes as [->|Hes]; [exists d; left; auto|]. destruct (IH outs Hes) as (d' & H); [lia|]. exists d'. right; auto. }
    apply (in_map md_of) in Hin. apply Rdevs in Hin. exact Hin. }
  assert (Rp : forall b, readable eng b -> printable eng b).
  { intros b Hb. split; auto. pose proof (leaf_range nr eng Hdev b _ Hb) as HR. pose proof (Hlast b _ Hb) as HK. rewrite Forall_forall in *. intros kv Hin. specialize (HR kv Hin). specialize (HK kv Hin).
    unfold bt_range in HR. split; [exact HK|tauto]. }
  assert (Hde : forall n es, In (n, es) defs -> def_entries defs n = es).
  { clear - Hnd. induction defs as [|[m em] defs IH]; intros n es Hin; [destruct Hin|]. cbn [def_entries map fst] in *. inversion Hnd as [|? ? N1 N2]; subst.
    destruct Hin as [[= -> ->]|Hin]; [rewrite N.eqb_refl; auto|]. destruct (N.eqb_spec m n) as [->|]; [|auto]. exfalso. apply N1. change n with (fst (n, es)). apply in_map. auto. }
  assert (RLs : forall es, In es outs -> Forall (readable eng) (substituted defs es)).
  { intros es Hes. rewrite Forall_forall. intros b Hb. unfold substituted in Hb. apply in_flat_map in Hb as ([b'|n] & He & Hb); cbn [leaves_of] in Hb.
    - destruct Hb as [->|[]]. pose proof (Routs es Hes) as HF. rewrite Forall_forall in HF. apply HF. apply in_flat_map. exists (EnLeaf b). split; auto. left; auto.
    - assert (Hn : In n (map fst defs)) by (apply Href; apply in_concat; eauto). apply in_map_iff in Hn as ([n' en] & En & Hn). cbn [fst] in En. subst n'. rewrite (Hde n en Hn) in Hb.
      pose proof (Rdefs (n, en) Hn) as HF. cbn [snd] in HF. rewrite Forall_forall in HF. auto. }
  destruct (devs_say eng (defs_mean eng defs) (resolve_in eng defs) (combine devs outs)) as (secs & Es2 & HS).
  { intros d es Hin. apply in_combine_r in Hin. split.
    - intros b Hb. apply Rp. pose proof (Routs es Hin) as HF. rewrite Forall_forall in HF. apply HF. apply in_flat_map. exists (EnLeaf b). split; auto. left; auto.
    - intros n Hn. apply assoc_defs. apply Href. apply in_concat. eauto. }
  rewrite Esec2 in Es2. injection Es2 as ->.
  destruct (defs_say eng (flat_map sect_events secs ++ [EvSbE; EvEof], Ok tt) defs) as (dsecs & Es1 & ED & HD).
  { intros id es Hin. destruct (Hdef id es Hin) as ((r & ->) & _). exists (id :: r). split; auto. pose proof (Rdefs _ Hin) as HF. cbn [snd] in HF. rewrite leaf_of_leaves in HF.
    eapply Forall_impl; [|exact HF]. auto. }
  rewrite Esec in Es1. cbn [fst snd] in Es1. injection Es1 as ->. exists ir, dsecs, secs. conj.
  - unfold to_superblock_ir in Eir. destruct sb as [s|cr]; cbn [headed].
    + destruct (smroot_unpack (ts_data_sm_root s)) as [[rt rest]| |] eqn:Er; try discriminate Eir. cbn [bind] in Eir. injection Eir as <-. eauto.
    + injection Eir as <-. reflexivity.
  - unfold doc_events. rewrite flat_map_app. cbn [app]. rewrite <- !app_assoc. reflexivity.
  - exact HD.
  - rewrite ED. clear - HS HLs HL HLo Esub RLs. revert Ls outs secs HLs HL HLo Esub RLs HS. induction devs as [|d devs IH]; intros [|l Ls] [|es outs] secs HLs HL HLo Esub RLs HS; cbn [length] in HL, HLo; try lia.
    + inversion HS. constructor.
    + cbn [combine] in HS. inversion HS as [|? s ? secs' (its & -> & Hits) HS']; subst. inversion HLs as [|? ? ? ? (dp & Hin) HLs']; subst. cbn [map] in Esub. injection Esub as <- Esub.
      constructor.
      * exists its, dp, (flat_map (content_at eng) (substituted defs es)). conj.
        -- reflexivity.
        -- eapply inner_read; [exact Hin|]. apply RLs. left; auto.
        -- rewrite Hits. cbn [snd]. rewrite denote_substituted. reflexivity.
      * eapply IH; [exact HLs'|lia| |exact Esub| |exact HS']; [lia|]. intros es' Hes. apply RLs. right; auto.
Qed.

(** Whatever is on the device and whichever superblock the options ask for: if thin_dump reports
    success, then for every device it had to dump, each node of its mapping tree, down to the
    leaves, could be read, and what was written is a complete document with exactly one section per such device, in
    order, whose mappings, references replaced by the definitions written before, are those in
    the leaves.  Mappings for the very last thin block number are excluded (run lengths wrap). *)
Theorem C61_dump_success : forall sort_devs sort_details nr eng repair use_snap o sel evs,
  device_of nr eng -> (forall b kvs, leaf_is eng b kvs -> Forall (fun kv => fst kv < 2 ^ 64 - 1) kvs) ->
  thin_dump sort_devs sort_details nr eng repair use_snap false o sel = (evs, Ok tt) ->
  exists sb devs ir defs secs,
    opened sort_devs sort_details nr eng repair use_snap o sb /\ listed nr eng sb devs /\ headed sb ir /\
    evs = doc_events ir (defs ++ secs) ++ [EvEof] /\ Forall (fun s => exists name ms, s = SDef name ms) defs /\
    Forall2 (fun d s => exists its depth kvs, s = SDev (device_header d) its /\
        read_tree eng true depth (fst (snd d)) kvs /\ content_entries (definitions defs) its = Some kvs)
      (chosen sel devs) secs.
Proof.
  intros sd sdt nr eng rep snap o sel evs Hdev Hlast H. unfold thin_dump in H.
  match type of H with match ?x with _ => _ end = _ => destruct x as [sb| |] eqn:Esb; try discriminate H end.
  assert (Hop : opened sd sdt nr eng rep snap o sb).
  { unfold opened. destruct rep; [exact Esb|]. destruct snap.
    - unfold read_sb_snap in Esb. destruct (read_sb eng 0) as [live| |] eqn:E0; try discriminate Esb. cbn [bind] in Esb.
      destruct (N.eqb_spec (ts_metadata_snap live) 0); [discriminate Esb|]. destruct (read_sb eng (ts_metadata_snap live)) as [s| |] eqn:E1; try discriminate Esb. cbn [bind] in Esb.
      injection Esb as <-. exists live, s. conj; auto.
    - destruct (read_sb eng 0) as [s0| |] eqn:E0; try discriminate Esb. cbn [bind] in Esb. destruct (override_sb o s0) as [s| |] eqn:E1; try discriminate Esb. cbn [bind] in Esb.
      injection Esb as <-. exists s0, s. conj; auto. }
  unfold dump_from, build_metadata_with_dev in H.
  destruct (match sb with OnDisk s => devices_iter nr eng s | InCore c => Ok (co_devices c) end) as [devs| |] eqn:Edv; cbn [bind] in H; try discriminate H.
  destruct (build_metadata_with_dev_ nr eng (selected sel devs)) as [md0| |] eqn:Eb; cbn [bind] in H; try discriminate H.
  destruct (optimise md0) as [md| |] eqn:Eo; try discriminate H.
  rewrite selected_chosen in Eb. destruct (meta_success _ _ _ _ _ _ _ Hdev Hlast Eb Eo H) as (ir & defs & secs & A & B & C & D).
  exists sb, devs, ir, defs, secs. conj; auto. unfold listed. destruct sb as [s|c]; [|congruence].
  unfold devices_iter in Edv. destruct (btree_to_map dd_codec nr eng true (ts_details_root s)) as [details| |]; try discriminate Edv. cbn [bind] in Edv.
  destruct (btree_to_map u64_codec nr eng true (ts_mapping_root s)) as [roots| |]; try discriminate Edv. cbn [bind] in Edv. injection Edv as <-.
  exists details, roots. destruct (zip_listed details roots) as (X & Y & Z). conj; auto.
Qed.
Print Assumptions C61_dump_success.

(** A successful dump of the metadata of C24_hypotheses_met, with shared leaves, meets the hypotheses. *)
Definition keys_below (D : disk) (n : nat) : bool :=
  forallb (fun b => forallb (fun kv => fst kv <? 2 ^ 64 - 1) (match dump_leaf (D b) with Ok kvs => kvs | _ => [] end)) (map N.of_nat (seq 0 n)).
Lemma keys_below_spec D n : keys_below D n = true -> forall b kvs, leaf_is (reading (N.of_nat n) D) b kvs -> Forall (fun kv => fst kv < 2 ^ 64 - 1) kvs.
Proof.
  intros K b kvs H. unfold keys_below in K. rewrite forallb_forall in K. pose proof (content_is _ _ _ H) as <-. destruct H as (data & _ & _ & _ & E & _).
  unfold content_at. rewrite E. unfold reading in E. destruct (N.ltb_spec b (N.of_nat n)) as [Hb|]; [|discriminate E]. injection E as <-.
  assert (Hi : In b (map N.of_nat (seq 0 n))) by (apply in_map_iff; exists (N.to_nat b); split; [lia|apply in_seq; lia]).
  apply K in Hi. rewrite forallb_forall in Hi. apply Forall_forall. intros kv Hkv. apply N.ltb_lt. auto.
Qed.
Lemma ex_keys : (let D := ex_disk ex_doc in keys_below D 20) = true.
Proof. vm_compute. reflexivity. Qed.
Lemma ex_dump_success D : snd (ex_dump D) = Ok tt -> exists evs,
  thin_dump (fun l => l) (fun l => l) 20 (reading 20 D) false false false no_overrides None = (evs, Ok tt) /\ def_names evs = def_names (fst (ex_dump D)).
Proof. unfold ex_dump. destruct (thin_dump _ _ _ _ _ _ _ _ _) as [e r]. cbn [fst snd]. intros ->. eauto. Qed.
Lemma ex_facts : snd (ex_dump (ex_disk ex_doc)) = Ok tt /\ def_names (fst (ex_dump (ex_disk ex_doc))) = [2; 3].
Proof. conj; vm_compute; reflexivity. Qed.
Example C61_hypotheses_met : exists D, device_of 20 (reading 20 D) /\
  (forall b kvs, leaf_is (reading 20 D) b kvs -> Forall (fun kv => fst kv < 2 ^ 64 - 1) kvs) /\
  exists evs, thin_dump (fun l => l) (fun l => l) 20 (reading 20 D) false false false no_overrides None = (evs, Ok tt) /\ def_names evs = [2; 3].
Proof.
  exists (ex_disk ex_doc). pose proof ex_sizes as H1. pose proof (ex_keys : keys_below (ex_disk ex_doc) 20 = true) as H2. destruct ex_facts as [H3 H4].
  revert H1 H2 H3 H4. generalize (ex_disk ex_doc). intros D H1 H2 H3 H4. conj.
  - apply reading_device; [reflexivity|exact H1].
  - exact (keys_below_spec D 20 H2).
  - rewrite <- H4. apply ex_dump_success. exact H3.
Qed.
Print Assumptions C61_hypotheses_met.
