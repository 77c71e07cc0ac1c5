(** C34: the hypotheses met, runs, and tables that are not checked. *)
From Verif Require Import IoMany_Proofs Base Csum_Model Codec_Model Codec_Spec Codec_Proofs Props_Codec SpaceMap_Model Utils_Model Utils_Proofs Batcher_Model Builder_Model Builder_Spec Builder_Proofs BtreeBuild_Proofs Props_Btree Walker_Model Array_Model Array_Spec Array_Proofs Props_Array Copier_Model Writeback_Model Writeback_Spec Props_Writeback Props_WritebackEx CacheCheck_Model CacheCheck_Spec CacheCheck_Proofs Props_CacheCheck.

(** The hypotheses of C34_version2, as one predicate. *)
Definition v2_hyps (eng : N -> option (list N)) (d : disk) (nr : N) (sb : cache_sb) (root depth wdepth : N) (blocks foot wblocks wfoot : list N) : Prop :=
  tree u64_codec d true (N.to_nat depth) (cs_mapping_root sb) (combine (range 0 (nlen blocks)) blocks) foot /\ NoDup foot /\ NoDup blocks /\ ~ In 0 foot /\
  tree u64_codec d true (N.to_nat wdepth) root (combine (range 0 (nlen wblocks)) wblocks) wfoot /\ NoDup wfoot /\ NoDup wblocks /\ ~ In 0 wfoot /\
  (forall b, In b foot -> ~ In b wfoot /\ ~ In b wblocks) /\
  (forall b, In b (foot ++ wfoot) -> b < nr /\ eng b = Some (d b)) /\
  (forall b data, In b (blocks ++ wblocks) -> eng b = Some data -> b < nr /\ bytes data) /\
  (forall b data a, In b blocks -> eng b = Some data -> unpack_array_block cm_codec data = Ok a -> ah_max (ab_hdr a) = 509) /\
  (forall b data a, In b wblocks -> eng b = Some data -> unpack_array_block u64_codec data = Ok a -> ah_max (ab_hdr a) = 509).

Lemma Forall2_in_l {A B} (P : A -> B -> Prop) l m x : Forall2 P l m -> In x l -> exists y, In y m /\ P x y.
Proof. intros HF. induction HF as [|a b l m Hab HF IH]; intros []; [subst; exists b; split; auto; left; auto|destruct (IH H) as (y & ? & ?); exists y; split; auto; right; auto]. Qed.
Lemma in_lr {A} (x : A) a b : In x a \/ In x b -> In x (a ++ b). Proof. apply in_or_app. Qed.
(** Arrays that have been built one after the other meet them. *)
Theorem C34_device_met : forall n max w maps0 nr_maps bits nr_words w1 w2 sb root,
  usable n max w -> 0 < sm_counts (wb_sm w) 0 -> nr_maps < 2 ^ 32 -> nr_words <= 2 ^ 26 ->
  Forall (fun kv => cm_range (snd kv)) maps0 -> Forall (fun kv => snd kv < 2 ^ 64) bits ->
  array_build cm_codec (mkcm 0 0) nr_maps maps0 w = (w1, Ok (cs_mapping_root sb)) ->
  array_build u64_codec 0 nr_words bits w1 = (w2, Ok root) ->
  exists depth wdepth blocks foot wblocks wfoot, v2_hyps (fun b => Some (flushed w2 b)) (flushed w2) n sb root depth wdepth blocks foot wblocks wfoot.
Proof.
  intros n max w maps0 nr_maps bits nr_words w1 w2 sb root Hu H0 Hnm Hnw Hr1 Hr2 E1 E2.
  pose proof (proj1 (usable_env n max w) Hu) as [Hn64 He].
  pose proof (array_build_wp n max Hn64 cm_codec cm_range (mkcm 0 0) cm_lossless ltac:(cbn; lia) ltac:(split; cbn; lia) nr_maps maps0 w ltac:(change (array_per cm_codec) with 509; lia) He Hr1) as G. unfold wp in G. rewrite E1 in G.
  destruct G as (bl0 & fo0 & G & _). pose proof (gr_env _ _ _ _ _ G) as He1. assert (Hu1 : usable n max w1) by (apply usable_env; auto). clear G.
  assert (Hcr : cm_range (mkcm 0 0)) by (split; cbn; lia).
  pose proof (C41_array_build _ cm_codec cm_range (mkcm 0 0) n max w nr_maps maps0 w1 _ cm_lossless ltac:(cbn; lia) Hcr Hu ltac:(lia) Hr1 E1) as (_ & _ & _ & blocks & foot & A1 & A2 & A3 & A4 & A5).
  pose proof (C41_array_build _ u64_codec (fun v => v < 2 ^ 64) 0 n max w1 nr_words bits w2 _ u64_lossless ltac:(cbn; lia) ltac:(reflexivity) Hu1 ltac:(lia) Hr2 E2) as (_ & _ & _ & wblocks & wfoot & B1 & B2 & B3 & B4 & B5).
  assert (Ac : forall b, In b (blocks ++ foot) -> 0 < sm_counts (wb_sm w1) b). { intros b Hb. rewrite A4. destruct (in_dec N.eq_dec b (blocks ++ foot)); [lia|contradiction]. }
  assert (A1' : array_at cm_codec (flushed w2) (cs_mapping_root sb) (contents (mkcm 0 0) nr_maps maps0) foot blocks).
  { eapply array_frame; [|exact A1]. intros b Hb. apply B5, Ac, Hb. }
  destruct A1' as (dp & vss & T1 & F1 & _). destruct B1 as (wdp & wvss & T2 & F2 & _).
  exists (N.of_nat dp), (N.of_nat wdp), blocks, foot, wblocks, wfoot. unfold v2_hyps. rewrite !Nat2N.id.
  apply NoDup_app_iff_local in A2 as (N1 & N2 & _). apply NoDup_app_iff_local in B2 as (N3 & N4 & _).
  assert (H01 : 0 < sm_counts (wb_sm w1) 0) by (rewrite A4; lia).
  conj; auto.
  - intros Hb. destruct (A3 0 (in_lr _ _ _ (or_intror Hb))). lia.
  - intros Hb. destruct (B3 0 (in_lr _ _ _ (or_intror Hb))). lia.
  - intros b H. pose proof (Ac b (in_lr _ _ _ (or_intror H))). split; intros Hb; [destruct (B3 b (in_lr _ _ _ (or_intror Hb)))|destruct (B3 b (in_lr _ _ _ (or_introl Hb)))]; lia.
  - intros b H. split; auto. apply in_app_or in H as [H|H]; [apply (A3 b)|apply (B3 b)]; apply in_or_app; auto.
  - intros b data H Hd. injection Hd as <-. split; [apply in_app_or in H as [H|H]; [apply (A3 b)|apply (B3 b)]; apply in_or_app; auto|].
    apply in_app_or in H as [H|H]; [destruct (Forall2_in_l _ _ _ b F1 H) as (vs & _ & Hb)|destruct (Forall2_in_l _ _ _ b F2 H) as (vs & _ & Hb)]; apply Hb.
  - intros b data a Hb Ed Ea. injection Ed as <-. destruct (Forall2_in_l _ _ _ b F1 Hb) as (vs & _ & _ & _ & _ & Hu2). rewrite Hu2 in Ea. injection Ea as <-. reflexivity.
  - intros b data a Hb Ed Ea. injection Ed as <-. destruct (Forall2_in_l _ _ _ b F2 Hb) as (vs & _ & _ & _ & _ & Hu2). rewrite Hu2 in Ea. injection Ea as <-. reflexivity.
Qed.
Example C34_device_met_example : usable 16 255 ex_w1 /\ 0 < sm_counts (wb_sm ex_w1) 0 /\ snd ex_b1 = Ok 2 /\ snd (ex_b2 5) = Ok 4.
Proof. split; [apply ex_w1_usable|]. split; [cbn; lia|]. split; vm_compute; reflexivity. Qed.

(** ** Runs *)
Notation ex_table ms := (array_build cm_codec (mkcm 0 0) 3 ms ex_w1).
Notation ex_cdisk ms bits := (flushed (fst (array_build u64_codec 0 1 [(0, bits)] (fst (ex_table ms))))).
Definition ex_c (version mroot droot : N) (clean : bool) (dbs dnr bs : N) : cache_sb :=
  mkcsb clean false 0 version [115; 109; 113] [2; 0; 0] 4 (repeat 1 128) mroot (Some droot) 0 0 dbs dnr bs 3 0 0 0 0 0 0 0.
Definition ex_errs (r : res (wsm * list aerr)) : res (list aerr) := match r with Ok (_, es) => Ok es | Err => Err | Panic => Panic end.
Definition ex_check (d : disk) (sb : cache_sb) : res (list aerr) := ex_errs (check_mappings (fun b => Some (d b)) 16 true sb).
Notation ex_m v f := (mkcm v f).
Example C34_example :
  let ok := [(0, ex_m 7 1); (2, ex_m 9 1)] in
  (* an origin of 11 blocks, then one of 9: origin block 9 is outside *)
  ex_check (ex_cdisk ok 5) (ex_c 2 2 4 true 64 22 128) = Ok [] /\
  ex_check (ex_cdisk ok 5) (ex_c 2 2 4 true 64 18 128) = Ok [ARefused 0 1] /\
  ex_check (ex_cdisk ok 7) (ex_c 2 2 4 true 64 22 128) = Ok [ARefused 0 1] /\
  ex_check (ex_cdisk [(0, ex_m 7 1); (2, ex_m 7 1)] 0) (ex_c 2 2 4 false 0 0 128) = Ok [ARefused 0 1] /\
  ex_check (ex_cdisk [(0, ex_m 7 3)] 0) (ex_c 2 2 4 false 0 0 128) = Ok [ARefused 0 1] /\
  ex_check (ex_cdisk [(0, ex_m 7 3)] 0) (ex_c 1 2 4 false 0 0 128) = Ok [].
Proof. vm_compute. conj; reflexivity. Qed.

(** ** Where it falls short *)
(** The walkers share the space map of the whole check, and what it has counted already is not
    looked at again: a mapping root that is the dirty bitset's root, or the superblock, is
    accepted without a look at what it points to. *)
Theorem C34_shared_root_refuted :
  (* block 3, read as mappings, is the entry with flags 5 *)
  ex_check (ex_cdisk [] 5) (ex_c 2 4 4 false 0 0 128) = Ok [] /\
  ex_check (ex_cdisk [] 5) (ex_c 1 4 4 false 0 0 128) = Ok [ARefused 0 3] /\
  ex_check (ex_cdisk [] 5) (ex_c 1 0 4 false 0 0 128) = Ok [] /\ ex_check (ex_cdisk [] 5) (ex_c 1 7 4 false 0 0 128) <> Ok [].
Proof. vm_compute. conj; try reflexivity. discriminate. Qed.
(** A superblock with discards and a data block size of 0: the check panics, on any device. *)
Theorem C34_zero_block_size_panics_refuted : forall eng nr inf sb,
  cs_clean_shutdown sb = true -> 0 < cs_discard_block_size sb -> 0 < cs_discard_nr_blocks sb -> cs_data_block_size sb = 0 ->
  check_mappings eng nr inf sb = Panic.
Proof.
  intros eng nr inf sb H1 H2 H3 H4. unfold check_mappings, nr_origin_blocks. rewrite H1, H4. rewrite (proj2 (N.ltb_lt _ _) H2), (proj2 (N.ltb_lt _ _) H3). reflexivity.
Qed.
(** The limit is of no use when the product of the discard fields does not fit into 64 bits:
    an origin of 2^60 + 1 discard blocks of 16 sectors counts as one of 16 sectors. *)
Theorem C34_origin_size_wraps_refuted :
  nr_origin_blocks (ex_c 2 2 4 true 16 (2 ^ 60 + 1) 8) = Ok (Some 2).
Proof. vm_compute. reflexivity. Qed.

Print Assumptions C34_version1.
Print Assumptions C34_version2.
Print Assumptions C34_device_met.
