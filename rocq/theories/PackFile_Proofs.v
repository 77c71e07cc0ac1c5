(** Proofs about packing and unpacking a whole device. *)
From Coq Require Import Permutation.
From Verif Require Import Base Csum_Model Codec_Model Codec_Spec Codec_Proofs NodeCodec_Proofs SbCodec_Proofs
  Pack_Model Pack_Proofs PackFile_Model.

(** ** Chunks *)
Lemma chunk_size_pos nb nj : 128 <= chunk_size nb nj <= 4096.
Proof. unfold chunk_size. lia. Qed.

Lemma chunks_cover cs n : ranges_blocks (map (fun i => (i * cs, (i + 1) * cs)) (range 0 n)) = range 0 (n * cs).
Proof.
  induction n as [|n IH] using N.peano_ind; [reflexivity|].
  rewrite (range_app 0 n (N.succ n)) by lia.
  assert (range n (N.succ n) = [n]) as ->.
  { rewrite range_cons by lia. rewrite range_nil by lia. auto. }
  unfold ranges_blocks in *. rewrite map_app, flat_map_app, IH.
  cbn [map flat_map fst snd]. rewrite app_nil_r.
  rewrite (range_app 0 (n * cs) (N.succ n * cs)) by lia.
  do 2 f_equal; lia.
Qed.

Lemma mk_chunks_cover nb nj : ranges_blocks (mk_chunks nb nj) = range 0 nb.
Proof.
  unfold mk_chunks. pose proof (chunk_size_pos nb nj) as Hc.
  set (cs := chunk_size nb nj) in *. unfold nr_chunks. fold cs.
  unfold ranges_blocks. rewrite flat_map_app. fold (ranges_blocks (map (fun i => (i * cs, (i + 1) * cs)) (range 0 (nb / cs)))).
  rewrite chunks_cover.
  pose proof (N.mul_div_le nb cs ltac:(lia)) as Hd. rewrite (N.mul_comm cs) in Hd.
  destruct (N.ltb_spec (nb / cs * cs) nb); cbn [flat_map fst snd app].
  - rewrite app_nil_r. symmetry. apply range_app; [apply N.le_0_l | exact Hd].
  - rewrite app_nil_r. f_equal. apply N.le_antisymm; auto.
Qed.

Lemma mk_chunks_length nb nj :
  nlen (mk_chunks nb nj) = nr_chunks nb nj + (if nb mod chunk_size nb nj =? 0 then 0 else 1).
Proof.
  unfold mk_chunks, nlen, nr_chunks. pose proof (chunk_size_pos nb nj) as Hc.
  set (cs := chunk_size nb nj) in *.
  rewrite app_length, map_length, range_length.
  pose proof (N.div_mod nb cs ltac:(lia)) as Hdm. rewrite (N.mul_comm cs) in Hdm.
  generalize dependent (nb mod cs). intros m Hdm. generalize dependent (nb / cs). intros q Hdm.
  generalize dependent (q * cs). intros qc Hdm.
  destruct (N.ltb_spec qc nb); destruct (N.eqb_spec m 0); cbn [length]; lia.
Qed.

(** ** Dealing *)
Lemma flat_map_ext_in {A B} (f g : A -> list B) l : (forall a, In a l -> f a = g a) -> flat_map f l = flat_map g l.
Proof. induction l; cbn; intros H; auto. rewrite H, IHl; auto. Qed.

Lemma filter_partition {A} (f : A -> N) n l : (forall a, In a l -> f a < n) ->
  Permutation (flat_map (fun j => filter (fun a => f a =? j) l) (range 0 n)) l.
Proof.
  induction l as [|a l IH]; intros H.
  - cbn [filter]. induction (range 0 n); cbn; auto.
  - assert (f a < n) as Ha by (apply H; left; auto).
    rewrite (range_app 0 (f a) n), (range_cons (f a) n) by lia.
    rewrite flat_map_app. cbn [flat_map filter]. rewrite N.eqb_refl.
    rewrite (flat_map_ext_in _ (fun j => filter (fun a => f a =? j) l) (range 0 (f a))).
    2:{ intros j Hj. apply in_range in Hj. cbn [filter]. destruct (N.eqb_spec (f a) j); [lia|auto]. }
    rewrite (flat_map_ext_in _ (fun j => filter (fun a => f a =? j) l) (range (f a + 1) n)).
    2:{ intros j Hj. apply in_range in Hj. cbn [filter]. destruct (N.eqb_spec (f a) j); [lia|auto]. }
    cbn [app]. rewrite <- Permutation_middle. apply perm_skip.
    rewrite <- IH at 2 by (intros; apply H; right; auto).
    rewrite (range_app 0 (f a) n), (range_cons (f a) n) by lia.
    rewrite flat_map_app. cbn [flat_map]. reflexivity.
Qed.

Lemma map_flat_map {A B C} (g : B -> C) (f : A -> list B) l :
  map g (flat_map f l) = flat_map (fun a => map g (f a)) l.
Proof. induction l; cbn; auto. rewrite map_app, IHl. auto. Qed.

Lemma combine_snd (l : list N) (chunks : list urange) : length l = length chunks ->
  map snd (List.combine l chunks) = chunks.
Proof.
  revert chunks; induction l; intros [|c cs] H; cbn in *; try discriminate; auto.
  f_equal. auto.
Qed.

Lemma deal_perm nj nc chunks : 0 < nj -> nlen chunks = nc -> Permutation (concat (deal nj nc chunks)) chunks.
Proof.
  intros Hj Hl. unfold deal. rewrite <- flat_map_concat_map.
  rewrite <- map_flat_map.
  rewrite (filter_partition (fun p => fst p mod nj)).
  - rewrite combine_snd; auto. rewrite range_length. unfold nlen in Hl. lia.
  - intros. apply N.mod_lt. lia.
Qed.

Lemma deal_perm_firstn nj nc chunks : 0 < nj -> nc <= nlen chunks ->
  Permutation (concat (deal nj nc chunks)) (firstn (N.to_nat nc) chunks).
Proof.
  intros Hj Hl.
  assert (deal nj nc chunks = deal nj nc (firstn (N.to_nat nc) chunks)) as ->.
  { unfold deal. assert (List.combine (range 0 nc) chunks = List.combine (range 0 nc) (firstn (N.to_nat nc) chunks)) as ->; auto.
    assert (length (range 0 nc) = N.to_nat nc) as E by (rewrite range_length; lia).
    rewrite <- E. generalize (range 0 nc). clear. intros l. revert chunks.
    induction l; intros [|c cs]; cbn; auto. rewrite <- IHl. auto. }
  apply deal_perm; auto. unfold nlen in *. rewrite firstn_length. lia.
Qed.

(** ** Records *)
Section disk.
Variable disk : N -> list N.

Definition known (b : N) : bool := negb (BT_eqb (metadata_block_type (disk b)) UNKNOWN).
Definition enc1 (b : N) : list N :=
  le_enc 8 b ++ match pack_block (metadata_block_type (disk b)) (disk b) with Ok c => c | _ => [] end.
Definition packs (b : N) : Prop := exists c, pack_block (metadata_block_type (disk b)) (disk b) = Ok c.

Lemma crunch_spec bs : forall l0 w recs, (w = 0 <-> l0 = []) ->
  crunch disk bs (flat_map enc1 l0) w = Ok recs ->
  exists ls, recs = map (flat_map enc1) ls /\ concat ls = l0 ++ filter known bs /\
    Forall packs (filter known bs).
Proof.
  induction bs as [|b bs IH]; intros l0 w recs Hw H; cbn [crunch filter] in *.
  - apply Ok_inj in H. subst recs. destruct (N.ltb_spec 0 w).
    + exists [l0]. cbn. repeat split; auto.
    + exists []. assert (l0 = []) as -> by (apply Hw; lia). auto.
  - replace (known b) with (negb (BT_eqb (metadata_block_type (disk b)) UNKNOWN)) by reflexivity. destruct (BT_eqb (metadata_block_type (disk b)) UNKNOWN) eqn:Ek; cbn [negb] in *.
    + eapply IH in H; eauto.
    + inv_bind H.
      assert (flat_map enc1 l0 ++ le_enc 8 b ++ a = flat_map enc1 (l0 ++ [b])) as Ez.
      { rewrite flat_map_app. cbn [flat_map]. rewrite app_nil_r. unfold enc1 at 3. rewrite E. auto. }
      rewrite Ez in H.
      assert (packs b) as Hp by (exists a; auto).
      destruct (N.eqb_spec (w + 1) 1024).
      * inv_bind H. apply Ok_inj in H. subst recs.
        change (@nil N) with (flat_map enc1 []) in E0. apply IH in E0; [|tauto].
        destruct E0 as [ls [-> [Hc Hf]]]. cbn [app] in Hc.
        exists ((l0 ++ [b]) :: ls). cbn [map concat]. rewrite Hc, <- app_assoc. cbn [app]. auto.
      * apply IH in H.
        2:{ split; intros Hx; [lia|]. destruct l0; discriminate. }
        destruct H as [ls [-> [Hc Hf]]]. exists ls. rewrite Hc, <- app_assoc. cbn [app]. auto.
Qed.

Lemma pack_jobs_spec jobs : forall recs, pack_jobs disk jobs = Ok recs ->
  exists ls, concat recs = map (flat_map enc1) ls /\
    concat ls = filter known (ranges_blocks (concat jobs)) /\
    Forall packs (concat ls).
Proof.
  induction jobs as [|j jobs IH]; intros recs H; cbn [pack_jobs] in H.
  - apply Ok_inj in H. subst. exists []. cbn. auto.
  - inv_bind H. inv_bind H. apply Ok_inj in H. subst.
    change (@nil N) with (flat_map enc1 []) in E. apply crunch_spec in E; [|tauto].
    destruct E as [l1 [-> [Hc1 Hf1]]]. apply IH in E0. destruct E0 as [l2 [Hm [Hc2 Hf2]]].
    exists (l1 ++ l2). cbn [concat]. rewrite Hm, map_app, !concat_app, Hc1, Hc2. cbn [app].
    unfold ranges_blocks. rewrite flat_map_app, filter_app. split; auto. split; auto.
    apply Forall_app. split; auto. rewrite Hc2 in Hf2. exact Hf2.
Qed.

(** ** Decoding *)
Definition good_disk (bs : list N) : Prop := forall b, In b bs ->
  b < W64 /\ bytes (disk b) /\ nlen (disk b) = 4096 /\
  (metadata_block_type (disk b) = NODE -> ~ empty_tail (disk b)).

Lemma blk_size : BLOCK_SIZE = N.to_nat 4096.
Proof. reflexivity. Qed.

Lemma decode_enc l : good_disk l -> Forall packs l -> Forall (fun b => known b = true) l ->
  forall f, (length (flat_map enc1 l) < f)%nat ->
  decode_blocks f (flat_map enc1 l) = Ok (map (fun b => (b, disk b)) l).
Proof.
  induction l as [|b l IH]; intros Hg Hp Hk f Hf; (destruct f; [cbn in Hf; lia|]); cbn [decode_blocks flat_map map].
  - reflexivity.
  - inversion Hp as [|? ? [c Hc] Hp']; subst. inversion Hk as [|? ? Hkb Hk']; subst.
    destruct (Hg b) as [Hb [Hby [Hlen Hne]]]; [left; auto|].
    unfold enc1 at 1. rewrite Hc, <- !app_assoc. rewrite p_u64_app by exact Hb.
    destruct (pack_block_spec _ _ _ Hby Hlen Hc) as [[Hn [He _]]|[_ [b' Hr]]].
    { exfalso. apply Hne; auto. }
    assert (BLOCK_SIZE = length (disk b)) as ->. { rewrite blk_size. unfold nlen in Hlen. lia. }
    rewrite (unpack_of_runs _ _ _ _ Hr).
    unfold known in Hkb. apply negb_true_iff in Hkb. rewrite Hkb.
    rewrite IH; auto.
    + intros x Hx. apply Hg. right. auto.
    + cbn [flat_map] in Hf. unfold enc1 in Hf at 1. rewrite !app_length, le_enc_length in Hf. lia.
Qed.
End disk.

Lemma p_u64_nil : p_u64 [] = Err.
Proof. reflexivity. Qed.

Lemma read_frames_app compress zs : (forall z, In z zs -> nlen (compress z) < W64) ->
  forall f, (length (flat_map (frame compress) zs) < f)%nat ->
  read_frames f (flat_map (frame compress) zs) = Ok (map compress zs).
Proof.
  induction zs as [|z zs IH]; intros Hc f Hf; (destruct f; [cbn in Hf; lia|]); cbn [read_frames flat_map map].
  - reflexivity.
  - unfold frame at 1. rewrite <- !app_assoc. rewrite p_u64_app by (apply Hc; left; auto).
    rewrite p_take_app by (unfold nlen; lia). cbn [bind].
    rewrite IH; [reflexivity| |].
    + intros. apply Hc. right. auto.
    + cbn [flat_map] in Hf. unfold frame in Hf at 1. rewrite !app_length, le_enc_length in Hf. lia.
Qed.

Lemma header_rt nb r : nb < W64 -> read_header (write_header nb ++ r) = Ok (nb, r).
Proof.
  intros H. unfold read_header, write_header. rewrite <- !app_assoc.
  rewrite p_u64_app by reflexivity. cbn [bind]. change (negb (MAGIC =? MAGIC)) with false.
  cbv iota. rewrite p_u64_app by reflexivity. cbn [bind].
  change (negb (PACK_VERSION =? PACK_VERSION)) with false. cbv iota.
  rewrite p_u64_app by reflexivity. cbn [bind]. change (negb (4096 =? 4096)) with false. cbv iota.
  apply p_u64_app. exact H.
Qed.

Lemma decode_all_app compress decompress disk : forall ls,
  (forall z, In z (map (flat_map (enc1 disk)) ls) -> decompress (compress z) = z) ->
  good_disk disk (concat ls) -> Forall (packs disk) (concat ls) ->
  Forall (fun b => known disk b = true) (concat ls) ->
  decode_all decompress (map compress (map (flat_map (enc1 disk)) ls)) =
    Ok (map (fun b => (b, disk b)) (concat ls)).
Proof.
  induction ls as [|l ls IH]; intros Hd Hg Hp Hk; cbn [map decode_all concat]; auto.
  cbn [concat] in *. apply Forall_app in Hp, Hk. destruct Hp, Hk.
  rewrite Hd by (left; auto). unfold decode_record. rewrite decode_enc; auto.
  2:{ intros b Hb. apply Hg. apply in_or_app. auto. }
  cbn [bind]. rewrite IH; auto.
  - cbn [bind]. rewrite map_app. auto.
  - intros z Hz. apply Hd. right. auto.
  - intros b Hb. apply Hg. apply in_or_app. auto.
Qed.

(** ** Applying the writes *)
Lemma apply_writes_notin d ws b : ~ In b (map fst ws) -> apply_writes d ws b = d b.
Proof.
  revert d; induction ws as [|w ws IH]; intros d H; cbn [apply_writes fold_left map] in *; auto.
  fold (apply_writes (upd d (fst w) (snd w)) ws). rewrite IH.
  - apply upd_other. intros ->. apply H. left. auto.
  - intros Hi. apply H. right. auto.
Qed.

Lemma apply_writes_in d ws b v : NoDup (map fst ws) -> In (b, v) ws -> apply_writes d ws b = v.
Proof.
  revert d; induction ws as [|w ws IH]; intros d Hn Hi; [destruct Hi|].
  cbn [apply_writes fold_left map] in *. fold (apply_writes (upd d (fst w) (snd w)) ws).
  inversion Hn as [|? ? Hx Hn']; subst. destruct Hi as [->|Hi].
  - rewrite apply_writes_notin by auto. cbn [fst snd]. apply upd_same.
  - apply IH; auto.
Qed.

Lemma ranges_blocks_perm a b : Permutation a b -> Permutation (ranges_blocks a) (ranges_blocks b).
Proof. apply Permutation_flat_map. Qed.

Lemma perm_filter {A} (f : A -> bool) a b : Permutation a b -> Permutation (filter f a) (filter f b).
Proof.
  induction 1; cbn [filter]; auto.
  - destruct (f x); auto.
  - destruct (f x), (f y); auto. apply perm_swap.
  - eapply Permutation_trans; eauto.
Qed.

(** The whole trip, for the blocks [bs] the jobs were given. *)
Lemma file_roundtrip compress decompress disk jobs recs file_recs nb :
  (forall z, decompress (compress z) = z) ->
  (forall z, In z (concat recs) -> nlen (compress z) < W64) -> nb < W64 ->
  pack_jobs disk jobs = Ok recs ->
  Permutation (concat recs) file_recs ->
  good_disk disk (ranges_blocks (concat jobs)) ->
  exists ws, unpack_file decompress (write_header nb ++ flat_map (frame compress) file_recs) = Ok (nb, ws) /\
    Permutation ws (map (fun b => (b, disk b)) (filter (known disk) (ranges_blocks (concat jobs)))).
Proof.
  intros Hdc Hlen Hnb Hp Hperm Hg.
  apply pack_jobs_spec in Hp. destruct Hp as [ls [Hm [Hc Hf]]].
  rewrite Hm in *. apply Permutation_sym in Hperm.
  apply Permutation_map_inv in Hperm. destruct Hperm as [ls2 [-> Hp2]].
  assert (Permutation (concat ls2) (concat ls)) as Hpc.
  { replace (concat ls2) with (flat_map (fun x => x) ls2) by (rewrite flat_map_concat_map, map_id; auto).
    replace (concat ls) with (flat_map (fun x => x) ls) by (rewrite flat_map_concat_map, map_id; auto).
    apply Permutation_flat_map. apply Permutation_sym. auto. }
  exists (map (fun b => (b, disk b)) (concat ls2)). split.
  - unfold unpack_file. rewrite header_rt by auto. cbn [bind].
    rewrite read_frames_app; try lia.
    2:{ intros z Hz. apply Hlen. eapply Permutation_in; [apply Permutation_map, Permutation_sym, Hp2|auto]. }
    cbn [bind]. erewrite decode_all_app.
    + reflexivity.
    + auto.
    + intros b Hb. apply Hg. eapply Permutation_in in Hb; [|exact Hpc]. rewrite Hc in Hb. apply filter_In in Hb. tauto.
    + eapply Permutation_Forall; [apply Permutation_sym, Hpc|]. auto.
    + eapply Permutation_Forall; [apply Permutation_sym, Hpc|]. rewrite Hc.
      apply Forall_forall. intros b Hb. apply filter_In in Hb. tauto.
  - apply Permutation_map. rewrite <- Hc. auto.
Qed.

Lemma unpacked_disk disk bs ws : NoDup bs ->
  Permutation ws (map (fun b => (b, disk b)) (filter (known disk) bs)) ->
  forall b, apply_writes zero_disk ws b =
    if existsb (N.eqb b) bs && known disk b then disk b else repeat 0 BLOCK_SIZE.
Proof.
  intros Hn Hp b.
  assert (Permutation (map fst ws) (filter (known disk) bs)) as Hf.
  { apply (Permutation_map fst) in Hp. rewrite map_map in Hp. cbn [fst] in Hp. rewrite map_id in Hp. auto. }
  destruct (existsb (N.eqb b) bs && known disk b) eqn:E.
  - apply andb_true_iff in E. destruct E as [E1 E2]. apply existsb_exists in E1.
    destruct E1 as [x [Hx He]]. apply N.eqb_eq in He. subst x.
    apply apply_writes_in.
    + eapply Permutation_NoDup; [apply Permutation_sym, Hf|]. apply NoDup_filter. auto.
    + eapply Permutation_in; [apply Permutation_sym, Hp|].
      apply in_map_iff. exists b. split; auto. apply filter_In. auto.
  - apply apply_writes_notin. intros Hi. eapply Permutation_in in Hi; [|exact Hf].
    apply filter_In in Hi. destruct Hi as [Hi Hk]. rewrite Hk, andb_true_r in E.
    assert (existsb (N.eqb b) bs = true) as E'; [|congruence].
    apply existsb_exists. exists b. split; auto. apply N.eqb_refl.
Qed.
