(** C41, C42: arrays and bitsets. *)
From Coq Require Import Permutation.
From Verif Require Import Base Csum_Model Codec_Model Codec_Spec Codec_Proofs SpaceMap_Model SpaceMap_Spec SpaceMap_Proofs Utils_Model Utils_Proofs
  IoMany_Proofs Batcher_Model Batcher_Proofs Builder_Model Builder_Spec Builder_Proofs BtreeBuild_Proofs BtreeRead_Proofs Walker_Model Walker_Spec Props_Btree
  Array_Model Array_Spec Array_Proofs ArrayWalk_Proofs.

Lemma flushed_array {V} (c : codec V) n max w root vs foot blocks : env n max w ->
  array_at c (wb_view w) root vs foot blocks -> array_at c (flushed w) root vs foot blocks.
Proof.
  intros He (depth & vss & A & B & C & D). exists depth, vss. conj; auto.
  - eapply flushed_tree; eauto.
  - eapply Forall2_impl_in; [|exact B]. intros b v _ H. eapply array_block_ext; [|exact H]. eapply flushed_view; eauto.
Qed.

(** C41.  Building an array of [nr] entries from any list of pushes, for any value type of
    1 to 4072 bytes.  Success: the indexes were increasing and below [nr]; once flushed the
    device holds an array whose entries are exactly the pushed values, and the default
    where nothing was pushed; all its blocks were free before and are counted once, and
    blocks in use are untouched.  Failure: the indexes were not increasing, or one was out
    of range, or the device is exhausted. *)
Theorem C41_array_build : forall V (c : codec V) (rg : V -> Prop) dflt n max w nr kvs w' out,
  lossless c rg -> (0 < csize c <= 4072)%nat -> rg dflt -> usable n max w -> nr + 4072 <= 2 ^ 64 ->
  Forall (fun kv => rg (snd kv)) kvs ->
  array_build c dflt nr kvs w = (w', out) ->
  match out with
  | Ok root =>
      increasing (map fst kvs) /\ Forall (fun kv => fst kv < nr) kvs /\ root < n /\
      exists blocks foot,
        array_at c (flushed w') root (contents dflt nr kvs) foot blocks /\
        NoDup (blocks ++ foot) /\ (forall b, In b (blocks ++ foot) -> b < n /\ sm_counts (wb_sm w) b = 0) /\
        (forall b, sm_counts (wb_sm w') b = sm_counts (wb_sm w) b + (if in_dec N.eq_dec b (blocks ++ foot) then 1 else 0)) /\
        (forall b, 0 < sm_counts (wb_sm w) b -> flushed w' b = flushed w b)
  | Err => ~ increasing (map fst kvs) \/ (exists kv, In kv kvs /\ nr <= fst kv) \/ exhausted n max w'
  | Panic => False
  end.
Proof.
  intros V c rg dflt n max w nr kvs w' out L Hcs Hd Hu Hnr Hr E. apply usable_env in Hu as [Hn He].
  assert (Hper : array_per c <= 4072). { unfold array_per. apply N.div_le_upper_bound; lia. }
  pose proof (array_build_wp n max Hn c rg dflt L Hcs Hd nr kvs w ltac:(lia) He Hr) as H. unfold wp in H. rewrite E in H.
  destruct out as [root| |]; auto; [|tauto].
  destruct H as (blocks & foot & G & Hroot & Ha & Hi & Hk). conj; auto. exists blocks, foot. pose proof (gr_env _ _ _ _ _ G) as He'. conj.
  - eapply flushed_array; eauto.
  - apply G.
  - intros b Hb. destruct (gr_free _ _ _ _ _ G b Hb). auto.
  - intros b. change (cnt w' b = cnt w b + (if in_dec N.eq_dec b (blocks ++ foot) then 1 else 0)). rewrite (gr_cnt _ _ _ _ _ G).
    f_equal. destruct (in_dec N.eq_dec b (blocks ++ foot)) as [Hb|Hb]; [|apply occ_not_in; auto].
    pose proof (gr_nodup _ _ _ _ _ G) as Hnd. apply occ_in in Hb. clear - Hnd Hb. induction Hnd as [|x l Hx Hnd IH]; cbn [occ] in *; [lia|].
    destruct (N.eqb_spec b x) as [->|]; [rewrite (occ_not_in x l) by auto; lia|]. rewrite N.add_0_l in *. auto.
  - intros b Hb. rewrite (flushed_view n max w'), (flushed_view n max w) by auto. apply (gr_frame _ _ _ _ _ G). auto.
Qed.

(** What such an array is to a reader: the value of every entry can be found in the block
    that the index names, at its place. *)
Theorem C41_array_entry : forall V (c : codec V) d root vs foot blocks dflt i,
  (0 < csize c <= 4072)%nat -> array_at c d root vs foot blocks -> i < nlen vs ->
  let per := (4096 - 24) / N.of_nat (csize c) in
  exists b a, nth_error blocks (N.to_nat (i / per)) = Some b /\ unpack_array_block c (d b) = Ok a /\
    metadata_block_type (d b) = ARRAY /\ nth_error (ab_values a) (N.to_nat (i mod per)) = Some (nth (N.to_nat i) vs dflt) /\
    (i / per + 1 < nlen blocks -> nlen (ab_values a) = per).
Proof.
  intros V c d root vs foot blocks dflt i Hcs (depth & vss & _ & HF & <- & Hlen) Hi per.
  assert (Hper : 0 < per). { apply (array_per_pos c Hcs). }
  pose proof (Forall2_length _ _ _ HF) as HLb. change ((4096 - 24) / N.of_nat (csize c)) with per in Hlen.
  (* block j starts at j * per *)
  assert (Hst : forall k, (k <= length vss)%nat -> nlen (concat (firstn k vss)) = N.min (nlen (concat vss)) (N.of_nat k * per)).
  { induction k as [|k IH]; intros Hk; [cbn; lia|]. destruct (Hlen k ltac:(lia)) as [H1 H2].
    assert (E : firstn (S k) vss = firstn k vss ++ [nth k vss []]).
    { clear - Hk. revert vss Hk. induction k as [|k IH]; intros [|x l] Hk; cbn [length] in Hk; try lia; [reflexivity|].
      cbn [firstn nth app]. f_equal. apply IH. lia. }
    rewrite E, concat_app. cbn [concat]. rewrite app_nil_r. unfold nlen at 1. rewrite app_length, Nat2N.inj_add.
    fold (nlen (concat (firstn k vss))) (nlen (nth k vss [])). rewrite IH, H1 by lia. lia. }
  assert (Hj : (N.to_nat (i / per) < length vss)%nat).
  { destruct (Nat.lt_ge_cases (N.to_nat (i / per)) (length vss)); auto. exfalso.
    pose proof (Hst (length vss) ltac:(lia)) as Hall. rewrite firstn_all in Hall.
    pose proof (N.mul_div_le i per ltac:(lia)). nia. }
  set (j := N.to_nat (i / per)) in *.
  assert (Hji : N.of_nat j = i / per) by (unfold j; lia). clearbody j.
  destruct (nth_error blocks j) as [b|] eqn:Eb. 2:{ apply nth_error_None in Eb. lia. }
  assert (Hab : array_block_at c d b (nth j vss [])).
  { clear - HF Eb Hj. revert j Eb Hj. induction HF as [|b' v bs vs H HF IH]; intros j Eb Hj; [cbn in Hj; lia|].
    destruct j as [|j]; cbn [nth_error nth] in *; [injection Eb as <-; auto|]. apply IH; auto. cbn in Hj. lia. }
  destruct Hab as (_ & _ & Hty & Hun). eexists b, _. split; [auto|]. split; [exact Hun|]. split; [auto|]. cbn [ab_values].
  destruct (Hlen j Hj) as [H1 _].
  pose proof (N.div_mod i per ltac:(lia)) as Hdm. pose proof (N.mod_lt i per ltac:(lia)) as Hml.
  split.
  - assert (Hin : i mod per < nlen (nth j vss [])). { rewrite H1, Hji. nia. }
    assert (E : concat vss = concat (firstn j vss) ++ nth j vss [] ++ concat (skipn (S j) vss)).
    { clear - Hj. revert vss Hj. induction j as [|j IH]; intros [|x l] Hj; cbn [length] in Hj; try lia; [reflexivity|].
      cbn [firstn skipn nth concat]. rewrite <- app_assoc. f_equal. apply IH. lia. }
    pose proof (Hst j ltac:(lia)) as Hs. assert (Hs' : nlen (concat (firstn j vss)) = i / per * per) by (rewrite Hs, Hji; nia).
    rewrite (nth_error_nth' _ dflt) by (unfold nlen in *; lia). f_equal. rewrite E at 1.
    rewrite app_nth2 by (unfold nlen in *; nia). rewrite app_nth1.
    2:{ unfold nlen in *. nia. }
    f_equal. unfold nlen in *. nia.
  - intros Hlast. rewrite H1, Hji.
    destruct (Hlen (S j)) as [H2 H3]. { unfold nlen in *. lia. }
    assert (nlen (nth (S j) vss []) <> 0) by (destruct (nth (S j) vss []); [congruence|unfold nlen; cbn; lia]).
    rewrite Nat2N.inj_succ, Hji in H2. nia.
Qed.

(** C42.  Reading a bitset with a tolerant reader, on an intact index but array blocks in
    any condition: every bit is what the array holds for it; bits whose block is damaged,
    or that no word covers, are unknown; nothing is known beyond [nr_bits]; and the errors
    name exactly the blocks that are damaged or lie beyond the end. *)
Theorem C42_read_bitset_checked : forall eng d inf nr root nr_bits depth blocks foot,
  tree u64_codec d true depth root (combine (range 0 (nlen blocks)) blocks) foot -> NoDup foot ->
  (forall b, In b foot -> b < nr /\ eng b = Some (d b)) -> nr < 2 ^ 64 -> nlen blocks * 509 * 64 < 2 ^ 64 ->
  (forall b data a, In b blocks -> eng b = Some data -> unpack_array_block u64_codec data = Ok a -> ah_max (ab_hdr a) = 509) ->
  let '(f, es) := read_bitset_checked eng nr root nr_bits inf in
  (forall x, f x = if x <? nr_bits then stored_bit eng blocks x else None) /\
  es = flat_map (block_errors eng nr_bits) (combine (range 0 (nlen blocks)) blocks).
Proof.
  intros eng d inf nr root nr_bits depth blocks foot HT HN Hf Hnr Hb Hs. unfold read_bitset_checked.
  rewrite (array_walk_index u64_codec inf eng (bv_visit nr_bits) nr d depth root blocks foot (fun _ => None) HT HN Hnr ltac:(lia) Hf).
  pose proof (checked_blocks eng nr_bits blocks 0 (fun _ => None)) as H. rewrite N.add_0_l in H.
  assert (HS : Forall (std_block eng) blocks). { apply Forall_forall. intros b Hin data a. apply Hs. auto. }
  specialize (H HS Hb). destruct (visit_array_blocks _ _ _ _ _) as [f es]. destruct H as [-> H]. split; auto.
  intros x. rewrite H. rewrite !N.mul_0_l, N.sub_0_r. destruct (N.leb_spec 0 x); [|lia]. cbn [andb].
  destruct (x <? nr_bits); auto. destruct (stored_bit eng blocks x); auto.
Qed.

(** Reading an intact bitset with the strict reader: bit [i] is bit [i mod 64] of word [i / 64]
    (words that are missing at the end count as zero). *)
Theorem C42_read_bitset : forall eng d inf nr root nr_bits ws blocks foot,
  array_at u64_codec d root ws foot blocks -> NoDup foot -> (forall b, In b (blocks ++ foot) -> b < nr /\ eng b = Some (d b)) ->
  nr < 2 ^ 64 -> nr_bits + 65536 <= 2 ^ 64 -> Forall (fun w => w < 2 ^ 64) ws -> nlen ws <= div_up nr_bits 64 ->
  exists bs, read_bitset eng nr root nr_bits inf = Ok bs /\
    forall i, fbs_contains nr_bits bs i = (i <? nr_bits) && N.testbit (nth (N.to_nat (i / 64)) ws 0) (i mod 64).
Proof.
  intros eng d inf nr root nr_bits ws blocks foot (depth & vss & HT & HF & <- & Hlen) HN Hf Hnr Hb HW Hl.
  pose proof (Forall2_length _ _ _ HF) as HLb.
  change ((4096 - 24) / N.of_nat (csize u64_codec)) with 509 in Hlen.
  assert (Hfull : forall j, (S j < length vss)%nat -> nlen (nth j vss []) = 509).
  { intros j Hj. destruct (Hlen j ltac:(lia)) as [H1 _]. destruct (Hlen (S j) Hj) as [H2 H3].
    assert (nlen (nth (S j) vss []) <> 0) by (destruct (nth (S j) vss []); [congruence|unfold nlen; cbn; lia]). lia. }
  assert (Htot : (nlen blocks - 1) * 509 <= nlen (concat vss)).
  { destruct (length vss) as [|k] eqn:Ek; [unfold nlen; lia|]. destruct (Hlen k ltac:(lia)) as [H1 H3].
    assert (nlen (nth k vss []) <> 0) by (destruct (nth k vss []); [congruence|unfold nlen; cbn; lia]). unfold nlen at 1. lia. }
  assert (Hd32 : div_up nr_bits 64 * 2 <= div_up nr_bits 32 + 1 /\ div_up nr_bits 64 * 64 < nr_bits + 64) by (unfold div_up; split; dlia).
  unfold read_bitset.
  rewrite (array_walk_index u64_codec inf eng (bc_visit nr_bits) nr d depth root blocks foot _ HT HN Hnr ltac:(lia)).
  2:{ intros b Hin. apply Hf. apply in_or_app. auto. }
  destruct (collect_blocks eng d nr_bits blocks vss 0 (repeat 0 (N.to_nat (div_up nr_bits 32))) HF) as (bs & E & Lb & Nb).
  - intros b Hin. apply Hf. apply in_or_app. auto.
  - unfold nlen. rewrite repeat_length. lia.
  - lia.
  - auto.
  - unfold nlen at 2. rewrite repeat_length. lia.
  - rewrite N.add_0_l in E. rewrite E. exists bs. split; auto. intros i. unfold fbs_contains.
    destruct (N.ltb_spec i nr_bits) as [Hi|Hi]; cbn [andb]; auto.
    change (N.testbit (nth (N.to_nat (i / 64)) (concat vss) 0) (i mod 64)) with (bit_of (concat vss) i).
    rewrite <- (half_bit (concat vss) i HW). f_equal. rewrite Nb, N2Nat.id. rewrite N.mul_0_l, N.add_0_l, N.sub_0_r.
    unfold nlen at 2. rewrite repeat_length, N2Nat.id.
    assert (i / 32 < div_up nr_bits 32) by (unfold div_up; dlia).
    destruct (N.leb_spec 0 (i / 32)); [|lia]. destruct (N.ltb_spec (i / 32) (div_up nr_bits 32)); [|lia]. cbn [andb]. rewrite Bool.andb_true_r.
    destruct (N.ltb_spec (i / 32) (2 * nlen (concat vss))); auto. rewrite half_beyond by auto.
    clear. generalize (N.to_nat (i / 32)) (N.to_nat (div_up nr_bits 32)). intros a b. revert a. induction b; intros [|a]; cbn; auto.
Qed.

(** ** Concrete cases *)
(** 600 words over two array blocks, bits pushed at 3 words. *)
Definition ex_bits : list (N * N) := [(0, 5); (508, 1); (509, 2 ^ 63)].
Definition reader (w : wb) (b : N) : option (list N) := Some (flushed w b).
Example C41_example :
  match array_build u64_codec 0 600 ex_bits ex_w with
  | (w', Ok root) =>
      (root, match unpack_array_block u64_codec (flushed w' 1) with Ok a => (ab_hdr a, nth 0 (ab_values a) 7, nth 1 (ab_values a) 7) | _ => (mkah 0 0 0 0, 0, 0) end)
      = (2, (mkah 509 91 8 1, 2 ^ 63, 0))
  | _ => False
  end /\
  snd (array_build u64_codec 0 600 [(3, 1); (3, 2)] ex_w) = Err /\
  snd (array_build u64_codec 0 600 [(600, 1)] ex_w) = Err.
Proof. conj; vm_compute; reflexivity. Qed.
Example C41_hyps : lossless u64_codec (fun v => v < 2 ^ 64) /\ (0 < csize u64_codec <= 4072)%nat /\ usable 16 255 ex_w /\
  Forall (fun kv : N * N => snd kv < 2 ^ 64) ex_bits.
Proof. split; [apply u64_lossless|]. split; [cbn; lia|]. split; [apply ex_w_usable|]. repeat constructor. Qed.
Example C42_example :
  match array_build u64_codec 0 600 ex_bits ex_w with
  | (w', Ok root) =>
      (match read_bitset (reader w') 16 root 38400 false with Ok bs => fbs_ones bs | _ => [] end,
       let '(f, es) := read_bitset_checked (fun b => if b =? 0 then None else reader w' b) 16 root 38000 false in
       (f 0, f 32575, f 32576, f 32639, f 37999, f 38000, es))
      = ([0; 2; 32512; 32639], (None, None, Some false, Some true, Some false, None, [AIo 0 0]))
  | _ => False
  end.
Proof. vm_compute. reflexivity. Qed.

(** ** Where the readers fall short *)
(** The strict reader does not mask the last word: stray bits beyond [nr_bits] show up
    among the bits that are set. *)
Theorem C42_stray_bits_refuted :
  match array_build u64_codec 0 1 [(0, 11)] ex_w with
  | (w', Ok root) => match read_bitset (reader w') 16 root 2 false with Ok bs => fbs_ones bs = [0; 1; 3] | _ => False end
  | _ => False
  end.
Proof. vm_compute. reflexivity. Qed.
(** Nor does it notice that the array is too short: with one array block of two, the other
    bits read as clear and no error is reported (the tolerant reader says "unknown"). *)
Theorem C42_short_array_unreported_refuted :
  match array_build u64_codec 0 509 [] ex_w with
  | (w', Ok root) =>
      match read_bitset (reader w') 16 root 40000 false with Ok bs => fbs_contains 40000 bs 39999 = false | _ => False end /\
      fst (read_bitset_checked (reader w') 16 root 40000 false) 39999 = None /\
      snd (read_bitset_checked (reader w') 16 root 40000 false) = []
  | _ => False
  end.
Proof. vm_compute. auto. Qed.
(** The reader's check of the header of an array block wraps: a block that claims room for
    2^29 words of 8 bytes passes. *)
Theorem C42_header_check_wraps_refuted :
  let blk := ah_pack (mkah (2 ^ 29) 2 8 0) ++ le_enc 8 7 ++ le_enc 8 9 in
  unpack_array_block u64_codec blk = Ok (mkab (mkah (2 ^ 29) 2 8 0) [7; 9]).
Proof. vm_compute. reflexivity. Qed.
(** The block number in an array block is not compared with where it was read from. *)
Theorem C42_misplaced_block_accepted_refuted :
  match array_build u64_codec 0 600 ex_bits ex_w with
  | (w', Ok root) =>
      let eng b := Some (flushed w' (if b =? 0 then 1 else b)) in
      match read_bitset eng 16 root 38400 false with Ok bs => fbs_ones bs = [63; 32639] | _ => False end
  | _ => False
  end.
Proof. vm_compute. reflexivity. Qed.

Print Assumptions C41_array_build.
Print Assumptions C41_array_entry.
Print Assumptions C42_read_bitset_checked.
Print Assumptions C42_read_bitset.
