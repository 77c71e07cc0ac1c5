(** C07, C08, C49: delta compression, metadata pack/unpack, node paths. *)
From Coq Require Import Permutation.
From Verif Require Import Base Csum_Model Codec_Model Codec_Spec SbCodec_Proofs Pack_Model Pack_Spec Pack_Proofs PackFile_Model
  PackFile_Proofs PackPath_Proofs.

(** C07: from_delta (to_delta ns) = ns for every sequence of 64-bit words. *)
Theorem C07_delta_lossless : forall ns, all_u64 ns -> from_delta (to_delta ns) = ns.
Proof. intros ns H. exact (proj1 (to_delta_spec ns H)). Qed.

(** C07: executing the code of pack_u64s, from any VM state and with anything
    following it in the stream, emits exactly the words' bytes and reads exactly
    the code. *)
Theorem C07_pack_u64s_exec : forall ns base code rest, all_u64 ns ->
  pack_u64s ns = Ok code ->
  exists base', vm_exec (vm_fuel (code ++ rest)) base (8 * length ns) [] (code ++ rest)
                = Ok (base', le_words ns, rest).
Proof. exact u64s_exec. Qed.

(** Packing does not fail for up to 4096 words (a metadata block has at most 512). *)
Theorem C07_pack_u64s_total : forall ns, all_u64 ns -> nlen ns <= 4096 ->
  exists code, pack_u64s ns = Ok code.
Proof. exact pack_u64s_total. Qed.

Theorem C07_pack_shifted_exec : forall ns base code rest, all_u64 ns -> ns <> [] ->
  pack_shifted_u64s ns = Ok code ->
  exists base', vm_exec (vm_fuel (code ++ rest)) base (8 * length ns) [] (code ++ rest)
                = Ok (base', le_words ns, rest).
Proof. exact shifted_exec. Qed.

Theorem C07_pack_shifted_total : forall ns, all_u64 ns -> nlen ns < 4096 ->
  exists code, pack_shifted_u64s ns = Ok code.
Proof. exact pack_shifted_total. Qed.

Theorem C07_pack_literal_exec : forall bs base code rest, nlen bs < 2 ^ 64 -> bs <> [] ->
  pack_literal bs = Ok code ->
  vm_exec (vm_fuel (code ++ rest)) base (length bs) [] (code ++ rest) = Ok (base, bs, rest).
Proof. exact literal_exec. Qed.

(** Packing a run of more than 4095 equal steps panics instead of emitting code. *)
Theorem C07_long_run_panics_refuted : exists ns, all_u64 ns /\ nlen ns = 4097 /\ pack_u64s ns = Panic.
Proof.
  exists (repeat 0 (N.to_nat 4097)). split; [|split; vm_compute; reflexivity].
  apply Forall_forall. intros x Hx. apply repeat_spec in Hx. subst. reflexivity.
Qed.

(** C08, one block: whatever pack_block emits for a block of a known type,
    unpacking gives back all 4096 bytes, whatever follows in the stream. *)
Theorem C08_block_roundtrip : forall kind blk code rest, bytes blk -> nlen blk = 4096 ->
  pack_block kind blk = Ok code ->
  exists rest', vm_unpack (N.to_nat 4096) (code ++ rest) = Ok (blk, rest') /\
    (kind <> NODE \/ ~ keys_fill_block blk -> rest' = rest).
Proof.
  intros kind blk code rest Hb Hl Hp.
  assert (N.to_nat 4096 = length blk) as -> by (unfold nlen in Hl; lia).
  destruct (pack_block_spec kind blk code Hb Hl Hp) as [[Hk [He [c' [-> [b' R]]]]]|[Hn [b' R]]].
  - exists ([144] ++ rest). rewrite <- app_assoc. split; [apply (unpack_of_runs _ _ _ _ R)|].
    rewrite <- (empty_tail_words blk Hl). tauto.
  - exists rest. split; [apply (unpack_of_runs _ _ _ _ R)|auto].
Qed.

(** C08: packing succeeds on every block that has a known type, except nodes whose
    header claims more entries than fit into a block. *)
Theorem C08_block_packs : forall kind blk, bytes blk -> nlen blk = 4096 -> kind <> UNKNOWN ->
  (kind = NODE -> node_claims_fit blk) -> exists code, pack_block kind blk = Ok code.
Proof.
  intros kind blk Hb Hl Hk Hf. destruct kind; cbn [pack_block]; try apply pack_literal_total; try congruence.
  apply pack_node_total; auto.
Qed.

(** C08, a whole device of [nr] blocks: packing with any number of jobs, any
    shuffle of the chunks and any interleaving of the jobs' records in the
    file, then unpacking with the block writes performed in any order,
    reproduces every block of a known type; the other blocks come out zeroed.
    Partial: the packer only visits every block when the number of blocks is a
    multiple of the chunk size (see the refutation below).  zlib is a parameter,
    assumed to decompress what it compressed. *)
Theorem C08_device_roundtrip_partial :
  forall (compress decompress : list N -> list N) (dev : N -> list N) (nr jobs : N)
         shuffled recs file_recs,
  (forall z, decompress (compress z) = z) ->
  (forall z, In z (concat recs) -> nlen (compress z) < 2 ^ 64) ->
  0 < nr < 2 ^ 64 -> 0 < jobs ->
  (forall b, b < nr -> bytes (dev b) /\ nlen (dev b) = 4096 /\
     (metadata_block_type (dev b) = NODE -> ~ keys_fill_block (dev b))) ->
  nr mod chunk_size nr jobs = 0 ->
  Permutation (mk_chunks nr jobs) shuffled ->
  pack_jobs dev (deal jobs (nr_chunks nr jobs) shuffled) = Ok recs ->
  Permutation (concat recs) file_recs ->
  exists ws, unpack_file decompress (write_header nr ++ flat_map (frame compress) file_recs) = Ok (nr, ws) /\
    forall order, Permutation ws order ->
    forall b, apply_writes zero_disk order b =
      if (b <? nr) && negb (BT_eqb (metadata_block_type (dev b)) UNKNOWN)
      then dev b else repeat 0 BLOCK_SIZE.
Proof.
  intros compress decompress dev nr jobs shuffled recs file_recs Hdc Hlen Hnr Hj Hdev Hmod Hsh Hp Hperm.
  assert (Permutation (ranges_blocks (concat (deal jobs (nr_chunks nr jobs) shuffled))) (range 0 nr)) as Hcov.
  { rewrite <- (mk_chunks_cover nr jobs). apply ranges_blocks_perm. rewrite Hsh. apply deal_perm; auto.
    pose proof (mk_chunks_length nr jobs) as Hl. rewrite Hmod in Hl. cbn [N.eqb] in Hl.
      unfold nlen in *. rewrite <- (Permutation_length Hsh). lia. }
  destruct (file_roundtrip compress decompress dev _ recs file_recs nr Hdc Hlen (proj2 Hnr) Hp Hperm) as [ws [Hu Hw]].
  { intros b Hb. eapply Permutation_in in Hb; [|exact Hcov]. apply in_range in Hb.
    destruct (Hdev b) as [A [B C]]; [lia|]. repeat split; auto.
    - unfold W64. lia.
    - intros Hk. rewrite empty_tail_words; auto. }
  exists ws. split; auto. intros order Ho b.
  rewrite (unpacked_disk dev (ranges_blocks (concat (deal jobs (nr_chunks nr jobs) shuffled))) order).
  - assert (existsb (N.eqb b) (ranges_blocks (concat (deal jobs (nr_chunks nr jobs) shuffled))) = (b <? nr)) as ->; auto.
    destruct (N.ltb_spec b nr).
    + apply existsb_exists. exists b. split; [|apply N.eqb_refl].
      eapply Permutation_in; [apply Permutation_sym, Hcov|]. apply in_range. lia.
    + destruct (existsb _ _) eqn:E; auto. apply existsb_exists in E. destruct E as [x [Hx Hb]].
      apply N.eqb_eq in Hb. subst x. eapply Permutation_in in Hx; [|exact Hcov]. apply in_range in Hx. lia.
  - eapply Permutation_NoDup; [apply Permutation_sym, Hcov|]. apply increasing_NoDup, range_increasing.
  - rewrite <- Ho. exact Hw.
Qed.

(** C08 refuted for whole devices: the packer deals one chunk too few.  Whenever
    the number of blocks is not a multiple of the chunk size, the last chunk of
    the shuffled list is given to no job. *)
Theorem C08_chunk_dropped_refuted : forall nr jobs shuffled, 0 < jobs ->
  nr mod chunk_size nr jobs <> 0 -> Permutation (mk_chunks nr jobs) shuffled ->
  exists lost kept, shuffled = kept ++ [lost] /\
    Permutation (concat (deal jobs (nr_chunks nr jobs) shuffled)) kept.
Proof.
  intros nr jobs shuffled Hj Hmod Hsh.
  pose proof (mk_chunks_length nr jobs) as Hl.
  destruct (N.eqb_spec (nr mod chunk_size nr jobs) 0); [congruence|].
  assert (nlen shuffled = nr_chunks nr jobs + 1) as Hs.
  { unfold nlen in *. rewrite <- (Permutation_length Hsh). auto. }
  destruct (exists_last (l := shuffled)) as [kept [lost E]].
  { intros ->. unfold nlen in Hs. cbn [length] in Hs. lia. }
  exists lost, kept. split; auto. rewrite deal_perm_firstn by lia.
  rewrite E in *. rewrite firstn_length_app; [reflexivity|].
  unfold nlen in Hs. rewrite app_length in Hs. cbn [length] in Hs. lia.
Qed.

(** In particular nothing at all is packed from a device of fewer than 128 blocks:
    the unpacked device is all zeroes. *)
Theorem C08_small_device_lost_refuted : forall dev nr jobs shuffled, 0 < jobs -> 0 < nr < 128 ->
  Permutation (mk_chunks nr jobs) shuffled ->
  exists recs, pack_jobs dev (deal jobs (nr_chunks nr jobs) shuffled) = Ok recs /\ concat recs = [].
Proof.
  intros dev nr jobs shuffled Hj Hn _.
  assert (nr_chunks nr jobs = 0) as ->.
  { unfold nr_chunks. apply N.div_small. pose proof (chunk_size_pos nr jobs). lia. }
  unfold deal. cbn [List.combine range N.sub N.to_nat nseq].
  change (range 0 0) with (@nil N). cbn [List.combine filter map].
  induction (range 0 jobs) as [|j l IH].
  - exists []. auto.
  - destruct IH as [recs [E C]]. cbn [map pack_jobs ranges_blocks flat_map crunch bind N.ltb N.compare].
    rewrite E. cbn [bind]. exists ([] :: recs). auto.
Qed.

(** C49: a path of up to 13 block numbers survives the textual form (a B-tree
    path is far shorter), as does any path whose code fits the decoder's buffer. *)
Theorem C49_node_path_partial : forall path, all_u64 path -> (length path <= 13)%nat ->
  exists text, encode_node_path path = Ok text /\ decode_node_path text = Ok path.
Proof.
  intros path Hu Hl. destruct (encode_short path Hu Hl) as [text [He Ht]].
  exists text. split; auto. eapply node_path_rt; eauto. lia.
Qed.

Theorem C49_node_path_fitting_partial : forall path text, all_u64 path -> (length path <= 127)%nat ->
  encode_node_path path = Ok text -> (length text <= 126)%nat ->
  decode_node_path text = Ok path.
Proof. exact node_path_rt. Qed.

(** C49 refuted beyond that: a 14-element path overruns the 128-byte decode
    buffer (panic), and a path of 128 or more elements wraps the 8-bit count
    and silently decodes to something else. *)
Definition long_path : list N := [1; 2^60; 3; 2^61; 5; 2^62; 9; 2^60; 11; 2^61; 7; 2^62; 13; 2^60+5].
Theorem C49_long_path_panics_refuted :
  exists path text, all_u64 path /\ encode_node_path path = Ok text /\ decode_node_path text = Panic.
Proof.
  exists (map (fun n => if n <? 2^59 then n + 2^58 else n) (long_path ++ [2^57])).
  eexists. split; [|split; [vm_compute; reflexivity|vm_compute; reflexivity]].
  repeat constructor.
Qed.
Theorem C49_path_truncated_refuted :
  exists path text, all_u64 path /\ encode_node_path path = Ok text /\
    exists path', decode_node_path text = Ok path' /\ path' <> path.
Proof.
  exists (1 :: 5 :: repeat 6 (N.to_nat 128)). eexists. split; [|split; [vm_compute; reflexivity|]].
  - repeat constructor.
  - eexists. split; [vm_compute; reflexivity|vm_compute; discriminate].
Qed.

(** * Concrete cases *)
Example ex_delta : to_delta [5; 7; 9; 11; 11; 11; 3; 18446744073709551615; 7] =
  [DBase 5; DPos 2 3; DConst 2; DNeg 8 1; DPos 18446744073709551612 1; DNeg 18446744073709551608 1].
Proof. vm_compute. reflexivity. Qed.
Example ex_delta_u64 : all_u64 [5; 7; 9; 11; 11; 11; 3; 18446744073709551615; 7].
Proof. repeat constructor. Qed.
Example ex_pack_code : pack_u64s [5; 7; 9; 11; 11; 11; 300] = Ok [1; 5; 115; 18; 82; 34; 33; 1].
Proof. vm_compute. reflexivity. Qed.
Definition ex_node_blk : list N :=
  le_enc 4 0 ++ le_enc 4 2 ++ le_enc 8 7 ++ le_enc 4 3 ++ le_enc 4 252 ++ le_enc 4 8 ++ le_enc 4 0 ++
  concat (map (le_enc 8) (range 0 252)) ++ concat (map (le_enc 8) (map (fun n => n * 16777216 + 3) (range 10 262))) ++
  repeat 0 (N.to_nat 32).
Example ex_node_fit : nlen ex_node_blk = 4096 /\ node_claims_fit ex_node_blk /\ ~ keys_fill_block ex_node_blk.
Proof.
  split; [vm_compute; reflexivity|]. unfold node_claims_fit, keys_fill_block.
  assert (word32_at ex_node_blk 20 = 252) as -> by (vm_compute; reflexivity).
  assert (word32_at ex_node_blk 24 = 8) as -> by (vm_compute; reflexivity). lia.
Qed.
Example ex_node_packs : exists c, pack_block NODE ex_node_blk = Ok c /\ nlen c = 84 /\
  vm_unpack (N.to_nat 4096) (c ++ [1; 2; 3]) = Ok (ex_node_blk, [1; 2; 3]).
Proof. eexists. split; [vm_compute; reflexivity|]. split; vm_compute; reflexivity. Qed.
Example ex_chunks : mk_chunks 256 2 = [(0, 128); (128, 256)] /\ 256 mod chunk_size 256 2 = 0 /\
  deal 2 (nr_chunks 256 2) [(128, 256); (0, 128)] = [[(128, 256)]; [(0, 128)]].
Proof. vm_compute. auto. Qed.
Example ex_path : encode_node_path [0; 123; 201231; 3102983012] = Ok [6; 1; 123; 36; 148; 17; 3; 0; 36; 85; 177; 240; 184].
Proof. vm_compute. reflexivity. Qed.

Print Assumptions C07_delta_lossless.
Print Assumptions C07_pack_u64s_exec.
Print Assumptions C07_pack_shifted_exec.
Print Assumptions C07_pack_literal_exec.
Print Assumptions C08_block_roundtrip.
Print Assumptions C08_block_packs.
Print Assumptions C08_device_roundtrip_partial.
Print Assumptions C08_chunk_dropped_refuted.
Print Assumptions C49_node_path_partial.
