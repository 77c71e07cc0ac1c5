(** Node headers as words, totality of packing, node paths. *)
From Verif Require Import Base Csum_Model Codec_Model Codec_Spec Codec_Proofs NodeCodec_Proofs SbCodec_Proofs
  Pack_Model Pack_Spec Pack_Proofs.

Lemma le_words_words ns : le_words ns = words ns.
Proof. induction ns as [|n ns IH]; [reflexivity|]. cbn [le_words words flat_map]. f_equal. Qed.

Lemma p_le_long n i : (n <= length i)%nat -> p_le n i = Ok (le_dec (firstn n i), skipn n i).
Proof.
  intros H. unfold p_le, p_take. destruct (Nat.ltb_spec (length i) n); [lia|]. reflexivity.
Qed.

Lemma skipn_skipn_add {A} n m (l : list A) : skipn n (skipn m l) = skipn (m + n) l.
Proof.
  revert l; induction m; intros l; auto. destruct l; cbn [skipn plus]; auto. apply skipn_nil.
Qed.

Lemma summarise_words blk : nlen blk = 4096 -> summarise_node blk =
  Ok (mksummary (word32_at blk 4 =? 2) (word32_at blk 20) (word32_at blk 24)).
Proof.
  intros Hl. unfold nlen in Hl. unfold summarise_node, p_u32, p_u64.
  repeat (rewrite p_le_long by (rewrite ?skipn_length; lia); cbn [bind]; rewrite ?skipn_skipn_add).
  reflexivity.
Qed.

Lemma empty_tail_words blk : nlen blk = 4096 -> (empty_tail blk <-> keys_fill_block blk).
Proof.
  intros H. unfold empty_tail, keys_fill_block. rewrite summarise_words by auto. cbn [ns_leaf ns_vsize ns_max].
  rewrite N.eqb_eq. tauto.
Qed.

Lemma p_count_u64_total n i : bytes i -> (8 * n <= length i)%nat ->
  exists vs r, p_count p_u64 n i = Ok (vs, r) /\ i = words vs ++ r /\ length vs = n /\ u64s vs /\ bytes r.
Proof.
  intros Hb Hl. destruct (p_count_total u64_codec _ n i u64_lossless Hb Hl) as [vs [r H]].
  exists vs, r. split; [exact H|]. apply p_count_u64_inv; auto.
Qed.

Lemma lit_unless_total tail : exists d,
  match tail with [] => Ok [] | _ => pack_literal tail end = Ok d.
Proof. destruct tail; eauto. apply pack_literal_total. Qed.

Lemma pack_node_total blk : bytes blk -> nlen blk = 4096 -> node_claims_fit blk ->
  exists c, pack_btree_node blk = Ok c.
Proof.
  intros Hb Hl [H1 H2]. unfold nlen in Hl. unfold pack_btree_node.
  rewrite summarise_words by (unfold nlen; lia). cbn [bind ns_leaf ns_vsize ns_max].
  unfold p_take. destruct (Nat.ltb_spec (length blk) 32); [lia|]. cbn [bind].
  assert (bytes (skipn 32 blk)) as Hb1.
  { rewrite <- (firstn_skipn 32 blk) in Hb. apply bytes_app in Hb. apply Hb. }
  unfold run64.
  destruct (p_count_u64_total (N.to_nat (word32_at blk 20)) (skipn 32 blk)) as [keys [i [-> [Ei [Hk [Hku Hb2]]]]]];
    auto; [rewrite skipn_length; lia|]. cbn [bind].
  assert (length (skipn 32 blk) = 4064%nat) as Hs by (rewrite skipn_length; lia).
  rewrite Ei, app_length, words_length in Hs.
  destruct (pack_literal_total (firstn 32 blk)) as [a ->].
  destruct (pack_u64s_total keys) as [b ->]; auto; [unfold nlen; lia|].
  destruct (N.eqb_spec (word32_at blk 4) 2).
  - destruct (N.eqb_spec (word32_at blk 24) 8).
    + destruct (p_count_u64_total (N.to_nat (word32_at blk 20)) i) as [vs [t [-> [Et [Hv [Hvu _]]]]]]; auto; [lia|].
      cbn [bind]. destruct (pack_shifted_total vs) as [c ->]; auto; [unfold nlen; lia|].
      cbn [bind]. destruct (lit_unless_total t) as [d ->]. cbn [bind]. eauto.
    + cbn [bind]. destruct (pack_literal_total i) as [c ->]. cbn [bind]. eauto.
  - destruct (p_count_u64_total (N.to_nat (word32_at blk 20)) i) as [vs [t [-> [Et [Hv [Hvu _]]]]]]; auto; [lia|].
    cbn [bind]. destruct (pack_u64s_total vs) as [c ->]; auto; [unfold nlen; lia|].
    cbn [bind]. destruct (lit_unless_total t) as [d ->]. cbn [bind]. eauto.
Qed.

(** ** VM runs from any base *)
Lemma exec_any_base b c o b' rest : runs b c o b' ->
  vm_exec (vm_fuel (c ++ rest)) b (length o) [] (c ++ rest) = Ok (b', o, rest).
Proof.
  intros H. apply exec_runs in H. destruct H as [f H]. specialize (H [] rest).
  cbn [length plus app] in H. apply (proj2 (vm_fuel_enough f)) in H. destruct H as [_ H].
  apply H. unfold vm_fuel. lia.
Qed.

Lemma u64s_exec ns base code rest : all_u64 ns -> pack_u64s ns = Ok code ->
  exists base', vm_exec (vm_fuel (code ++ rest)) base (8 * length ns) [] (code ++ rest) =
    Ok (base', le_words ns, rest).
Proof.
  intros Hu Hp. destruct (pack_u64s_runs ns base code Hu Hp) as [[b' R] _].
  exists b'. rewrite le_words_words, <- words_length. apply exec_any_base. auto.
Qed.

Lemma shifted_exec ns base code rest : all_u64 ns -> ns <> [] -> pack_shifted_u64s ns = Ok code ->
  exists base', vm_exec (vm_fuel (code ++ rest)) base (8 * length ns) [] (code ++ rest) =
    Ok (base', le_words ns, rest).
Proof.
  intros Hu Hne Hp. destruct (pack_shifted_runs ns base code Hu Hp) as [b' R].
  exists b'. rewrite le_words_words, <- words_length. apply exec_any_base. apply runs_one; auto.
  intros E. apply (f_equal (@length N)) in E. rewrite words_length in E. destruct ns; [congruence|discriminate].
Qed.

Lemma literal_exec bs base code rest : nlen bs < 2 ^ 64 -> bs <> [] -> pack_literal bs = Ok code ->
  vm_exec (vm_fuel (code ++ rest)) base (length bs) [] (code ++ rest) = Ok (base, bs, rest).
Proof.
  intros Hl Hne Hp. apply exec_any_base, runs_one; auto. apply pack_literal_runs; auto.
Qed.

(** ** Node paths *)
Lemma decode_buffer_ok text : (length text <= 126)%nat -> exists z, decode_buffer text = Ok (text ++ z).
Proof.
  intros H. unfold decode_buffer.
  destruct (Nat.leb_spec (3 * ((length text + 2) / 3)) 128) as [_|Hx]; eauto.
  exfalso. pose proof (Nat.div_mod (length text + 2) 3 ltac:(lia)).
  pose proof (Nat.mod_upper_bound (length text + 2) 3 ltac:(lia)). lia.
Qed.

Lemma path_body ns c z : u64s ns -> pack_u64s ns = Ok c ->
  (if Nat.eqb (length ns) 0 then Ok [] else
     ' (_, out, _) <- vm_run (length ns * 8) (c ++ z) ;;
     if Nat.eqb (length out) (length ns * 8) then unpack_u64s (length ns) out else Panic) = Ok ns.
Proof.
  intros Hu Hp. destruct ns as [|n ns]; [reflexivity|].
  destruct (pack_u64s_runs _ 0 _ Hu Hp) as [[b' R] _].
  replace (length (n :: ns) * 8)%nat with (length (words (n :: ns))) by (rewrite words_length; lia).
  rewrite (run_runs _ _ _ z R).
  cbn [bind Nat.eqb length]. rewrite Nat.eqb_refl.
  pose proof (unpack_words _ Hu []) as U. rewrite app_nil_r in U. exact U.
Qed.

Lemma node_path_rt path text : u64s path -> (length path <= 127)%nat ->
  encode_node_path path = Ok text -> (length text <= 126)%nat -> decode_node_path text = Ok path.
Proof.
  intros Hu Hl He Ht. destruct (decode_buffer_ok text Ht) as [z Hz].
  unfold decode_node_path. rewrite Hz. cbn [bind]. clear Hz.
  unfold encode_node_path in He. destruct (Nat.ltb_spec (length path) 256); [|lia].
  assert (forall n, n < 128 -> N.lor (u8 (N.shiftl (u8 n) 1)) 1 = 2 * n + 1) as E1.
  { intros n Hn. unfold u8. rewrite (N.mod_small n) by lia. rewrite N.shiftl_mul_pow2. change (2 ^ 1) with 2.
    rewrite N.mod_small by lia. rewrite N.mul_comm. destruct n; reflexivity. }
  assert (forall n, N.land (2 * n + 1) 1 = 1 /\ N.shiftr (2 * n + 1) 1 = n) as E2.
  { intros n. split; destruct n; reflexivity. }
  assert (forall n, N.land (2 * n) 1 = 0 /\ N.shiftr (2 * n) 1 = n) as E3.
  { intros n. split; destruct n; reflexivity. }
  destruct path as [|p0 path].
  - inv_bind He. okinj He. vm_compute in E. okinj E. reflexivity.
  - destruct p0 as [|q].
    + inv_bind He. okinj He. cbn [app read_u8 bind].
      inversion Hu as [|? ? Hu0 Hu1]; subst.
      assert (u8 (N.shiftl (u8 (nlen (0 :: path)) - 1) 1) = 2 * nlen path) as ->.
      { unfold u8. replace (nlen (0 :: path)) with (nlen path + 1) by (unfold nlen; cbn [length]; lia).
        assert (nlen path < 127) by (unfold nlen; cbn [length] in Hl; lia).
        rewrite (N.mod_small (nlen path + 1)) by lia. rewrite N.shiftl_mul_pow2. change (2 ^ 1) with 2.
        rewrite N.mod_small by lia. lia. }
      destruct (E3 (nlen path)) as [-> ->]. unfold nlen. rewrite Nat2N.id.
      rewrite (path_body path a z Hu1 E). reflexivity.
    + inv_bind He. okinj He. cbn [app read_u8 bind].
      rewrite E1 by (unfold nlen; lia).
      destruct (E2 (nlen (N.pos q :: path))) as [-> ->]. unfold nlen. rewrite Nat2N.id.
      rewrite (path_body _ a z Hu E). reflexivity.
Qed.

Lemma encode_short path : u64s path -> (length path <= 13)%nat ->
  exists text, encode_node_path path = Ok text /\ (length text <= 126)%nat.
Proof.
  intros Hu Hl. unfold encode_node_path. destruct (Nat.ltb_spec (length path) 256); [|lia].
  assert (forall ns, u64s ns -> (length ns <= 13)%nat -> exists c, pack_u64s ns = Ok c /\ (length c <= 117)%nat) as P.
  { intros ns Hn Hln. destruct (pack_u64s_total ns Hn) as [c Hc]; [unfold nlen; lia|].
    exists c. split; auto. destruct (pack_u64s_runs ns 0 c Hn Hc) as [_ Hx]. lia. }
  destruct (P path Hu Hl) as [c [Hc Hcl]].
  destruct path as [|[|q] path].
  - rewrite Hc. cbn [bind]. eexists. split; [reflexivity|]. cbn [length]. lia.
  - inversion Hu; subst. destruct (P path) as [c' [Hc' Hcl']]; auto; [cbn [length] in Hl; lia|].
    rewrite Hc'. cbn [bind]. eexists. split; [reflexivity|]. cbn [length]. lia.
  - rewrite Hc. cbn [bind]. eexists. split; [reflexivity|]. cbn [length]. lia.
Qed.
