(** cache_dump on intact metadata. *)
From Verif Require Import Base IoMany_Proofs Csum_Model Codec_Model Codec_Spec Codec_Proofs Pack_Proofs SpaceMap_Model SmWrite_Model Utils_Model Utils_Proofs Batcher_Model Builder_Model Builder_Spec Builder_Proofs
  BtreeBuild_Proofs Walker_Model Walker_Spec Walker_Proofs WalkTree_Proofs Props_Walker Array_Model Array_Spec Array_Proofs ArrayWalk_Proofs Props_Array Copier_Model Writeback_Model WritebackSel_Proofs WritebackUpd_Proofs
  Era_Model Era_Spec EraDump_Proofs CacheIo_Model CacheIo_Spec CacheRestore_Proofs.

(** ** The dirty bits *)
Lemma checked_bits eng d nr inf root cb ws : readable_array u64_codec eng d nr root ws -> nr < 2 ^ 64 -> cb < 2 ^ 32 -> nlen ws = div_up cb 64 ->
  exists f, read_bitset_checked eng nr root cb inf = (f, []) /\ forall i, i < cb -> f i = Some (bit_at 64 ws i).
Proof.
  intros (foot & blocks & Ha & HN & Hrd) Hnr Hcb Hl.
  assert (Hrd' : forall b, In b blocks -> eng b = Some (d b)). { intros b Hb. apply Hrd. apply in_or_app. auto. }
  destruct (array_parts u64_codec d root ws foot blocks ltac:(cbn; lia) Ha) as (depth & vss & HT & HF & <- & HP).
  change (array_per u64_codec) with 509 in HP. pose proof (Forall2_length _ _ _ HF) as HLb.
  assert (Hdu : div_up cb 64 * 64 < cb + 64 /\ cb <= div_up cb 64 * 64) by (unfold div_up; split; dlia).
  assert (Hlast : blocks <> [] -> (nlen blocks - 1) * 509 < nlen (concat vss)).
  { intros Hne. pose proof (start_lt 509 ltac:(lia) vss (length vss - 1) HP ltac:(destruct blocks; [congruence|cbn in HLb; lia])). unfold nlen in *. lia. }
  assert (Hsmall : nlen blocks * 509 * 64 < 2 ^ 64). { change (2 ^ 64) with 18446744073709551616. change (2 ^ 32) with 4294967296 in *. destruct blocks as [|b bs]; [cbn; lia|]. specialize (Hlast ltac:(discriminate)). lia. }
  pose proof (C42_read_bitset_checked eng d inf nr root cb depth blocks foot HT HN) as H.
  destruct (read_bitset_checked eng nr root cb inf) as [f es]. destruct H as [Hf He]; auto.
  { intros b Hb. apply Hrd. apply in_or_app. auto. }
  { intros b data a Hb Hd Hu. rewrite (Hrd' b Hb) in Hd. injection Hd as <-.
    assert (Hx : exists vs, array_block_at u64_codec d b vs).
    { clear - HF Hb. induction HF as [|x y l k H HF IH]; [destruct Hb|]. destruct Hb as [<-|Hb]; eauto. }
    destruct Hx as (vs & _ & _ & _ & Hu'). rewrite Hu in Hu'. apply Ok_inj in Hu'. subst a. reflexivity. }
  exists f. split.
  - f_equal. rewrite He. clear He. enough (G : forall bs k i, Forall2 (array_block_at u64_codec d) bs k -> packed_in 509 k -> (forall b, In b bs -> In b blocks) ->
      i * 509 + nlen (concat k) <= div_up cb 64 -> flat_map (block_errors eng cb) (combine (range i (i + nlen bs)) bs) = []).
    { pose proof (G blocks vss 0 HF HP ltac:(auto) ltac:(lia)) as G'. rewrite N.add_0_l in G'. exact G'. }
    clear - Hrd' Hdu. induction bs as [|b bs IH]; intros k i HF HP Hin Hi; inversion HF as [|? vs ? k' Hb HF']; subst; [rewrite range_nil by (unfold nlen; cbn; lia); reflexivity|].
    assert (Hl : nlen (b :: bs) = 1 + nlen bs) by (unfold nlen; cbn [length]; lia). rewrite Hl, (range_cons i) by lia. cbn [combine flat_map].
    destruct HP as (P1 & P2 & P3 & P4). cbn [concat] in Hi. assert (nlen vs <> 0) by (destruct vs; [congruence|unfold nlen; cbn; lia]).
    assert (E : nlen (vs ++ concat k') = nlen vs + nlen (concat k')) by (unfold nlen; rewrite app_length; lia). rewrite E in Hi.
    replace (i + (1 + nlen bs)) with (i + 1 + nlen bs) by lia.
    assert (Et : flat_map (block_errors eng cb) (combine (range (i + 1) (i + 1 + nlen bs)) bs) = []).
    { destruct k' as [|v2 k']; [inversion HF'; subst; rewrite range_nil by (unfold nlen; cbn; lia); reflexivity|].
      apply (IH (v2 :: k')); auto; [intros x Hx; apply Hin; right; auto|rewrite P3 in Hi by discriminate; lia]. }
    rewrite Et, app_nil_r. unfold block_errors, block_words. cbn [fst snd]. rewrite Hrd' by (apply Hin; left; auto).
    destruct Hb as (_ & _ & -> & ->). destruct (N.leb_spec cb (i * 509 * 64)); auto. lia.
  - intros i Hi. rewrite Hf. destruct (N.ltb_spec i cb); [|lia].
    unfold bit_at. assert (E1 : i / 64 / 509 = i / (509 * 64)) by (rewrite N.div_div by lia; f_equal).
    assert (E2 : (i / 64) mod 509 = i mod (509 * 64) / 64). { rewrite (N.mul_comm 509 64), N.mod_mul_r by lia. rewrite N.mul_comm, N.div_add by lia. rewrite (N.div_small (i mod 64)) by (apply N.mod_lt; lia). reflexivity. }
    assert (Hw : i / 64 < nlen (concat vss)). { rewrite Hl. apply N.div_lt_upper_bound; lia. }
    destruct (array_nth u64_codec d blocks vss (i / 64) ltac:(cbn; lia) HF HP Hw) as (b & vs & v & A1 & A2 & A3 & A4 & A5).
    change (array_per u64_codec) with 509 in *. rewrite E1 in A1. rewrite E2 in A4. unfold stored_bit. rewrite A1.
    unfold block_words. rewrite Hrd' by (eapply nth_error_In; eauto).
    destruct A3 as (_ & _ & -> & ->). cbn [ab_values]. rewrite A4. cbn [option_map]. rewrite (nth_error_nth _ _ 0 A5). reflexivity.
Qed.

(** ** Emitting the entries of an array *)
Lemma emit_app {A V} (f : emitter A V) : forall l1 l2 a, emit f (l1 ++ l2) a =
  match emit f l1 a with (ev, Ok a') => let '(evs, out) := emit f l2 a' in (ev ++ evs, out) | (ev, out) => (ev, out) end.
Proof.
  induction l1 as [|x l1 IH]; intros l2 a; cbn [app emit]; [destruct (emit f l2 a); auto|].
  destruct (f a x) as [[a' ev]| |]; auto. rewrite IH. destruct (emit f l1 a') as [e1 [a1| |]]; auto. destruct (emit f l2 a1) as [e2 o2]. rewrite app_assoc. auto.
Qed.
(** The entries with their numbers, from [i] on. *)
Definition numbered {V} (i : N) (vs : list V) : list (N * V) := combine (range i (i + nlen vs)) vs.
Lemma numbered_cons {V} i (v : V) vs : numbered i (v :: vs) = (i, v) :: numbered (i + 1) vs.
Proof.
  unfold numbered. assert (Hl : nlen (v :: vs) = 1 + nlen vs) by (unfold nlen; cbn [length]; lia). rewrite Hl, (range_cons i) by lia. cbn [combine].
  replace (i + (1 + nlen vs)) with (i + 1 + nlen vs) by lia. auto.
Qed.
Lemma numbered_app {V} i (a b : list V) : numbered i (a ++ b) = numbered i a ++ numbered (i + nlen a) b.
Proof.
  revert i. induction a as [|x a IH]; intros i; cbn [app].
  - unfold nlen. cbn [length]. rewrite N.add_0_r. unfold numbered at 2. rewrite combine_nil. auto.
  - rewrite !numbered_cons, IH. cbn [app]. do 2 f_equal. unfold nlen. cbn [length]. f_equal. lia.
Qed.
Lemma walk_blocks_ok {A V} (c : codec V) eng d (f : emitter A V) : (0 < csize c <= 4072)%nat -> forall blocks vss i a,
  Forall2 (array_block_at c d) blocks vss -> packed_in (array_per c) vss -> (forall b, In b blocks -> eng b = Some (d b)) ->
  i * array_per c + nlen (concat vss) < 2 ^ 32 ->
  walk_blocks c eng f (combine (range i (i + nlen blocks)) blocks) a = emit f (numbered (i * array_per c) (concat vss)) a.
Proof.
  intros Hc blocks vss i a HF. pose proof (array_per_pos c Hc) as Hp. revert i a. induction HF as [|b vs blocks vss Hb HF IH]; intros i a HP He Hi.
  - rewrite combine_nil. cbn [concat]. unfold numbered. rewrite combine_nil. reflexivity.
  - assert (Hl : nlen (b :: blocks) = 1 + nlen blocks) by (unfold nlen; cbn [length]; lia). rewrite Hl in *.
    rewrite (range_cons i) by lia. replace (i + (1 + nlen blocks)) with (i + 1 + nlen blocks) in * by lia.
    cbn [combine walk_blocks]. rewrite He by (left; auto). destruct Hb as (_ & _ & Hty & Hun). rewrite Hty, Hun.
    destruct HP as (P1 & P2 & P3 & P4). cbn [concat] in *. assert (Hna : nlen (vs ++ concat vss) = nlen vs + nlen (concat vss)) by (unfold nlen; rewrite app_length; lia). rewrite Hna in *.
    change (2 ^ 32) with 4294967296 in *.
    assert (Hen : entry_numbers i (mkab (mkah ((4096 - 24) / N.of_nat (csize c)) (nlen vs) (N.of_nat (csize c)) b) vs) = numbered (i * array_per c) vs).
    { unfold entry_numbers, add32, mul32. cbn [ab_hdr ab_values ah_max ah_nr]. change ((4096 - 24) / N.of_nat (csize c)) with (array_per c).
      assert (i * 1 <= i * array_per c) by (apply N.mul_le_mono_l; lia).
      rewrite (N.mod_small i), (N.mod_small (i * _)), N.mod_small by (unfold W32; change (2 ^ 32) with 4294967296; lia). reflexivity. }
    rewrite Hen, numbered_app, emit_app. destruct (emit f (numbered (i * array_per c) vs) a) as [ev [a'| |]]; auto.
    destruct vss as [|v2 vss].
    + inversion HF; subst. rewrite combine_nil. cbn [concat walk_blocks]. unfold numbered. rewrite combine_nil. reflexivity.
    + specialize (P3 ltac:(discriminate)). rewrite IH; auto; [|intros x Hx; apply He; right; auto|rewrite P3 in Hi; lia].
      rewrite P3. replace ((i + 1) * array_per c) with (i * array_per c + array_per c) by lia. reflexivity.
Qed.
Lemma walk_root_ok {A V} (c : codec V) eng d nr inf root vs (f : emitter A V) a : (0 < csize c <= 4072)%nat ->
  readable_array c eng d nr root vs -> nr < 2 ^ 64 -> vs <> [] -> nlen vs < 2 ^ 32 ->
  walk_root c eng nr inf root f a = emit f (numbered 0 vs) a.
Proof.
  intros Hc (foot & blocks & Ha & HN & Hrd) Hnr Hne Hl. destruct (array_parts c d root vs foot blocks Hc Ha) as (depth & vss & HT & HF & <- & HP).
  pose proof (array_per_pos c Hc) as Hp. pose proof (Forall2_length _ _ _ HF) as HLb.
  assert (Hbn : blocks <> []). { intros ->. inversion HF; subst. apply Hne. reflexivity. }
  pose proof (start_lt (array_per c) ltac:(lia) vss (length vss - 1) HP ltac:(destruct blocks; [congruence|cbn in HLb; lia])) as Hs.
  assert (Hnb : nlen blocks < 2 ^ 64).
  { change (2 ^ 64) with 18446744073709551616. change (2 ^ 32) with 4294967296 in *. unfold nlen in *. assert (N.of_nat (length vss - 1) * 1 <= N.of_nat (length vss - 1) * array_per c) by (apply N.mul_le_mono_l; lia). lia. }
  unfold walk_root. rewrite (collect_array_blocks_ok eng d nr inf depth root blocks foot HT HN Hnr Hnb); auto.
  - pose proof (walk_blocks_ok c eng d f Hc blocks vss 0 a HF HP) as H. rewrite N.add_0_l, N.mul_0_l, N.add_0_l in H. apply H; auto. intros b Hb. apply Hrd. apply in_or_app. auto.
  - intros b Hb. apply Hrd. apply in_or_app. auto.
Qed.

(** ** The emitters *)
Definition dumped_maps (dirty : N -> cmapping -> bool) (ims : list (N * cmapping)) : list cir_map :=
  flat_map (fun im => if cm_valid (snd im) then [mkcmap (fst im) (cm_oblock (snd im)) (dirty (fst im) (snd im))] else []) ims.
Lemma emit_maps n dirty : forall ims acc, Forall (fun im => fst im < n) ims ->
  emit (map_emitter n dirty) ims acc = (map CMap (dumped_maps dirty ims), Ok (rev (map cm_cblock (dumped_maps dirty ims)) ++ acc)).
Proof.
  induction ims as [|[i m] ims IH]; intros acc H; cbn [emit dumped_maps flat_map]; [reflexivity|]. fold (dumped_maps dirty ims). inversion H as [|? ? H1 H2]; subst. cbn [fst snd] in *.
  unfold map_emitter at 1. destruct (cm_valid m); cbn [negb].
  - destruct (N.leb_spec n i); [lia|]. rewrite IH by auto. cbn [app map rev cm_cblock]. rewrite <- app_assoc. reflexivity.
  - rewrite IH by auto. reflexivity.
Qed.
Definition dumped_hints (p : N -> bool) (ihs : list (N * list N)) : list cir_hint :=
  flat_map (fun ih => if p (fst ih) then [mkchint (fst ih) (snd ih)] else []) ihs.
Lemma emit_hints valid : forall ihs, emit (hint_emitter valid) ihs tt = (map CHint (dumped_hints (fun i => existsb (N.eqb i) valid) ihs), Ok tt).
Proof.
  induction ihs as [|[i h] ihs IH]; cbn [emit dumped_hints flat_map]; [reflexivity|]. unfold hint_emitter at 1. rewrite IH. cbn [fst snd].
  fold (dumped_hints (fun i => existsb (N.eqb i) valid) ihs). rewrite map_app. destruct (existsb (N.eqb i) valid); reflexivity.
Qed.
(** What is found at a number *)
Lemma numbered_lt {V} (vs : list V) : forall a, Forall (fun iv => a <= fst iv < a + nlen vs) (numbered a vs).
Proof.
  induction vs as [|v vs IH]; intros a; [unfold numbered; rewrite combine_nil; constructor|]. rewrite numbered_cons.
  assert (Hl : nlen (v :: vs) = 1 + nlen vs) by (unfold nlen; cbn [length]; lia). rewrite Hl. constructor; [cbn [fst]; lia|].
  eapply Forall_impl; [|apply IH]. cbv beta. intros x Hx. lia.
Qed.
Section Chosen.
Context {V B : Type} (g : N * V -> option B) (key : B -> N) (Hkey : forall iv b, g iv = Some b -> key b = fst iv).
Definition chosen (ivs : list (N * V)) : list B := flat_map (fun iv => match g iv with Some b => [b] | None => [] end) ivs.
Lemma chosen_in ivs b : In b (chosen ivs) <-> exists iv, In iv ivs /\ g iv = Some b.
Proof using.
  unfold chosen. rewrite in_flat_map. split; intros (iv & H1 & H2); exists iv; (split; [auto|]); destruct (g iv); cbn in *; try tauto; try congruence.
  - destruct H2 as [->|[]]; auto.
  - injection H2 as ->. auto.
Qed.
Lemma chosen_order vs : forall a, increasing (map key (chosen (numbered a vs))) /\ Forall (fun b => a <= key b < a + nlen vs) (chosen (numbered a vs)).
Proof using Hkey.
  induction vs as [|v vs IH]; intros a; [unfold numbered; rewrite combine_nil; cbn; auto|]. rewrite numbered_cons. cbn [chosen flat_map]. fold (chosen (numbered (a + 1) vs)).
  assert (Hl : nlen (v :: vs) = 1 + nlen vs) by (unfold nlen; cbn [length]; lia). rewrite Hl. destruct (IH (a + 1)) as [I1 I2].
  assert (I3 : Forall (fun b => a <= key b < a + (1 + nlen vs)) (chosen (numbered (a + 1) vs))) by (eapply Forall_impl; [|exact I2]; cbv beta; intros; lia).
  destruct (g (a, v)) as [b|] eqn:E; cbn [app map]; [|auto]. pose proof (Hkey _ _ E) as Hk. cbn in Hk. split; [|constructor; [lia|auto]].
  apply increasing_strong. split; [|exact I1]. intros x Hx. apply in_map_iff in Hx as (y & <- & Hy). rewrite Forall_forall in I2. apply I2 in Hy. lia.
Qed.
Lemma chosen_find vs : forall a i, a <= i -> find (fun b => key b =? i) (chosen (numbered a vs)) =
  match nth_error vs (N.to_nat (i - a)) with Some v => g (i, v) | None => None end.
Proof using Hkey.
  induction vs as [|v vs IH]; intros a i Hi.
  { unfold numbered. rewrite combine_nil. cbn. destruct (N.to_nat (i - a)); reflexivity. }
  rewrite numbered_cons. cbn [chosen flat_map]. fold (chosen (numbered (a + 1) vs)). destruct (N.eq_dec i a) as [E|E].
  - subst i. rewrite N.sub_diag. cbn [N.to_nat nth_error]. destruct (g (a, v)) as [b|] eqn:E; cbn [app find].
    + rewrite (Hkey _ _ E). cbn [fst]. rewrite N.eqb_refl. auto.
    + destruct (find _ _) as [b|] eqn:Ef; auto. apply find_some in Ef as [H1 H2]. apply N.eqb_eq in H2. destruct (chosen_order vs (a + 1)) as [_ H3]. rewrite Forall_forall in H3. apply H3 in H1. lia.
  - replace (N.to_nat (i - a)) with (S (N.to_nat (i - (a + 1)))) by lia. cbn [nth_error]. rewrite <- IH by lia.
    destruct (g (a, v)) as [b|] eqn:Eg; cbn [app find]; auto. rewrite (Hkey _ _ Eg). cbn [fst]. destruct (N.eqb_spec a i); [lia|auto].
Qed.
End Chosen.
Definition gmap (dirty : N -> cmapping -> bool) (im : N * cmapping) : option cir_map :=
  if cm_valid (snd im) then Some (mkcmap (fst im) (cm_oblock (snd im)) (dirty (fst im) (snd im))) else None.
Definition ghint (p : N -> bool) (ih : N * list N) : option cir_hint := if p (fst ih) then Some (mkchint (fst ih) (snd ih)) else None.
Lemma dumped_maps_chosen dirty l : dumped_maps dirty l = chosen (gmap dirty) l.
Proof. unfold dumped_maps, chosen, gmap. apply flat_map_ext. intros [i m]. cbn. destruct (cm_valid m); auto. Qed.
Lemma dumped_hints_chosen p l : dumped_hints p l = chosen (ghint p) l.
Proof. unfold dumped_hints, chosen, ghint. apply flat_map_ext. intros [i m]. cbn. destruct (p i); auto. Qed.
Lemma gmap_key dirty : forall im m, gmap dirty im = Some m -> cm_cblock m = fst im.
Proof. intros [i x] m. unfold gmap. cbn. destruct (cm_valid x); [|discriminate]. intros H. injection H as <-. auto. Qed.
Lemma ghint_key p : forall ih h, ghint p ih = Some h -> ch_cblock h = fst ih.
Proof. intros [i x] m. unfold ghint. cbn. destruct (p i); [|discriminate]. intros H. injection H as <-. auto. Qed.
Lemma valid_bit m : cm_valid m = N.testbit (cm_flags m) 0.
Proof. unfold cm_valid. rewrite N.bit0_odd. change 1 with (N.ones 1). rewrite N.land_ones. change (2 ^ 1) with 2. rewrite <- N.bit0_mod, N.bit0_odd. destruct (N.odd _); reflexivity. Qed.
Lemma dirty_bit m : cm_dirty m = N.testbit (cm_flags m) 1.
Proof.
  unfold cm_dirty. destruct (N.eqb_spec (N.land (cm_flags m) 2) 0) as [H|H]; cbn [negb].
  - assert (E : N.testbit (N.land (cm_flags m) 2) 1 = false) by (rewrite H; reflexivity). rewrite N.land_spec in E. change (N.testbit 2 1) with true in E. rewrite andb_true_r in E. auto.
  - destruct (N.testbit (cm_flags m) 1) eqn:E; auto. exfalso. apply H. apply N.bits_inj. intros k. rewrite N.land_spec, N.bits_0.
    destruct (N.eq_dec k 1) as [->|Hk]; [rewrite E; auto|]. replace (N.testbit 2 k) with false; [apply andb_false_r|]. symmetry. change 2 with (2 ^ 1). apply N.pow2_bits_false. auto.
Qed.
Lemma array_range {V} (c : codec V) rg d root vs foot blocks : lossless c rg -> array_at c d root vs foot blocks -> Forall rg vs.
Proof.
  intros L (depth & vss & _ & HF & <- & _). induction HF as [|b v bs k (H1 & H2 & H3 & H4) HF IH]; cbn [concat]; auto. apply Forall_app. split; auto.
  apply (unpack_range c rg _ _ L H1 H4).
Qed.
Lemma numbered_in {V} (vs : list V) : forall a iv, In iv (numbered a vs) -> In (snd iv) vs.
Proof. intros a [i v] H. apply in_combine_r in H. auto. Qed.

(** ** Lists in order are determined by what is found in them *)
Lemma keyed_ext {B} (key : B -> N) : forall l1 l2, increasing (map key l1) -> increasing (map key l2) ->
  (forall i, find (fun b => key b =? i) l1 = find (fun b => key b =? i) l2) -> l1 = l2.
Proof.
  assert (Hno : forall l x, increasing (x :: map key l) -> find (fun b => key b =? x) l = None).
  { intros l x H. apply increasing_strong in H as [H _]. destruct (find _ l) as [b|] eqn:E; auto. apply find_some in E as [E1 E2]. apply N.eqb_eq in E2. specialize (H (key b) (in_map key _ _ E1)). lia. }
  induction l1 as [|a l1 IH]; intros [|b l2] H1 H2 H; auto.
  - specialize (H (key b)). cbn in H. rewrite N.eqb_refl in H. discriminate.
  - specialize (H (key a)). cbn in H. rewrite N.eqb_refl in H. discriminate.
  - cbn [map] in *. assert (Hk : key a = key b).
    { pose proof (H (key a)) as Ha. pose proof (H (key b)) as Hb. cbn [find] in Ha, Hb. rewrite N.eqb_refl in Ha, Hb.
      destruct (N.eqb_spec (key b) (key a)) as [E|E]; auto. destruct (N.eqb_spec (key a) (key b)) as [E'|E']; auto.
      symmetry in Ha. apply find_some in Ha as [A1 A2]. apply find_some in Hb as [B1 B2]. apply N.eqb_eq in B2.
      apply increasing_strong in H1 as [H1 _]. apply increasing_strong in H2 as [H2 _]. specialize (H1 (key b) (in_map key _ _ B1)). specialize (H2 (key a) (in_map key _ _ A1)). lia. }
    assert (Hab : a = b). { pose proof (H (key a)) as Ha. cbn [find] in Ha. rewrite N.eqb_refl, Hk, N.eqb_refl in Ha. injection Ha as ->. auto. }
    subst b. f_equal. apply IH; [apply increasing_strong in H1; tauto|apply increasing_strong in H2; tauto|]. intros i. specialize (H i). cbn [find] in H.
    destruct (N.eqb_spec (key a) i) as [E|E]; auto. subst i. rewrite !Hno; auto.
Qed.
