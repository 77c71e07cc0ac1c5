(** Properties C20 and C21: thin_restore writes the superblock last, and only for
    well-formed documents. *)
From Verif Require Import Base Csum_Model Codec_Model SpaceMap_Model Batcher_Model Builder_Model ThinOut_Model
  SmWrite_Model Restore_Model Restore_Spec RestoreSafe_Proofs Restore_Proofs.

(** ** C20 *)
Lemma restore_untouched d good junk nr batch : untouched (restorer_new (wb_new d good (core_metadata_sm nr (W32 - 1)) batch junk)).
Proof. unfold untouched. cbn. auto 10. Qed.

(** For every sequence of events, valid or not, every device with any unwritable blocks, every
    batch size: either nothing was written to block 0, or exactly one write was, it was made
    when </superblock> was handled, after everything queued had been sent to the device, and
    that restore had succeeded up to there. *)
Theorem C20_superblock_written_once_and_last : forall d good junk nr batch o es s r,
  restore d good junk nr batch o es = (s, r) ->
  Forall (fun b => ~ to_superblock b) (wb_log (r_w s)) \/
  exists es1 es2 s1 before data after,
    es = es1 ++ EvSbE :: es2 /\ restore d good junk nr batch o (es1 ++ [EvSbE]) = (s1, Ok tt) /\
    wb_log (r_w s1) = before ++ [mkblock 0 data] /\ wb_queue (r_w s1) = [] /\
    wb_log (r_w s) = before ++ mkblock 0 data :: after /\
    Forall (fun b => ~ to_superblock b) (before ++ after).
Proof.
  intros d good junk nr batch o es s r H. unfold restore in H. apply write_order in H; [|apply restore_untouched].
  destruct H as [H|(l1 & data & l2 & H1 & H2 & es1 & es2 & s1 & H3 & H4 & H5 & H6 & H7)]; [left; exact H|].
  right. exists es1, es2, s1, l1, data, l2. conj; auto. apply Forall_app. split; [exact H7|exact H2].
Qed.

(** Crash safety for the event sequences an XML reader delivers.  Stop the device after any
    number [k] of the writes: unless it was after the very last one, block 0 is what it was
    before; and if block 0 was written at all then all writes of the restore are done. *)
Lemma put_log_other log : forall d good b, Forall (fun x => b_loc x <> b) log -> put_log d good log b = d b.
Proof.
  induction log as [|x log IH]; intros d good b H; cbn; auto. inversion H; subst. unfold put_log in *. cbn. rewrite IH by auto.
  destruct (good (b_loc x)); auto. apply upd_other. auto.
Qed.
Theorem C20_crash : forall d good junk nr batch o es tail s r k,
  document es -> (tail = [] \/ tail = [EvEof]) ->
  restore d good junk nr batch o (es ++ tail) = (s, r) ->
  crashed d good (wb_log (r_w s)) k 0 = d 0 \/
  (r = Ok tt /\ wb_queue (r_w s) = [] /\ firstn k (wb_log (r_w s)) = wb_log (r_w s)).
Proof.
  intros d good junk nr batch o es tail s r k (sb & secs & HF & ->) Ht H.
  destruct (C20_superblock_written_once_and_last _ _ _ _ _ _ _ _ _ H) as [Hn|(es1 & es2 & s1 & l1 & data & l2 & E1 & E2 & E3 & E4 & E5 & E6)].
  - left. unfold crashed. apply put_log_other. rewrite <- (firstn_skipn k) in Hn. apply Forall_app in Hn as [Hn _].
    eapply Forall_impl; [|exact Hn]. unfold to_superblock. auto.
  - assert (Hno : ~ In EvSbE (EvSbB sb :: concat secs)).
    { intros [K|K]; [discriminate|]. apply in_concat in K as (sec & K1 & K2). rewrite Forall_forall in HF. specialize (HF _ K1). destruct HF as [nm ms|dv its Hits].
      * destruct K2 as [K2|K2]; [discriminate|]. apply in_app_or in K2 as [K2|[K2|[]]]; [|discriminate]. apply in_map_iff in K2 as (? & ? & _). discriminate.
      * destruct K2 as [K2|K2]; [discriminate|]. apply in_app_or in K2 as [K2|[K2|[]]]; [|discriminate].
        rewrite Forall_forall in Hits. destruct (Hits _ K2) as [(? & ?)|(? & ?)]; discriminate. }
    assert (Hes : es1 = EvSbB sb :: concat secs /\ es2 = tail).
    { assert (E : (EvSbB sb :: concat secs) ++ EvSbE :: tail = es1 ++ EvSbE :: es2).
      { rewrite <- E1. cbn [app]. rewrite <- app_assoc. reflexivity. }
      clear - E Hno Ht. revert es1 E. generalize (EvSbB sb :: concat secs) as l, Hno. clear Hno. intros l. induction l as [|x l IH]; intros Hno [|y es1] E; cbn in E.
      - injection E as <-. auto.
      - injection E as <- E. exfalso. destruct Ht as [->| ->]; destruct es1 as [|z [|]]; discriminate.
      - injection E as -> <-. exfalso. apply Hno. left. auto.
      - injection E as -> E. destruct (IH (fun K => Hno (or_intror K)) _ E) as [-> ->]. auto. }
    destruct Hes as [-> ->]. clear E1.
    assert (Hs : s = s1 /\ r = Ok tt).
    { assert (E : (EvSbB sb :: concat secs ++ [EvSbE]) ++ tail = ((EvSbB sb :: concat secs) ++ [EvSbE]) ++ tail) by reflexivity.
      rewrite E in H. unfold restore in H, E2. destruct Ht as [->| ->].
      - rewrite app_nil_r in H. rewrite E2 in H. injection H as <- <-. auto.
      - rewrite visits_snoc in H. unfold bindst in H. rewrite E2 in H. cbn [visit] in H. unfold restore_eof, check_section, get, bindst in H.
        rewrite visits_snoc in E2. bo E2 as s2 u E0. cbn [visit] in E2. apply finalize_ok in E2.
        destruct E2 as (src & devs & dr & mr & d1 & w1 & s3 & d2 & w3 & w4 & droot & mroot & sb' & dp & mp & F1 & F2 & F3 & F4 & F5 & F6 & F7 & F8 & F9 & F10 & F11 & w5 & F12 & ->).
        cbn in H. injection H as <- <-. auto. }
    destruct Hs as [-> ->]. rewrite E3 in E5. apply app_inv_head in E5. injection E5 as <-. rewrite app_nil_r in E6.
    destruct (Nat.le_gt_cases (length (wb_log (r_w s1))) k) as [Hk|Hk].
    + right. conj; auto. apply firstn_all2. lia.
    + left. unfold crashed. apply put_log_other. rewrite E3 in *. rewrite app_length in Hk. cbn [length] in Hk.
      rewrite firstn_app. replace (k - length l1)%nat with 0%nat by lia. cbn [firstn]. rewrite app_nil_r.
      rewrite <- (firstn_skipn k) in E6. apply Forall_app in E6 as [E6 _]. exact E6.
Qed.

(** ** "Successfully" is too strong: the batcher does not look at the results of its block
    writes, so a restore onto a device with an unwritable block can succeed, and the
    superblock is then written although a block it needs was not. *)
Definition ex_events : list event := [EvSbB (mkirsb 0 1 None None 128 10 None); EvSbE; EvEof].
Definition ex_restore (good : N -> bool) (es : list event) : rstate * res unit :=
  restore (fun _ => repeat 0 4096) good (fun _ => repeat 0 4096) 20 8 no_overrides es.
(** the result, the blocks written, and whether block 1 (the device details) was written *)
Definition summary_of (x : rstate * res unit) : res unit * list N * N :=
  (snd x, map b_loc (wb_log (r_w (fst x))), hd 0 (skipn 4 (wb_disk (r_w (fst x)) 1))).
Theorem C20_unwritable_block_refuted : summary_of (ex_restore (fun b => negb (b =? 1)) ex_events) = (Ok tt, [1; 2; 3; 4; 5; 6; 7; 8; 0], 0).
Proof. vm_compute. reflexivity. Qed.
(** With a good device block 1 is a node (its flags are 2: a leaf), and a document of the
    kind the theorems speak about is accepted. *)
Example C20_example : document [EvSbB (mkirsb 0 1 None None 128 10 None); EvSbE] /\
  ex_events = [EvSbB (mkirsb 0 1 None None 128 10 None); EvSbE] ++ [EvEof] /\
  summary_of (ex_restore (fun _ => true) ex_events) = (Ok tt, [1; 2; 3; 4; 5; 6; 7; 8; 0], 2).
Proof.
  split; [|split; [reflexivity|vm_compute; reflexivity]]. exists (mkirsb 0 1 None None 128 10 None), []. split; [constructor|reflexivity].
Qed.

(** ** C21 *)
(** A sequence of events followed by the end of the input is accepted only if it is a
    document, or would be one were it not for the end tag of its last section. *)
Theorem C21_accepted : forall d good junk nr batch o es s,
  ~ In EvEof es -> restore d good junk nr batch o (es ++ [EvEof]) = (s, Ok tt) -> document es \/ unclosed es.
Proof.
  intros d good junk nr batch o es s Hn H. unfold restore in H. rewrite visits_snoc in H. bo H as s1 u E. destruct u.
  apply visits_ctl in E. rewrite ctl_new in E. cbn [visit] in H. unfold restore_eof in H. apply check_ok in H as [-> Hs].
  eapply accepted_shape; eauto. unfold ctl_of. cbn [c_sec]. destruct (r_sec s1); try discriminate. reflexivity.
Qed.
(** With matching end tags, as the XML reader guarantees, only documents are accepted. *)
Theorem C21_accepted_nested : forall d good junk nr batch o es s,
  ~ In EvEof es -> nested [] es -> restore d good junk nr batch o (es ++ [EvEof]) = (s, Ok tt) -> document es.
Proof.
  intros d good junk nr batch o es s Hn Hx H. destruct (C21_accepted _ _ _ _ _ _ _ _ Hn H) as [|K]; auto.
  exfalso. eapply unclosed_not_nested; eauto.
Qed.
Lemma nested_prefix es es2 : forall o, nested o (es ++ es2) -> nested o es.
Proof.
  induction es as [|e es IH]; intros o H; cbn [app nested] in *; auto.
  destruct e; eauto; destruct o as [|[]]; eauto.
Qed.
(** The same for the superblock itself: whatever the events, with or without an end of input,
    block 0 is written only when the events so far are a document (or one with its last
    section left open). *)
Theorem C21_superblock_written_only_for_documents : forall d good junk nr batch o es s r b,
  restore d good junk nr batch o es = (s, r) -> In b (wb_log (r_w s)) -> to_superblock b ->
  exists es1 es2, es = es1 ++ EvSbE :: es2 /\
    (~ In EvEof es1 -> document (es1 ++ [EvSbE]) \/ unclosed (es1 ++ [EvSbE])) /\
    (~ In EvEof es1 -> nested [] es -> document (es1 ++ [EvSbE])).
Proof.
  intros d good junk nr batch o es s r b H Hb H0.
  destruct (C20_superblock_written_once_and_last _ _ _ _ _ _ _ _ _ H) as [Hn|(es1 & es2 & s1 & l1 & data & l2 & E1 & E2 & E3 & E4 & E5 & E6)].
  { exfalso. rewrite Forall_forall in Hn. exact (Hn _ Hb H0). }
  exists es1, es2. split; auto.
  assert (Hd : ~ In EvEof es1 -> document (es1 ++ [EvSbE]) \/ unclosed (es1 ++ [EvSbE])).
  { intros Hn. apply (accepted_shape _ (ctl_of s1)).
    - apply visits_ctl in E2. exact E2.
    - unfold restore in E2. rewrite visits_snoc in E2. bo E2 as s2 u E0. cbn [visit] in E2. apply finalize_ok in E2.
      destruct E2 as (src & devs & dr & mr & d1 & w1 & s3 & d2 & w3 & w4 & droot & mroot & sb' & dp & mp & F1 & F2 & F3 & F4 & F5 & F6 & F7 & F8 & F9 & F10 & F11 & w5 & F12 & ->).
      reflexivity.
    - intros K. apply in_app_or in K as [K|[K|[]]]; [auto|discriminate]. }
  split; auto. intros Hn Hx. destruct (Hd Hn) as [|K]; auto. exfalso. apply (unclosed_not_nested _ K).
  apply (nested_prefix _ es2). rewrite <- app_assoc. cbn [app]. rewrite <- E1. exact Hx.
Qed.

(** Without matching end tags a definition may be left open: this is accepted. *)
Definition ex_unclosed : list event := [EvSbB (mkirsb 0 1 None None 128 10 None); EvDefB 1; EvSbE; EvEof].
Theorem C21_unclosed_refuted : ~ document [EvSbB (mkirsb 0 1 None None 128 10 None); EvDefB 1; EvSbE] /\
  summary_of (ex_restore (fun _ => true) ex_unclosed) = (Ok tt, [1; 2; 3; 4; 5; 6; 7; 8; 0], 2).
Proof.
  split; [|vm_compute; reflexivity]. intros (sb & secs & HF & E). injection E as _ E.
  destruct secs as [|sec secs]; [discriminate|]. inversion HF as [|? ? Hs HF']; subst. destruct Hs as [nm ms|dv its H]; cbn in E; [|discriminate].
  injection E as _ E. destruct ms; cbn in E; discriminate.
Qed.
(** A device with a definition's mappings, by reference, and its own; and some refusals. *)
Definition ex_doc : list event :=
  [EvSbB (mkirsb 0 1 None None 128 10 None); EvDefB 1; EvMap (mkmap 0 4 0 2); EvDefE;
   EvDevB (mkirdev 3 3 0 0 0); EvRef 1; EvMap (mkmap 5 8 0 1); EvDevE; EvSbE].
Example C21_example : document ex_doc /\ nested [] ex_doc /\ ~ In EvEof ex_doc /\
  fst (fst (summary_of (ex_restore (fun _ => true) (ex_doc ++ [EvEof])))) = Ok tt.
Proof.
  split; [|split; [cbn; auto|split; [|vm_compute; reflexivity]]].
  - exists (mkirsb 0 1 None None 128 10 None), [[EvDefB 1; EvMap (mkmap 0 4 0 2); EvDefE]; [EvDevB (mkirdev 3 3 0 0 0); EvRef 1; EvMap (mkmap 5 8 0 1); EvDevE]].
    split; [|reflexivity]. constructor; [|constructor; [|constructor]].
    + exact (def_section 1 [mkmap 0 4 0 2]).
    + refine (dev_section _ [EvRef 1; EvMap (mkmap 5 8 0 1)] _). constructor; [right; eauto|constructor; [left; eauto|constructor]].
  - unfold ex_doc. cbn. intuition discriminate.
Qed.
Example C21_refusals :
  map (fun es => fst (fst (summary_of (ex_restore (fun _ => true) es))))
    [[EvEof]; [EvSbE]; [EvSbB (mkirsb 0 1 None None 128 10 None); EvEof];
     [EvSbB (mkirsb 0 1 None None 128 10 None); EvDefB 1; EvDefB 2];
     [EvSbB (mkirsb 0 1 None None 128 10 None); EvMap (mkmap 0 4 0 2)];
     [EvSbB (mkirsb 0 1 None None 128 10 None); EvDevB (mkirdev 3 3 0 0 0); EvDefE]] = repeat Err 6.
Proof. vm_compute. reflexivity. Qed.

Print Assumptions C20_superblock_written_once_and_last.
Print Assumptions C20_crash.
Print Assumptions C20_unwritable_block_refuted.
Print Assumptions C21_accepted.
Print Assumptions C21_accepted_nested.
Print Assumptions C21_superblock_written_only_for_documents.
Print Assumptions C21_unclosed_refuted.
