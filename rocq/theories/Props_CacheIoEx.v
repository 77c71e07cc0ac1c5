(** Property C33: concrete cases, and what does not hold. *)
From Verif Require Import Base Csum_Model Codec_Model Codec_Spec SbCodec_Proofs SpaceMap_Model Batcher_Model Builder_Model Builder_Spec Walker_Model Array_Model Array_Spec SmWrite_Model SmWrite_Spec Era_Model Era_Spec
  CacheIo_Model CacheIo_Spec Props_CacheIo.

Notation cex_run version doc := (cache_restore (fun _ => repeat 0 4096) (fun _ => true) (fun _ => repeat 0 4096) 20 8 version true (cdoc_events doc)).
Definition cex_sb (nr : N) : cir_sb := mkcirsb [] 128 nr [115; 109; 113] 4.
(** Three cache blocks: the first caches block 7 and is dirty, the last block 5 and has a hint. *)
Definition cex_doc : cdoc := mkcdoc (cex_sb 3) [mkcmap 0 7 true; mkcmap 2 5 false] [mkchint 2 [1; 2; 3; 4]].
Lemma cex_fits : cdoc_fits cex_doc.
Proof. unfold cdoc_fits, cex_doc, cex_sb. cbn. conj; try (cbn; lia); repeat constructor; try (cbn; lia); try reflexivity; try discriminate. Qed.
Lemma cex_junk : forall b : N, bytes (repeat 0 4096) /\ nlen (repeat 0 4096) = 4096.
Proof. intros _. split; [|reflexivity]. apply Forall_forall. intros x Hx. apply repeat_spec in Hx. rewrite Hx. reflexivity. Qed.
Lemma cex_pair (x : wb * res crest) : (exists r, snd x = Ok r) -> exists w r, x = (w, Ok r).
Proof. destruct x as [w y]. cbn. intros (r & ->). eauto. Qed.
Lemma cex_restored version w r : version = 1 \/ version = 2 -> cex_run version cex_doc = (w, Ok r) -> cache_restored (wb_disk w) 20 version true cex_doc.
Proof.
  intros Hv E. pose proof (C33_restore (fun _ => repeat 0 4096) (fun _ => true) (fun _ => repeat 0 4096) 20 8 version true cex_doc w (Ok r) (fun _ _ => eq_refl) cex_junk Hv cex_fits E) as H.
  exact (proj1 (proj2 H)).
Qed.
Lemma cex_ok : exists r, snd (cex_run 2 cex_doc) = Ok r.
Proof. vm_compute. eexists. reflexivity. Qed.
(** The restore succeeds, and the device it leaves meets the hypotheses of C33_dump and
    C33_roundtrip: dumping it gives the document. *)
Example C33_example : exists w r, cex_run 2 cex_doc = (w, Ok r) /\ cache_restored (wb_disk w) 20 2 true cex_doc.
Proof.
  destruct (cex_pair _ cex_ok) as (w & r & E). exists w, r. split; [exact E|]. exact (cex_restored 2 w r (or_intror eq_refl) E).
Qed.

Theorem C33_roundtrip_met : exists w r s maps ws hints,
  let eng b := if b <? 20 then Some (wb_disk w b) else None in
  cex_run 2 cex_doc = (w, Ok r) /\ cache_on eng (wb_disk w) 20 s maps ws hints /\ 20 < 2 ^ 64 /\ 0 < cs_cache_blocks s /\ cache_sb_range s /\
  block_state s maps ws 0 = Some (7, true) /\ block_state s maps ws 1 = None /\ block_state s maps ws 2 = Some (5, false) /\ nth_error hints 2 = Some [1; 2; 3; 4].
Proof.
  destruct (cex_pair _ cex_ok) as (w & r & E). destruct (cex_restored 2 w r (or_intror eq_refl) E) as (s & maps & ws & hints & R1 & R2 & (T1 & T2 & T3 & T4) & R3 & R4 & R5 & R6 & R7 & R8 & _).
  cbn [cex_doc cex_sb cd_sb ci_nr_cache_blocks] in T2. rewrite T2 in R7, R8. exists w, r, s, maps, ws, hints. cbv zeta.
  split; [exact E|]. split; [exact R6|]. split; [reflexivity|]. split; [rewrite T2; reflexivity|]. split; [exact R2|].
  split; [rewrite R7 by reflexivity; reflexivity|]. split; [rewrite R7 by reflexivity; reflexivity|]. split; [rewrite R7 by reflexivity; reflexivity|].
  pose proof (R8 2 eq_refl) as H. exact H.
Qed.

(** ** What does not hold *)
(** A cache of no blocks: version 1 is restored, but dump panics on what was written; version 2
    cannot be restored. *)
Definition dump_result (x : wb * res crest) : option (res unit) :=
  match x with
  | (w, Ok _) => match cache_read_superblock (wb_disk w) 0 with
                 | Ok s => Some (snd (cache_dump (fun _ => true) (fun b => if b <? 20 then Some (wb_disk w b) else None) 20 false s))
                 | _ => None
                 end
  | _ => None
  end.
Theorem C33_empty_cache_refuted :
  dump_result (cex_run 1 (mkcdoc (cex_sb 0) [] [])) = Some Panic /\ snd (cex_run 2 (mkcdoc (cex_sb 0) [] [])) = Err.
Proof. split; vm_compute; reflexivity. Qed.
(** A hint that is not 4 bytes long makes restore panic. *)
Theorem C33_hint_width_refuted : snd (cex_run 2 (mkcdoc (cex_sb 3) [] [mkchint 0 [1; 2; 3]])) = Panic.
Proof. vm_compute. reflexivity. Qed.
