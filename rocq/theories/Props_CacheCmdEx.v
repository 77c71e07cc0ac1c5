(** C59: concrete cases, and what does not hold. *)
From Verif Require Import Base Csum_Model Codec_Model Codec_Spec SpaceMap_Model Batcher_Model Walker_Model SmCheck_Model SmCheck_Spec Repair_Model ThinCheck_Model CacheCheck_Spec CacheIo_Model CacheIo_Spec Props_CacheIo Props_CacheIoEx CacheCmd_Model CacheCmd_Spec
  Props_CacheCmd Props_CacheCmdRestored.

Definition plain : cc_opts := mkcc false false false false false false false.
Definition data_ok (l : list N) : bool := forallb (fun x => x <? 256) l && (nlen l =? 4096).
Lemma data_ok_iff l : data_ok l = true -> bytes l /\ nlen l = 4096.
Proof.
  unfold data_ok. intros H. apply andb_prop in H as [H1 H2]. apply N.eqb_eq in H2. split; auto. apply Forall_forall. intros x Hx. rewrite forallb_forall in H1. apply N.ltb_lt, H1, Hx.
Qed.
Lemma log_ok good l : forall d, dev_ok d -> forallb (fun b => data_ok (b_data b)) l = true -> dev_ok (put_log d good l).
Proof.
  induction l as [|b l IH]; intros d Hd H; cbn [forallb] in H; [exact Hd|]. apply andb_prop in H as [H1 H2]. unfold put_log. cbn [fold_left].
  apply IH; auto. destruct (good (b_loc b)); auto. intros x. unfold put_block, upd. destruct (N.eqb_spec x (b_loc b)); [apply data_ok_iff; auto|apply Hd].
Qed.
Definition log_fine (x : wb * res crest) : bool := forallb (fun b => data_ok (b_data b)) (wb_log (fst x)).
Lemma cex_log : log_fine (cex_run 2 cex_doc) = true.
Proof. vm_compute. reflexivity. Qed.
Definition base_of (x : wb * res crest) := wb_base (fst x).
Lemma cex_base : forall b, base_of (cex_run 2 cex_doc) b = repeat 0 4096.
Proof. vm_compute. reflexivity. Qed.
(** The hypotheses of C59_restored are met by a document with two mappings, one dirty, and a
    hint, in version 2. *)
Theorem C59_restored_met : exists w r, cex_run 2 cex_doc = (w, Ok r) /\ dev_ok (wb_disk w) /\ cache_restored (wb_disk w) 20 2 true cex_doc /\
  cdoc_fits cex_doc /\ ci_hint_width (cd_sb cex_doc) = 4 /\ NoDup (map cm_origin (cd_maps cex_doc)) /\
  (forall writable, cache_check 20 plain (fun _ => true) writable (wb_disk w) = (wb_disk w, Ok tt)) /\
  exists s m, cache_with 20 (wb_disk w) (dev 20 (fun _ => true) (wb_disk w)) s m /\ origin_limit s (2 ^ 48) /\ arrays_fine (dev 20 (fun _ => true) (wb_disk w)) (2 ^ 48) s m /\ map_fine (dev 20 (fun _ => true) (wb_disk w)) 20 m false.
Proof.
  destruct (cex_pair _ cex_ok) as (w & r & E). exists w, r.
  pose proof (cex_restored 2 w r (or_intror eq_refl) E) as HR.
  assert (HD : dev_ok (wb_disk w)).
  { pose proof cex_log as HL. pose proof cex_base as HB. rewrite E in HL, HB. unfold log_fine, base_of in *. cbn [fst] in *. unfold wb_disk. apply log_ok; [|exact HL].
    intros b. rewrite HB. apply cex_junk. exact 0. }
  assert (HO : NoDup (map cm_origin (cd_maps cex_doc))) by (repeat constructor; cbn; intuition discriminate).
  split; [exact E|]. split; [exact HD|]. split; [exact HR|]. split; [exact cex_fits|]. split; [reflexivity|]. split; [exact HO|]. split.
  - intros writable. apply (C59_restored (wb_disk w) 20 2 true cex_doc plain writable); auto; [lia|exact cex_fits].
  - apply (restored_fine (wb_disk w) 20 2 true cex_doc); auto; [lia|exact cex_fits].
Qed.

(** ** What does not hold *)
(** Is [r] what cache_check says about the metadata restore wrote? *)
Definition verdict_of (o : cc_opts) (x : wb * res crest) : option (res unit) :=
  match x with (w, Ok _) => Some (snd (cache_check 20 o (fun _ => true) (fun _ => true) (wb_disk w))) | _ => None end.
Definition with_width (h : N) : cdoc := mkcdoc (mkcirsb [] 128 3 [115; 109; 113] h) [mkcmap 0 7 true; mkcmap 2 5 false] [].
(** Restore accepts any hint width, and the result does not pass the check unless it is 4: the
    hint array is written and counted in any case; the check does not look for it when the
    width is 0 and rejects other widths. *)
Theorem C59_other_widths_refuted :
  verdict_of plain (cex_run 2 (with_width 4)) = Some (Ok tt) /\
  verdict_of plain (cex_run 2 (with_width 0)) = Some Err /\
  verdict_of plain (cex_run 2 (with_width 8)) = Some Err.
Proof. vm_compute. auto. Qed.
(** Nor if an origin block is cached twice: restore does not notice. *)
Theorem C59_twice_refuted : verdict_of plain (cex_run 2 (mkcdoc (cex_sb 3) [mkcmap 0 7 true; mkcmap 2 7 false] [])) = Some Err.
Proof. vm_compute. reflexivity. Qed.

(** With the flag set, on otherwise fine metadata, --clear-needs-check clears it; but with
    --skip-hints it reports success and leaves it set. *)
Definition set_flag (sb : cache_sb) : cache_sb :=
  mkcsb (cs_clean_shutdown sb) true (cs_block sb) (cs_version sb) (cs_policy_name sb) (cs_policy_version sb) (cs_policy_hint_size sb)
    (cs_metadata_sm_root sb) (cs_mapping_root sb) (cs_dirty_root sb) (cs_hint_root sb) (cs_discard_root sb) (cs_discard_block_size sb)
    (cs_discard_nr_blocks sb) (cs_data_block_size sb) (cs_cache_blocks sb) (cs_compat_flags sb) (cs_compat_ro_flags sb) (cs_incompat_flags sb)
    (cs_read_hits sb) (cs_read_misses sb) (cs_write_hits sb) (cs_write_misses sb).
Definition flag_after (o : cc_opts) (x : wb * res crest) : option (res unit * res bool) :=
  match x with
  | (w, Ok _) =>
      match (sb <- cache_read_superblock (wb_disk w) 0 ;; cache_write_superblock (wb_disk w) 0 (set_flag sb)) with
      | Ok d => let '(d', r) := cache_check 20 o (fun _ => true) (fun _ => true) d in
                Some (r, sb <- cache_read_superblock d' 0 ;; Ok (cs_needs_check sb))
      | _ => None
      end
  | _ => None
  end.
Theorem C59_skipping_keeps_the_flag_refuted :
  flag_after (mkcc false false false false false false true) (cex_run 2 cex_doc) = Some (Ok tt, Ok false) /\
  flag_after (mkcc false false true false false false true) (cex_run 2 cex_doc) = Some (Ok tt, Ok true).
Proof. vm_compute. auto. Qed.
Print Assumptions C59_restored_met.
Print Assumptions C59_other_widths_refuted.
Print Assumptions C59_twice_refuted.
Print Assumptions C59_skipping_keeps_the_flag_refuted.
