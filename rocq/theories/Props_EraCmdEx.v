(** C60: concrete cases, and what is not checked. *)
From Verif Require Import Base Csum_Model Codec_Model Codec_Spec SpaceMap_Model Batcher_Model ThinCheck_Model EraIo_Model EraIo_Spec Props_EraIo EraCmd_Model EraCmd_Spec Props_EraCmd.

(** The metadata of C58's example meets the hypotheses of C60_restored. *)
Theorem C60_restored_met : let D := wb_disk (fst ex_run) in
  era_restored D 20 ex_edoc /\ Forall (fun e => snd e <= ei_current_era (ed_sb ex_edoc)) (ed_eras ex_edoc) /\ ei_nr_blocks (ed_sb ex_edoc) < 2 ^ 32 - 1018 /\
  forall inf, era_check 20 inf (dev 20 (fun _ => true) D) false = Ok tt.
Proof.
  assert (HE : Forall (fun e => snd e <= ei_current_era (ed_sb ex_edoc)) (ed_eras ex_edoc)) by (repeat constructor; cbn; lia).
  split; [exact C58_restored_example|]. split; [exact HE|]. split; [reflexivity|]. intros inf.
  exact (C60_restored (wb_disk (fst ex_run)) 20 ex_edoc inf eq_refl (proj1 ex_fits) eq_refl HE C58_restored_example).
Qed.
Definition verdict (d : disk) : res unit := era_check 20 false (dev 20 (fun _ => true) d) false.
(** Restore accepts an era in the future, and the check then rejects what it wrote. *)
Definition future : edoc := mkedoc (mkeirsb [] 128 100 4) [mkeset 4 100 [(7, 2)]] [(3, 5)].
Definition restored (doc : edoc) : wb * res erest := era_restore (fun _ => repeat 7 4096) (fun _ => true) (fun _ => repeat 0 4096) 20 4 (edoc_events doc).
Definition outcome (x : wb * res erest) : option (res unit) := match x with (w, Ok _) => Some (verdict (wb_disk w)) | _ => None end.
Theorem C60_future_era_refuted : outcome (restored future) = Some Err.
Proof. vm_compute. reflexivity. Qed.
(** The current writeset is not looked at: a root beyond the end of the device passes.  Nor is the
    metadata space map: a root of zeroes passes. *)
Definition spoil (sb : era_sb) : era_sb :=
  mkesb (es_clean_shutdown sb) (es_block sb) (es_version sb) (repeat 0 128) (es_data_block_size sb) (es_nr_blocks sb) (es_current_era sb)
    (mkws 100 4000) (es_writeset_tree_root sb) (es_era_array_root sb) (es_metadata_snap sb).
Definition spoiled (x : wb * res erest) : option (res unit) :=
  match x with
  | (w, Ok _) => match (sb <- era_read_superblock (wb_disk w) 0 ;; era_write_superblock (wb_disk w) 0 (spoil sb)) with
                 | Ok d => Some (verdict d)
                 | _ => None
                 end
  | _ => None
  end.
Theorem C60_spoiled_passes_refuted : spoiled ex_run = Some (Ok tt).
Proof. vm_compute. reflexivity. Qed.
Print Assumptions C60_restored_met.
Print Assumptions C60_future_era_refuted.
Print Assumptions C60_spoiled_passes_refuted.
