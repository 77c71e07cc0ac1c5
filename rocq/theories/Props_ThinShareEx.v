(** C44: two devices that share their leaves. *)
From Coq Require Import Permutation.
From Verif Require Import Base Csum_Model Codec_Model SpaceMap_Model Batcher_Model Walker_Model ThinOut_Model Restore_Model RestoreDoc_Spec Props_RestoreDoc
  Builder_Spec SmCheck_Spec Repair_Model ThinCheck_Model ThinCheck_Spec ThinShare_Spec ThinCheck_Proofs Props_ThinSumEx Props_ThinCheckEx.

(** The metadata thin_restore writes for two devices with the same 300 mappings, on a device
    of 20 blocks: blocks 3 and 4 are the roots, each points to the leaves 1 and 2. *)
Definition two_sb := mkirsb 0 0 None None 128 400 None.
Definition ex_two : list sect := [SDef 1 [mkmap 5 4 0 300]; SDev (mkirdev 3 300 0 0 0) [CRef 1]; SDev (mkirdev 4 300 0 0 0) [CRef 1]].
Definition two_blocks : list (list N) := Eval vm_compute in
  let d := wb_disk (r_w (fst (ex_run no_overrides (doc_events two_sb ex_two ++ [EvEof])))) in map d (range 0 13).
(** the same with another count for a block in the metadata space map, block 10 *)
Definition two_bitmap (b : N) (e : bitmap_entry) : list N :=
  match bitmap_unpack (nth 10 two_blocks []) with
  | Ok (bm, _) =>
      match bitmap_pack (mkbitmap 10 (firstn (N.to_nat b) (bm_entries bm) ++ [e] ++ skipn (S (N.to_nat b)) (bm_entries bm))) with
      | Ok bs => match write_checksum (firstn 4096 (bs ++ repeat 0 4096)) BITMAP with Ok b => b | _ => [] end
      | _ => []
      end
  | _ => []
  end.
Definition two_disk : disk := fun b => nth (N.to_nat b) two_blocks (repeat 0 4096%nat).
Definition two_wrong (b : N) (e : bitmap_entry) : disk := fun x => if x =? 10 then two_bitmap b e else two_disk x.
Definition two_eng := all_readable two_disk.
Definition two_height (b : N) : nat := if (b =? 3) || (b =? 4) then 1%nat else 0%nat.

Lemma two_inner inf : forall b, inner_on two_eng inf b = if (b =? 3) || (b =? 4) then Some ([5; 155], [1; 2]) else None.
Proof.
  intros b. destruct (N.ltb_spec b 20) as [Hb|Hb].
  - assert (H : forallb (fun b => match inner_on two_eng inf b with
      | None => negb ((b =? 3) || (b =? 4))
      | Some (ks, cs) => ((b =? 3) || (b =? 4)) && list_eqb ks [5; 155] && list_eqb cs [1; 2]
      end) (range 0 20) = true) by (destruct inf; vm_compute; reflexivity).
    rewrite forallb_forall in H. specialize (H b ltac:(apply in_range; lia)). destruct (inner_on two_eng inf b) as [[ks cs]|].
    + apply Bool.andb_true_iff in H. destruct H as [H H3]. apply Bool.andb_true_iff in H. destruct H as [H1 H2]. rewrite H1.
      apply ThinCheck_Proofs.list_eqb_eq in H2, H3. subst. reflexivity.
    + destruct (_ || _); [discriminate|reflexivity].
  - unfold inner_on, two_eng, all_readable, dev. replace (b <? 20) with false by (symmetry; apply N.ltb_ge; exact Hb).
    destruct (N.eqb_spec b 3) as [E|E]; [lia|]. destruct (N.eqb_spec b 4) as [E'|E']; [lia|]. reflexivity.
Qed.

(** The check accepts the counts of 2 for the shared leaves, which the last part of
    C44_accepts_partial asks for, and no other. *)
Example C44_shared_leaves_met :
  even_trees two_eng [3; 4] two_height /\
  (occurrences 1 [3; 4] + pointers two_eng false [3; 4] 1 = 2) /\ (occurrences 3 [3; 4] + pointers two_eng false [3; 4] 3 = 1) /\
  snd (run plain two_disk) = Ok tt /\
  (exists bm rest, bitmap_unpack (two_disk 10) = Ok (bm, rest) /\ firstn 5 (bm_entries bm) = [Small 1; Small 2; Small 2; Small 1; Small 1]) /\
  snd (run plain (two_wrong 1 (Small 1))) = Err /\ snd (run plain (two_wrong 3 (Small 2))) = Err /\ snd (run plain (two_wrong 2 Overflow)) = Err.
Proof.
  conj.
  - intros root b Hr Hu.
    assert (Hb : b = 1 \/ b = 2 \/ b = 3 \/ b = 4).
    { assert (Hr' : root = 1 \/ root = 2 \/ root = 3 \/ root = 4) by (cbn in Hr; intuition). clear Hr. induction Hu as [b|b ks cs c b' E Hc Hu IH]; [exact Hr'|].
      apply IH. rewrite two_inner in E. destruct (_ || _); [|discriminate]. assert (cs = [1; 2]) by congruence. subst cs. cbn in Hc. intuition. }
    split.
    + intros Hl. destruct Hb as [->|[->|[->| ->]]]; try reflexivity; exfalso; apply Hl; vm_compute; reflexivity.
    + intros ks cs c E Hc. rewrite two_inner in E. unfold two_height. destruct (_ || _); [|discriminate]. assert (cs = [1; 2]) by congruence. subst cs.
      cbn in Hc. destruct Hc as [<-|[<-|[]]]; reflexivity.
  - vm_compute; reflexivity.
  - vm_compute; reflexivity.
  - vm_compute; reflexivity.
  - do 2 eexists. split; vm_compute; reflexivity.
  - vm_compute; reflexivity.
  - vm_compute; reflexivity.
  - vm_compute; reflexivity.
Qed.
Print Assumptions C44_shared_leaves_met.
