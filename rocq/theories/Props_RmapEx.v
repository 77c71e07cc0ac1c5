(** Property C46: a pool that meets the hypotheses of C46_command. *)
From Verif Require Import Base Csum_Model Codec_Model Codec_Spec SpaceMap_Model Builder_Model Builder_Spec Walker_Model ThinOut_Model ThinOut_Spec Restore_Model Repair_Model RestoreDoc_Spec
  Rmap_Model Props_Rmap Props_Dump Props_ThinSumEx Props_LsEx.

(** Devices 10 and 20, the second with a tree of two leaves; both map to data blocks 100 to 103. *)
Definition rm_disk : list (N * list N) := Eval vm_compute in
  [(0, match thin_write_superblock (fun _ => []) 0 sb3 with Ok d => d 0 | _ => [] end);
   (2, nblk u64_codec (Leaf (mknh 2 true 2 252 8) [10; 20] [3; 6])); (3, tleaf 3 (range 100 104));
   (6, tnode 6 [(0, 4); (200, 7)]); (4, tleaf 4 (range 0 126)); (7, tleaf 7 (range 200 326))].
Definition rm_eng := on_disk rm_disk.
Definition rm_D : disk := fun b => match rm_eng b with Some l => l | None => repeat 0 4096 end.
Lemma rm_holds {V} (c : codec V) b (n : node V) :
  forallb (fun x => x <? 256) (rm_D b) && (nlen (rm_D b) =? 4096) = true ->
  (check_and_unpack_node c (mkblock b (rm_D b)) true true = Ok n /\ check_and_unpack_node c (mkblock b (rm_D b)) true false = Ok n /\ check_and_unpack_node c (mkblock b (rm_D b)) false true = Ok n) ->
  (check_and_unpack_node c (mkblock b (rm_D b)) false false = Ok n \/ nh_nr_entries (get_header n) < nh_max_entries (get_header n) / 3) -> holds c rm_D b n.
Proof.
  intros H (H1 & H2 & H3) H4. apply andb_prop in H as [Hb Hl]. split; [|split; [apply N.eqb_eq; exact Hl|]].
  - apply Forall_forall. intros x Hx. rewrite forallb_forall in Hb. apply N.ltb_lt. auto.
  - intros [] [] Hr; auto. specialize (Hr eq_refl eq_refl). destruct H4 as [H4|H4]; [exact H4|]. apply N.lt_nge in H4. contradiction.
Qed.
Definition rm_trees : list dtree :=
  [mkdt (mkdev 10 (det 4) (mapped (range 100 104))) 3 0 [3];
   mkdt (mkdev 20 (det 168) (mapped (range 0 126) ++ mapped (range 200 326))) 6 1 [6; 4; 7]].
Ltac rmh := apply rm_holds; [vm_compute; reflexivity|vm_compute; repeat split; reflexivity|solve [left; vm_compute; reflexivity|right; vm_compute; reflexivity]].
Example C46_hypotheses_met : exists sb depth fm,
  read_sb rm_eng 0 = Ok sb /\ tree u64_codec rm_D true depth (ts_mapping_root sb) (map (fun t => (dv_id (dt_dev t), dt_root t)) rm_trees) fm /\ NoDup fm /\
  increasing (map (fun t => dv_id (dt_dev t)) rm_trees) /\ Forall (fun t => dv_id (dt_dev t) < 2 ^ 32) rm_trees /\
  Forall (fun t => tree bt_codec rm_D true (dt_depth t) (dt_root t) (dv_maps (dt_dev t)) (dt_foot t) /\ mappings_ok (dv_maps (dt_dev t))) rm_trees /\
  NoDup (flat_map dt_foot rm_trees) /\ (forall b, In b (fm ++ flat_map dt_foot rm_trees) -> b < 16 /\ rm_eng b = Some (rm_D b)).
Proof.
  assert (HM : forall l, increasing (map fst (mapped l)) -> forallb (fun k => k <? 1000) l = true -> mappings_ok (mapped l)).
  { intros l Hi Hb. split; auto. rewrite forallb_forall in Hb. unfold mapped. apply Forall_forall. intros [k v] Hin. pose proof (in_combine_l _ _ _ _ Hin) as Hk. apply in_combine_r in Hin.
    apply in_map_iff in Hin as (k' & <- & Hk'). apply Hb in Hk, Hk'. apply N.ltb_lt in Hk, Hk'. cbn [fst snd bt_block]. split; [eapply N.lt_trans; [exact Hk|reflexivity]|eapply N.lt_trans; [exact Hk'|reflexivity]]. }
  exists sb3, 0%nat, [2]. conj.
  - vm_compute. reflexivity.
  - exists (mknh 2 true 2 252 8), [10; 20], [3; 6]. conj; try reflexivity; try (vm_compute; congruence). rmh.
  - repeat constructor; intros [].
  - vm_compute. auto.
  - repeat (apply Forall_cons; [reflexivity|]). apply Forall_nil.
  - apply Forall_cons; [|apply Forall_cons; [|apply Forall_nil]]; cbn [dt_depth dt_root dt_dev dv_maps dt_foot]; split.
    + exists (mknh 3 true 4 252 8), (range 100 104), (map (fun k => mkbt k 0) (range 100 104)). conj; try reflexivity; try (vm_compute; congruence). rmh.
    + apply HM; [vm_compute; auto|reflexivity].
    + exists (mknh 6 false 2 252 8), [(0, 4); (200, 7)], [(mapped (range 0 126), [4]); (mapped (range 200 326), [7])]. conj; try reflexivity; try (vm_compute; congruence).
      * rmh.
      * repeat (constructor; [conj; [discriminate|reflexivity|]|]); [| |constructor].
        -- exists (mknh 4 true 126 252 8), (range 0 126), (map (fun k => mkbt k 0) (range 0 126)). conj; try reflexivity; try (vm_compute; congruence). rmh.
        -- exists (mknh 7 true 126 252 8), (range 200 326), (map (fun k => mkbt k 0) (range 200 326)). conj; try reflexivity; try (vm_compute; congruence). rmh.
    + assert (E : mapped (range 0 126) ++ mapped (range 200 326) = mapped (range 0 126 ++ range 200 326)) by (vm_compute; reflexivity).
      rewrite E. apply HM; [vm_compute; repeat split|reflexivity].
  - vm_compute. repeat (constructor; [intros H; repeat (destruct H as [H|H]; [discriminate H|]); exact H|]). constructor.
  - intros b Hb. cbn in Hb. repeat (destruct Hb as [<-|Hb]; [split; [reflexivity|vm_compute; reflexivity]|]). destruct Hb.
Qed.
Print Assumptions C46_hypotheses_met.
(** What is printed for data blocks 100 to 101 and from 210 on. *)
Example C46_printed : rmap_cmd 16 rm_eng [(100, 102); (210, 2000)] = Ok [mkrr 100 102 10 100; mkrr 100 102 20 100; mkrr 210 326 20 210].
Proof. vm_compute. reflexivity. Qed.
