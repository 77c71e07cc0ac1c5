(** Property C26: a pool and two devices that meet the hypotheses of C26_command. *)
From Verif Require Import Base Csum_Model Codec_Model Codec_Spec SpaceMap_Model Builder_Model Builder_Spec Walker_Model ThinOut_Model ThinOut_Spec Restore_Model Repair_Model RestoreDoc_Spec
  Rmap_Model Delta_Model Props_Delta Props_Dump Props_ThinSumEx Props_LsEx.

(** Device 10 and its snapshot, device 20: they share leaf 4; thin blocks 200 to 209 are only in the
    first, 326 to 335 only in the second, and 300 to 325 have other data blocks in the second. *)
Definition ks9 : list N := Eval vm_compute in range 210 336.
Definition vs9 : list block_time := Eval vm_compute in map (fun k => mkbt (if k <? 300 then k else k + 1000) 0) ks9.
Definition dl_disk : list (N * list N) := Eval vm_compute in
  [(0, match thin_write_superblock (fun _ => []) 0 sb3 with Ok d => d 0 | _ => [] end);
   (1, nblk dd_codec (Leaf (mknh 1 true 2 126 24) [10; 20] [det 252; det 252]));
   (2, nblk u64_codec (Leaf (mknh 2 true 2 252 8) [10; 20] [6; 8]));
   (6, tnode 6 [(0, 4); (200, 7)]); (8, tnode 8 [(0, 4); (210, 9)]); (4, tleaf 4 (range 0 126)); (7, tleaf 7 (range 200 326));
   (9, nblk bt_codec (Leaf (mknh 9 true 126 252 8) ks9 vs9))].
Definition dl_eng := on_disk dl_disk.
Definition dl_D : disk := fun b => match dl_eng b with Some l => l | None => repeat 0 4096 end.
Lemma dl_holds {V} (c : codec V) b (n : node V) :
  forallb (fun x => x <? 256) (dl_D b) && (nlen (dl_D b) =? 4096) = true ->
  (check_and_unpack_node c (mkblock b (dl_D b)) true true = Ok n /\ check_and_unpack_node c (mkblock b (dl_D b)) true false = Ok n /\ check_and_unpack_node c (mkblock b (dl_D b)) false true = Ok n) ->
  (check_and_unpack_node c (mkblock b (dl_D b)) false false = Ok n \/ nh_nr_entries (get_header n) < nh_max_entries (get_header n) / 3) -> holds c dl_D b n.
Proof.
  intros H (H1 & H2 & H3) H4. apply andb_prop in H as [Hb Hl]. split; [|split; [apply N.eqb_eq; exact Hl|]].
  - apply Forall_forall. intros x Hx. rewrite forallb_forall in Hb. apply N.ltb_lt. auto.
  - intros [] [] Hr; auto. specialize (Hr eq_refl eq_refl). destruct H4 as [H4|H4]; [exact H4|]. apply N.lt_nge in H4. contradiction.
Qed.
Ltac dlh := apply dl_holds; [vm_compute; reflexivity|vm_compute; repeat split; reflexivity|solve [left; vm_compute; reflexivity|right; vm_compute; reflexivity]].
Definition dl_left : list (N * block_time) := Eval vm_compute in mapped (range 0 126) ++ mapped (range 200 326).
Definition dl_right : list (N * block_time) := Eval vm_compute in mapped (range 0 126) ++ combine ks9 vs9.
Lemma small_ok (l : list (N * block_time)) : increasing (map fst l) -> forallb (fun e => (fst e <? 2000) && (bt_block (snd e) <? 2000)) l = true -> mappings_ok l.
Proof.
  intros Hi Hb. split; auto. rewrite forallb_forall in Hb. apply Forall_forall. intros e He. apply Hb in He. apply andb_prop in He as [H1 H2]. apply N.ltb_lt in H1, H2.
  split; [eapply N.lt_trans; [exact H1|reflexivity]|eapply N.lt_trans; [exact H2|reflexivity]].
Qed.
Example C26_hypotheses_met : exists r rest,
  superblock_for dl_eng false sb3 /\ pool_of dl_D 16 dl_eng sb3 [(10, 6); (20, 8)] [(10, det 252); (20, det 252)] /\
  smroot_unpack (ts_data_sm_root sb3) = Ok (r, rest) /\ side dl_D 16 dl_eng [(10, 6); (20, 8)] (DeviceId 10) dl_left /\ side dl_D 16 dl_eng [(10, 6); (20, 8)] (RootBlock 8) dl_right.
Proof.
  destruct (smroot_unpack (ts_data_sm_root sb3)) as [[r rest]| |] eqn:E; [|exfalso; vm_compute in E; discriminate..].
  exists r, rest.
  assert (HB : forall fs, forallb (fun b => (b <? 16) && existsb (fun e => fst e =? b) dl_disk) fs = true -> forall b, In b fs -> b < 16 /\ dl_eng b = Some (dl_D b)).
  { intros fs Hf b Hb. rewrite forallb_forall in Hf. apply Hf in Hb. apply andb_prop in Hb as [H1 H2]. split; [apply N.ltb_lt; exact H1|].
    unfold dl_D. destruct (dl_eng b) eqn:Ed; [reflexivity|]. exfalso. apply existsb_exists in H2 as (e & He & Hk). apply N.eqb_eq in Hk. subst b.
    cbn [In dl_disk] in He. revert Ed. unfold dl_disk in He. repeat (destruct He as [<-|He]; [vm_compute; discriminate|]). destruct He. }
  assert (L4 : tree bt_codec dl_D false 0 4 (mapped (range 0 126)) [4]).
  { exists (mknh 4 true 126 252 8), (range 0 126), (map (fun k => mkbt k 0) (range 0 126)). conj; try reflexivity; try (vm_compute; congruence). dlh. }
  conj.
  - vm_compute. reflexivity.
  - split.
    + exists 0%nat, [2]. conj.
      * exists (mknh 2 true 2 252 8), [10; 20], [6; 8]. conj; try reflexivity; try (vm_compute; congruence). dlh.
      * repeat constructor; intros [].
      * apply HB. reflexivity.
    + exists 0%nat, [1]. conj.
      * exists (mknh 1 true 2 126 24), [10; 20], [det 252; det 252]. conj; try reflexivity; try (vm_compute; congruence). dlh.
      * repeat constructor; intros [].
      * apply HB. reflexivity.
    + split; vm_compute; auto.
  - reflexivity.
  - exists 6, 1%nat, [6; 4; 7]. conj.
    + right. exists 10. split; [reflexivity|left; reflexivity].
    + exists (mknh 6 false 2 252 8), [(0, 4); (200, 7)], [(mapped (range 0 126), [4]); (mapped (range 200 326), [7])]. conj; try reflexivity; try (vm_compute; congruence).
      * dlh.
      * constructor; [conj; [discriminate|reflexivity|exact L4]|]. constructor; [conj; [discriminate|reflexivity|]|constructor].
        exists (mknh 7 true 126 252 8), (range 200 326), (map (fun k => mkbt k 0) (range 200 326)). conj; try reflexivity; try (vm_compute; congruence). dlh.
    + vm_compute. repeat (constructor; [intros H; repeat (destruct H as [H|H]; [discriminate H|]); exact H|]). constructor.
    + apply HB. reflexivity.
    + apply small_ok; [vm_compute; repeat split|reflexivity].
  - exists 8, 1%nat, [8; 4; 9]. conj.
    + left. reflexivity.
    + exists (mknh 8 false 2 252 8), [(0, 4); (210, 9)], [(mapped (range 0 126), [4]); (combine ks9 vs9, [9])]. conj; try reflexivity; try (vm_compute; congruence).
      * dlh.
      * constructor; [conj; [discriminate|reflexivity|exact L4]|]. constructor; [conj; [discriminate|reflexivity|]|constructor].
        exists (mknh 9 true 126 252 8), ks9, vs9. conj; try reflexivity; try (vm_compute; congruence). dlh.
    + vm_compute. repeat (constructor; [intros H; repeat (destruct H as [H|H]; [discriminate H|]); exact H|]). constructor.
    + apply HB. reflexivity.
    + apply small_ok; [vm_compute; repeat split|reflexivity].
Qed.
Print Assumptions C26_hypotheses_met.
(** What is written, and the refusal of a device that does not exist. *)
Example C26_written :
  delta_cmd 16 dl_eng false (DeviceId 10) (DeviceId 20) =
    Ok (mkirsb 0 0 None (Some 2) 128 300 None,
        [Same (mkdm 0 0 126); LeftOnly (mkdm 200 200 10); Same (mkdm 210 210 90); Differ 300 300 1300 26; RightOnly (mkdm 326 1326 10)]) /\
  delta_cmd 16 dl_eng false (DeviceId 10) (DeviceId 30) = Err.
Proof. vm_compute. split; reflexivity. Qed.
