(** C45, continued: nothing of an undamaged pool is missed, and the repair does not panic
    when no pointer leads off the device. *)
From Verif Require Import Base Csum_Model Codec_Model Codec_Spec Codec_Proofs NodeCodec_Proofs Pack_Proofs Walker_Model Restore_Model
  Repair_Model Repair_Spec RepairOrd_Proofs RepairInfo_Proofs RepairRef_Proofs RepairAll_Proofs RepairPanic_Proofs
  Props_Repair Props_RepairSb Props_RepairEx.

(** Whatever else is on the device (older transactions, damaged nodes, loops), every node of
    a pool whose trees are intact is recorded, as what it is and with its keys; and those of
    its nodes that no valid node points to are candidates. *)
Theorem C45_complete : forall nr eng K lvl s devs dets, pool_on nr eng K lvl -> homed eng ->
  collect_infos nr eng = Ok s -> gather_roots nr s = (devs, dets) -> forall b,
  let orphan := forall p, k_infos s p <> None -> ~ child_of eng p b in
  match K b with
  | Some (PDev ks) => exists i, k_infos s b = Some (NDev i) /\ di_b i = b /\ (ks <> [] -> di_low i = hd 0 ks /\ di_high i = last ks 0) /\
      (orphan -> In i devs)
  | Some (PMap ks) => exists i, k_infos s b = Some (NMap i) /\ mi_b i = b /\ (ks <> [] -> mi_low i = hd 0 ks /\ mi_high i = last ks 0)
  | Some (PDet ks) => exists i, k_infos s b = Some (NDet i) /\ ti_b i = b /\ (ks <> [] -> ti_low i = hd 0 ks /\ ti_high i = last ks 0) /\
      (orphan -> In i dets)
  | None => True
  end.
Proof.
  intros nr eng K lvl s devs dets HK Hh E Eg b orphan. destruct (K b) as [p|] eqn:Ek; [|exact I].
  destruct (collect_all nr eng K lvl HK s E b p Ek) as (i & Hi & Hf).
  pose proof (C45_infos_true nr eng s E b) as T. rewrite Hi in T.
  destruct (C45_candidates nr eng s devs dets E Eg) as [Cd Ct].
  destruct p as [ks|ks|ks], i as [i|i|i]; try (exfalso; exact Hf); destruct T as (_ & T & _); apply Hh in T; exists i; conj; auto.
  - intros Ho. apply Cd. exists b. auto.
  - intros Ho. apply Ct. exists b. auto.
Qed.
(** The pool of Props_RepairEx is one. *)
Definition ex_K (b : N) : option part :=
  match b with 1 => Some (PMap [0; 7]) | 3 => Some (PDev [1]) | 5 => Some (PDet [1]) | _ => None end.
Lemma ex_node {V} (c : codec V) b data n : ex_eng b = Some data ->
  match metadata_block_type data with NODE => true | _ => false end = true -> unpack_node_raw c data true true = Ok n -> node_in c ex_eng b n.
Proof. intros H1 H2 H3. exists data. conj; auto. destruct (metadata_block_type data); congruence. Qed.
Example C45_complete_met :
  pool_on 6 ex_eng ex_K (fun b => if b =? 3 then 1%nat else 0%nat) /\ homed ex_eng /\
  match collect_infos 6 ex_eng with Ok s => match k_infos s 3 with Some (NDev i) => di_low i =? 1 | _ => false end | _ => false end = true.
Proof.
  conj; [|exact ex_homed|vm_compute; reflexivity].
  intros b p H. assert (C : (b = 1 /\ p = PMap [0; 7]) \/ (b = 3 /\ p = PDev [1]) \/ (b = 5 /\ p = PDet [1])).
  { unfold ex_K in H. destruct b as [|[[[]|[]|]|[]|]]; try discriminate; assert (I0 : forall a c : part, Some a = Some c -> c = a) by (intros; congruence);
      apply I0 in H; auto. }
  destruct C as [[-> ->]|[[-> ->]|[-> ->]]]; (split; [reflexivity|]; left; cbn [leaf_part]).
  - exists (mknh 1 true 2 252 8), [mkbt 100 1; mkbt 3 2], [1677721601; 50331650]. conj.
    + eapply ex_node; [reflexivity|vm_compute; reflexivity|vm_compute; reflexivity].
    + eapply ex_node; [reflexivity|vm_compute; reflexivity|vm_compute; reflexivity].
    + right. exists 1677721601. split; [left; auto|lia].
  - exists (mknh 3 true 1 252 8), [1]. conj.
    + eapply ex_node; [reflexivity|vm_compute; reflexivity|vm_compute; reflexivity].
    + discriminate.
    + constructor; [|constructor]. exists [0; 7]. split; [reflexivity|]. cbv. lia.
  - exists (mknh 5 true 1 126 24), [mkdd 2 7 1 3].
    eapply ex_node; [reflexivity|vm_compute; reflexivity|vm_compute; reflexivity].
Qed.

(** The recursion is never deeper than the number of blocks (running out of fuel counts as
    a panic in the model), and nothing panics. *)
Theorem C45_no_panic : forall nr eng sd sm, device eng -> pointers_within nr eng -> find_roots nr eng sd sm <> Panic.
Proof.
  intros nr eng sd sm Hd Hp. unfold find_roots. pose proof (collect_fine nr eng Hd Hp) as Hc.
  destruct (collect_infos nr eng) as [s| |]; [|discriminate|congruence]. cbn [bind].
  destruct (gather_roots nr s) as [devs dets]. destruct (find_root_pairs nr eng sd sm devs dets) as [devs' pairs].
  destruct pairs; [|discriminate]. destruct devs' as [|d devs']; [discriminate|]. generalize (d :: devs'). clear.
  assert (P : forall d, to_partial_found_roots nr eng s d <> Panic).
  { intros d. unfold to_partial_found_roots, btree_to_map. destruct (walk _ _ _ _ _ _ _) as [w [e|]]; [discriminate|]. cbn [bind].
    assert (Q : forall l, partial_devices s l <> Panic).
    { induction l as [|[id root] l IH]; cbn [partial_devices]; [discriminate|]. destruct (k_infos s root) as [[]|]; try discriminate.
      destruct (partial_devices s l); cbn [bind]; congruence. }
    specialize (Q (collect_values (w_log w))). destruct (partial_devices s _); cbn [bind]; congruence. }
  induction l as [|x l IH]; cbn [mapM_res]; [discriminate|]. specialize (P x). destruct (to_partial_found_roots nr eng s x); cbn [bind]; try congruence.
  destruct (mapM_res _ l); cbn [bind]; congruence.
Qed.
Example C45_no_panic_met : device ex_eng /\ pointers_within 6 ex_eng.
Proof.
  split; [exact ex_device|].
  assert (C : forall b n, node_in u64_codec ex_eng b n ->
    match n with Leaf _ _ vs => forallb (fun v => v <? 6) vs || existsb (fun v => 6 <? v) vs = true | Internal _ _ _ => False end).
  { intros b n (data & H1 & _ & H2).
    assert (D : forall data, match unpack_node_raw u64_codec data true true with
                | Ok (Leaf _ _ vs) => forallb (fun v => v <? 6) vs || existsb (fun v => 6 <? v) vs | Ok _ => false | _ => true end = true ->
              unpack_node_raw u64_codec data true true = Ok n ->
              match n with Leaf _ _ vs => forallb (fun v => v <? 6) vs || existsb (fun v => 6 <? v) vs = true | Internal _ _ _ => False end).
    { intros l E1 E2. rewrite E2 in E1. destruct n; congruence. }
    apply (D data); [|exact H2]. destruct (ex_cases b data H1) as [[_ ->]|[[_ ->]|[_ ->]]]; vm_compute; reflexivity. }
  intros b. split.
  - intros h ks bs Hn. destruct (C b _ Hn).
  - intros h ks vs Hn Hle Hin. apply C in Hn. apply Bool.orb_true_iff in Hn. destruct Hn as [Hn|Hn].
    + rewrite forallb_forall in Hn. apply Hn in Hin. discriminate.
    + apply existsb_exists in Hn. destruct Hn as (v & Hv & Hl). apply Hle in Hv. apply N.ltb_lt in Hl. lia.
Qed.
