(** Property C24: examples, and what a round trip does not preserve. *)
From Coq Require Import Permutation.
From Verif Require Import Base Csum_Model Codec_Model Codec_Spec SpaceMap_Model Batcher_Model Builder_Model Builder_Spec Walker_Model ThinOut_Model Restore_Model
  Repair_Model RestoreDoc_Spec ThinCheck_Spec Dump_Model Dump_Spec Dump_Proofs Props_Dump.
From Verif Require Import Props_ThinSumEx.
From Verif Require Props_RestoreDoc.

(** Four devices: two share a leaf with two mappings, two an empty leaf; the first definition
    is not used by any. *)
Definition ex_sb : ir_sb := mkirsb 3 1 None None 128 10 None.
Definition ex_secs : list sect :=
  [SDef 7 [mkmap 0 1 0 1]; SDef 1 [mkmap 0 4 0 2]; SDef 5 [];
   SDev (mkirdev 1 2 0 0 0) [CRef 1]; SDev (mkirdev 2 2 0 0 0) [CRef 1]; SDev (mkirdev 3 0 0 0 0) [CRef 5]; SDev (mkirdev 4 0 0 0 0) [CRef 5]].
Notation ex_run := (Props_RestoreDoc.ex_run no_overrides).
Notation ex_disk es := (wb_disk (r_w (fst (ex_run es)))).
Definition ex_dump (D : disk) : list event * res unit := thin_dump (fun l => l) (fun l => l) 20 (reading 20 D) false false false no_overrides None.
Definition ex_first : list event * res unit := ex_dump (ex_disk (doc_events ex_sb ex_secs ++ [EvEof])).

Definition ex_doc : list event := doc_events ex_sb ex_secs ++ [EvEof].
Definition ex_pool : list pool_dev :=
  [mkpd 1 0 (mkdd 2 0 0 0) [(0, mkbt 4 0); (1, mkbt 5 0)]; mkpd 2 0 (mkdd 2 0 0 0) [(0, mkbt 4 0); (1, mkbt 5 0)]; mkpd 3 0 (mkdd 0 0 0 0) []; mkpd 4 0 (mkdd 0 0 0 0) []].
Lemma ex_sections : sections [] ex_secs (map as_device ex_pool).
Proof.
  assert (Hb : forall b, b < 2 ^ 40 -> bt_range (mkbt b 0)) by (intros b H; unfold bt_range; cbn; lia).
  apply secs_def; [intros []| |].
  { split; [cbn; repeat constructor; lia|]. repeat (apply Forall_cons; [split; [cbn; lia|apply Hb; cbn; lia]|]). apply Forall_nil. }
  apply secs_def; [cbn; intros [H|[]]; discriminate H| |].
  { split; [cbn; repeat constructor; lia|]. repeat (apply Forall_cons; [split; [cbn; lia|apply Hb; cbn; lia]|]). apply Forall_nil. }
  apply secs_def; [cbn; intros [H|[H|[]]]; discriminate H| |].
  { split; [constructor|apply Forall_nil]. }
  cbn [map as_device ex_pool pd_id pd_root pd_detail pd_maps].
  eapply secs_dev with (its := [CRef 1]); [reflexivity| |intros name []|cbn; lia|unfold dd_range; cbn; lia|cbn; intros [H|[H|[H|[]]]]; discriminate H|].
  { split; [cbn; repeat constructor; lia|]. repeat (apply Forall_cons; [split; [cbn; lia|apply Hb; cbn; lia]|]). apply Forall_nil. }
  eapply secs_dev with (its := [CRef 1]); [reflexivity| |intros name []|cbn; lia|unfold dd_range; cbn; lia|cbn; intros [H|[H|[]]]; discriminate H|].
  { split; [cbn; repeat constructor; lia|]. repeat (apply Forall_cons; [split; [cbn; lia|apply Hb; cbn; lia]|]). apply Forall_nil. }
  eapply secs_dev with (its := [CRef 5]); [reflexivity| |intros name []|cbn; lia|unfold dd_range; cbn; lia|cbn; intros [H|[]]; discriminate H|].
  { split; [constructor|apply Forall_nil]. }
  eapply secs_dev with (its := [CRef 5]); [reflexivity| |intros name []|cbn; lia|unfold dd_range; cbn; lia|cbn; intros []|constructor].
  split; [constructor|apply Forall_nil].
Qed.
Lemma ex_fits : sb_fits ex_sb.
Proof. unfold sb_fits, ex_sb. cbn. conj; try lia. exists 1. reflexivity. Qed.
Lemma ex_ok : snd (ex_run ex_doc) = Ok tt.
Proof. vm_compute. reflexivity. Qed.
Definition sizes_ok (D : disk) (n : nat) : bool :=
  forallb (fun b => let x := D b in Nat.eqb (length x) 4096 && forallb (fun x => x <? 256) x) (map N.of_nat (seq 0 n)).
Lemma sizes_ok_spec D n : sizes_ok D n = true -> forall b, b < N.of_nat n -> length (D b) = 4096%nat /\ bytes (D b).
Proof.
  intros H b Hb. unfold sizes_ok in H. rewrite forallb_forall in H. specialize (H b). assert (Hi : In b (map N.of_nat (seq 0 n))).
  { apply in_map_iff. exists (N.to_nat b). split; [lia|]. apply in_seq. lia. }
  apply H in Hi. apply andb_prop in Hi as [H1 H2]. apply Nat.eqb_eq in H1. split; [exact H1|]. rewrite forallb_forall in H2. apply Forall_forall. intros x Hx. apply N.ltb_lt. auto.
Qed.
Lemma ex_blocks : (let D := ex_disk ex_doc in sizes_ok D 20) = true.
Proof. vm_compute. reflexivity. Qed.
Lemma ex_sizes : forall b, b < 20 -> length (ex_disk ex_doc b) = 4096%nat /\ bytes (ex_disk ex_doc b).
Proof. exact (sizes_ok_spec (ex_disk ex_doc) 20 ex_blocks). Qed.
Lemma reading_device nr D : nr < 2 ^ 32 -> (forall b, b < nr -> length (D b) = 4096%nat /\ bytes (D b)) -> device_of nr (reading nr D).
Proof.
  intros Hn H. split; [exact Hn|]. intros b data Hb. unfold reading in Hb. destruct (N.ltb_spec b nr) as [Hlt|]; [|discriminate]. injection Hb as <-. destruct (H b Hlt). auto.
Qed.

(** The metadata that the document above restores to meets the hypotheses of C24_dump and of
    C24_round_trip: four devices, two trees shared by two devices each. *)
Example C24_hypotheses_met : exists sb pool r rest,
  device_of 20 (reading 20 (ex_disk ex_doc)) /\ read_sb (reading 20 (ex_disk ex_doc)) 0 = Ok sb /\ devices_read 20 (reading 20 (ex_disk ex_doc)) sb pool /\
  smroot_unpack (ts_data_sm_root sb) = Ok (r, rest) /\ pool_ok (reading 20 (ex_disk ex_doc)) pool /\ sb_fits (header sb (sr_nr_blocks r)) /\
  map as_device pool = map as_device ex_pool.
Proof.
  destruct (Props_RestoreDoc.pair_snd _ _ ex_ok) as (s & E).
  pose proof (Props_RestoreDoc.ex_run_ok ex_sb ex_secs _ s ex_fits ex_sections E) as R.
  replace (wb_disk (r_w s)) with (ex_disk ex_doc) in R by (rewrite E; reflexivity).
  destruct (restored_pool (ex_disk ex_doc) 20 20 ex_sb ex_pool) as (sb & pool & r & rest & A & B & C & F & G & H);
    [reflexivity|reflexivity|exact ex_sizes|exact R|cbn; repeat constructor|..].
  - repeat (apply Forall_cons; [cbn; lia|]). apply Forall_nil.
  - repeat (apply Forall_cons; [unfold dd_range; cbn; lia|]). apply Forall_nil.
  - repeat (apply Forall_cons; [cbn; repeat (apply Forall_cons; [cbn; lia|]); apply Forall_nil|]). apply Forall_nil.
  - repeat (apply Forall_cons; [cbn; repeat constructor|]). apply Forall_nil.
  - exists sb, pool, r, rest. conj; auto.
    + apply reading_device; [reflexivity|exact ex_sizes].
    + rewrite H. unfold sb_fits, ex_sb. cbn. conj; try lia. exists 1. reflexivity.
Qed.

(** "Dumping again gives the same output" is not so, even when nothing but the output of
    thin_dump is restored and dumped: a definition is named after the block of its leaf, and
    restore does not put the leaves where they were (here nothing refers to the leaf of
    definition 7 any more).  The second dump describes the same devices (C24_round_trip). *)
Definition def_names (es : list event) : list N := flat_map (fun e => match e with EvDefB n => [n] | _ => [] end) es.
Theorem C24_same_output_refuted :
  snd ex_first = Ok tt /\ snd (ex_run (fst ex_first)) = Ok tt /\ snd (ex_dump (ex_disk (fst ex_first))) = Ok tt /\
  def_names (fst ex_first) = [2; 3] /\ def_names (fst (ex_dump (ex_disk (fst ex_first)))) = [1; 2].
Proof. conj; vm_compute; reflexivity. Qed.
Print Assumptions C24_same_output_refuted.

(** The two lists of devices are paired by position, not by id.  Here the tree of details has
    device 1 only and the tree of mappings device 2 only: the dump succeeds, with a device 2
    that has the mappings of device 2 and the details of device 1. *)
Definition mis_disk (b : N) : option (list N) :=
  if b =? 1 then Some (nblk dd_codec (Leaf (mknh 1 true 1 126 24) [1] [mkdd 77 0 0 0]))
  else if b =? 2 then Some (nblk u64_codec (Leaf (mknh 2 true 1 252 8) [2] [3]))
  else if b =? 3 then Some (tleaf 3 [5]) else None.
Definition mis_sb : thin_sb := mktsb false 0 2 0 0 0 (smroot_pack (mksmroot 10 1 0 0)) [] 2 1 128 8.
Theorem C24_misattributed_refuted :
  btree_to_map dd_codec 8 mis_disk true 1 = Ok [(1, mkdd 77 0 0 0)] /\ btree_to_map u64_codec 8 mis_disk true 2 = Ok [(2, 3)] /\
  dump_from 8 mis_disk false None (OnDisk mis_sb) =
    ([EvSbB (header mis_sb 10); EvDevB (mkirdev 2 77 0 0 0); EvMap (mkmap 5 5 0 1); EvDevE; EvSbE; EvEof], Ok tt).
Proof. conj; vm_compute; reflexivity. Qed.
Print Assumptions C24_misattributed_refuted.
