(** C45: thin_repair picks the best compatible roots, and consistent superblock fields. *)
From Coq Require Import Permutation.
From Verif Require Import Base Csum_Model Codec_Model Codec_Spec Codec_Proofs NodeCodec_Proofs Pack_Proofs Walker_Model Restore_Model
  Repair_Model Repair_Spec RepairOrd_Proofs RepairInfo_Proofs.

(** ** The order on candidate roots *)
(** It is a total order on tables of times: exactly one of less, equal, greater; equal
    only for equal tables; transitive. *)
Theorem C45_compare_total_order :
  (forall a b, compare_time_counts b a = CompOpp (compare_time_counts a b)) /\
  (forall a b, compare_time_counts a b = Eq <-> a = b) /\
  (forall a b c, compare_time_counts a b = Lt -> compare_time_counts b c = Lt -> compare_time_counts a c = Lt) /\
  (forall a b c, compare_time_counts a b <> Gt -> compare_time_counts b c <> Gt -> compare_time_counts a c <> Gt).
Proof.
  unfold compare_time_counts.
  assert (Heq : forall a b, compare_rev (rev a) (rev b) = Eq <-> a = b).
  { intros a b. rewrite compare_rev_eq. split; [intros H|intros ->; auto]. rewrite <- (rev_involutive a), H. apply rev_involutive. }
  conj; [intros; apply compare_rev_opp|auto|intros a b c; apply compare_rev_trans|].
  intros a b c H1 H2 H3.
  destruct (compare_rev (rev a) (rev b)) eqn:E1; [|destruct (compare_rev (rev b) (rev c)) eqn:E2|]; try congruence.
  - apply Heq in E1. subst b. congruence.
  - apply Heq in E2. subst c. congruence.
  - pose proof (compare_rev_trans _ _ _ E1 E2). congruence.
Qed.
(** What the order means: the lesser (preferred) root has more mappings at the latest time
    where the two differ. *)
Theorem C45_compare_newest_first : forall a b,
  increasing (map fst a) -> increasing (map fst b) -> (forall tc, In tc a -> 0 < snd tc) -> (forall tc, In tc b -> 0 < snd tc) ->
  compare_time_counts a b = Lt <-> ahead a b.
Proof. intros a b Ha Hb Pa Pb. apply compare_lt_ahead; auto. Qed.
Example C45_compare_met :
  compare_time_counts [(1, 5); (7, 2)] [(1, 9); (3, 1); (7, 1)] = Lt /\ compare_time_counts [(7, 2)] [(1, 5); (7, 2)] = Gt /\
  ahead [(1, 5); (7, 2)] [(7, 2)].
Proof.
  conj; [reflexivity|reflexivity|]. exists 1. split; [reflexivity|]. intros t Ht. unfold count_at. cbn [find fst].
  destruct (N.eqb_spec 1 t); [lia|auto].
Qed.

(** ** The bounds delimit the entries with the key *)
Theorem C45_bounds : forall infos key, by_mappings infos ->
  forall i a, nth_error infos i = Some a ->
  (ti_nr_mappings a < key <-> (i < lower_bound infos key)%nat) /\
  (ti_nr_mappings a = key <-> (lower_bound infos key <= i < upper_bound infos key)%nat).
Proof.
  intros infos key H i a Ha. destruct (lower_upper infos key H) as (_ & B2 & B3). split; [apply B2|apply B3]; auto.
Qed.
Definition ex_det (n : N) : det_info := mkdet 0 1 n 0 0 0 0 false.
Example C45_bounds_met :
  by_mappings (map ex_det [1; 4; 4; 4; 9]) /\ lower_bound (map ex_det [1; 4; 4; 4; 9]) 4 = 1%nat /\
  upper_bound (map ex_det [1; 4; 4; 4; 9]) 4 = 4%nat.
Proof.
  conj; [|reflexivity|reflexivity]. intros i j a b Hij Ha Hb.
  do 5 (destruct i as [|i]; [cbn in Ha; inversion Ha; subst; do 5 (destruct j as [|j]; [cbn in Hb; inversion Hb; subst; cbn; lia|]); cbn in Hb; destruct j; discriminate|]).
  cbn in Ha. destruct i; discriminate.
Qed.

(** ** Sorting *)
Definition sorted_by {A} (le : A -> A -> Prop) (l : list A) : Prop :=
  forall i j a b, (i < j)%nat -> nth_error l i = Some a -> nth_error l j = Some b -> le a b.
(** sort_unstable_by: some permutation in which no element precedes a lesser one. *)
Definition is_sort {A} (le : A -> A -> Prop) (sort : list A -> list A) : Prop :=
  forall l, Permutation l (sort l) /\ sorted_by le (sort l).
Definition dev_le (a b : dev_info) : Prop := compare_time_counts (di_tc a) (di_tc b) <> Gt.
Definition det_le (a b : det_info) : Prop := ti_nr_mappings a <= ti_nr_mappings b.

(** There are such sorts. *)
Fixpoint insert {A} (leb : A -> A -> bool) (x : A) (l : list A) : list A :=
  match l with [] => [x] | y :: r => if leb x y then x :: l else y :: insert leb x r end.
Definition insertion_sort {A} (leb : A -> A -> bool) (l : list A) : list A := fold_right (insert leb) [] l.
Lemma sorted_cons {A} (le : A -> A -> Prop) a l : sorted_by le (a :: l) <-> (forall x, In x l -> le a x) /\ sorted_by le l.
Proof.
  split.
  - intros H. split.
    + intros x Hx. apply In_nth_error in Hx. destruct Hx as [i Hi]. apply (H 0%nat (S i)); auto. lia.
    + intros i j x y Hij Hx Hy. apply (H (S i) (S j)); auto. lia.
  - intros [H1 H2] [|i] [|j] x y Hij Hx Hy; try lia; cbn [nth_error] in *.
    + assert (x = a) by congruence. subst x. apply H1. eapply nth_error_In; eauto.
    + apply (H2 i j); auto. lia.
Qed.
Lemma insertion_sort_ok {A} (le : A -> A -> Prop) (leb : A -> A -> bool) :
  (forall a b, leb a b = true -> le a b) -> (forall a b, leb a b = false -> le b a) -> (forall a b c, le a b -> le b c -> le a c) ->
  is_sort le (insertion_sort leb).
Proof.
  intros H1 H2 H3.
  assert (P : forall x l, Permutation (x :: l) (insert leb x l)).
  { intros x l. induction l as [|y l IH]; cbn [insert]; auto. destruct (leb x y); auto.
    eapply perm_trans; [apply perm_swap|]. constructor. auto. }
  assert (S0 : forall x l, sorted_by le l -> sorted_by le (insert leb x l)).
  { intros x l. induction l as [|y l IH]; intros H; cbn [insert].
    - apply sorted_cons. split; [intros z []|auto].
    - destruct (leb x y) eqn:E.
      + apply sorted_cons. split; [|auto]. intros z [<-|Hz]; [auto|]. apply sorted_cons in H. destruct H as [Hy _].
        eapply H3; [apply H1; eauto|]. auto.
      + apply sorted_cons in H. destruct H as [Hy Hs]. apply sorted_cons. split; [|auto].
        intros z Hz. apply (Permutation_in _ (Permutation_sym (P x l))) in Hz. destruct Hz as [<-|Hz]; auto. }
  intros l. induction l as [|x l [IH1 IH2]]; cbn [insertion_sort fold_right].
  - split; [constructor|]. intros i j a b _ Ha. destruct i; discriminate.
  - split; [|apply S0; auto]. eapply perm_trans; [|apply P]. constructor. auto.
Qed.
Definition sort_devs : list dev_info -> list dev_info :=
  insertion_sort (fun a b => match compare_time_counts (di_tc a) (di_tc b) with Gt => false | _ => true end).
Definition sort_details : list det_info -> list det_info := insertion_sort (fun a b => ti_nr_mappings a <=? ti_nr_mappings b).
Lemma sorts_exist : is_sort dev_le sort_devs /\ is_sort det_le sort_details.
Proof.
  destruct C45_compare_total_order as (O1 & O2 & _ & O4). split; apply insertion_sort_ok; unfold dev_le, det_le.
  - intros a b. destruct (compare_time_counts _ _); congruence.
  - intros a b H. rewrite O1. destruct (compare_time_counts (di_tc a) (di_tc b)); cbn; congruence.
  - intros a b c. apply O4.
  - intros a b H. apply N.leb_le in H. auto.
  - intros a b H. apply N.leb_gt in H. lia.
  - intros a b c. lia.
Qed.

(** ** The pairs *)
Section Pairs.
Context (nr : N) (eng : N -> option (list N)) (sd : list dev_info -> list dev_info) (sm : list det_info -> list det_info).
Hypothesis Hsd : is_sort dev_le sd.
Hypothesis Hsm : is_sort det_le sm.

Lemma pairs_sorted ts : forall l, sorted_by dev_le l -> sorted_by (fun p q => dev_le (fst p) (fst q))
      (flat_map (fun dev => map (fun det => (dev, det)) (filter (fun det => devices_identical nr eng true (di_b dev) (ti_b det))
         (firstn (upper_bound ts (di_nr_mappings dev) - lower_bound ts (di_nr_mappings dev))
            (skipn (lower_bound ts (di_nr_mappings dev)) ts)))) l).
Proof using.
    induction l as [|dev l IH]; intros H; [intros i j a b _ Ha; destruct i; discriminate|]. cbn [flat_map].
    apply sorted_cons in H. destruct H as [H1 H2]. specialize (IH H2).
    assert (Hall : forall q, In q (flat_map (fun dev => map (fun det => (dev, det)) (filter (fun det => devices_identical nr eng true (di_b dev) (ti_b det))
         (firstn (upper_bound ts (di_nr_mappings dev) - lower_bound ts (di_nr_mappings dev))
            (skipn (lower_bound ts (di_nr_mappings dev)) ts)))) l) -> dev_le dev (fst q)).
    { intros q Hq. apply in_flat_map in Hq. destruct Hq as (dv & Hdv & Hq). apply in_map_iff in Hq. destruct Hq as (dt & <- & _). apply H1. auto. }
    generalize dependent (flat_map (fun dev => map (fun det => (dev, det)) (filter (fun det => devices_identical nr eng true (di_b dev) (ti_b det))
         (firstn (upper_bound ts (di_nr_mappings dev) - lower_bound ts (di_nr_mappings dev))
            (skipn (lower_bound ts (di_nr_mappings dev)) ts)))) l). intros rest IH Hall.
    generalize (filter (fun det => devices_identical nr eng true (di_b dev) (ti_b det))
         (firstn (upper_bound ts (di_nr_mappings dev) - lower_bound ts (di_nr_mappings dev))
            (skipn (lower_bound ts (di_nr_mappings dev)) ts))). 
    induction l0 as [|dt l0 IH0]; cbn [map app]; [auto|]. apply sorted_cons. split; [|auto].
    intros q Hq. apply in_app_iff in Hq. destruct Hq as [Hq|Hq]; [|apply Hall; auto].
    apply in_map_iff in Hq. destruct Hq as (dt' & <- & _). cbn [fst]. unfold dev_le.
    destruct C45_compare_total_order as (_ & O2 & _). rewrite (proj2 (O2 _ _) eq_refl). discriminate.
Qed.

(** The pairs are exactly the compatible ones: the same number of mappings, the same
    devices, and a number of devices that some mapping tree has; those whose mapping tree
    is the most recent come first. *)
Theorem C45_pairs : forall devs dets devs' pairs, find_root_pairs nr eng sd sm devs dets = (devs', pairs) ->
  (forall dev det, In (dev, det) pairs <->
     In dev devs /\ In det dets /\ di_nr_mappings dev = ti_nr_mappings det /\
     (exists dev', In dev' devs /\ di_nr_devices dev' = ti_nr_devices det) /\
     devices_identical nr eng true (di_b dev) (ti_b det) = true) /\
  (forall i j p q, (i < j)%nat -> nth_error pairs i = Some p -> nth_error pairs j = Some q -> dev_le (fst p) (fst q)) /\
  Permutation devs devs'.
Proof using Hsd Hsm.
  intros devs dets devs' pairs E. unfold find_root_pairs in E. injection E as E1 E2.
  destruct (Hsd devs) as [Pd Sd]. set (ds := sd devs) in *.
  set (F := filter_details_roots dets (nodup N.eq_dec (map di_nr_devices ds))) in *.
  destruct (Hsm F) as [Pm Sm]. set (ts := sm F) in *.
  assert (Hby : by_mappings ts).
  { intros i j a b Hij Ha Hb. destruct (Nat.eq_dec i j) as [->|Hn]; [assert (a = b) by congruence; subst; lia|]. apply (Sm i j); auto. lia. }
  conj; [| |subst devs'; auto].
  - intros dev det. subst pairs. rewrite in_flat_map. split.
    + intros (dv & Hdv & Hin). apply in_map_iff in Hin. destruct Hin as (dt & Hp & Hf). assert (dv = dev) by congruence. assert (dt = det) by congruence. subst dv dt.
      apply filter_In in Hf. destruct Hf as [Hf Hid]. apply (bounds_in ts _ _ Hby) in Hf. destruct Hf as [Hf Hn].
      apply (Permutation_in _ (Permutation_sym Pm)) in Hf. unfold F, filter_details_roots in Hf. apply filter_In in Hf. destruct Hf as [Hf Hd].
      conj; auto.
      * apply (Permutation_in _ (Permutation_sym Pd)). auto.
      * apply existsb_exists in Hd. destruct Hd as (x & Hx & Hy). apply N.eqb_eq in Hy. apply nodup_In, in_map_iff in Hx.
        destruct Hx as (dev' & D1 & D2). exists dev'. split; [|congruence]. apply (Permutation_in _ (Permutation_sym Pd)). auto.
    + intros (H1 & H2 & H3 & (dev' & H4 & H5) & H6). exists dev. split; [apply (Permutation_in _ Pd); auto|].
      apply in_map_iff. exists det. split; [auto|]. apply filter_In. split; [|auto]. apply bounds_in; auto. split; [|auto].
      apply (Permutation_in _ Pm). unfold F, filter_details_roots. apply filter_In. split; [auto|].
      apply existsb_exists. exists (ti_nr_devices det). split; [|apply N.eqb_refl]. apply nodup_In, in_map_iff. exists dev'.
      split; [auto|]. apply (Permutation_in _ Pd). auto.
  - subst pairs. exact (pairs_sorted ts ds Sd).
Qed.
End Pairs.
