From Verif Require Import Base Codec_Model Pack_Proofs Io_Model Io_Spec.

(** ** generate_runs *)
Fixpoint wf_ops (ops : list run_op) : Prop :=
  match ops with
  | [] => True
  | Run b e :: r => b < e /\ wf_ops r
  | Gap b e :: r => b <= e /\ match r with Run b' _ :: _ => b' = e | _ => False end /\ wf_ops r
  end.
Fixpoint chained (l : N) (ops : list run_op) : Prop :=
  match ops with [] => True | o :: r => op_begin o = l /\ chained (op_end o) r end.
Fixpoint end_of (l : N) (ops : list run_op) : N :=
  match ops with [] => l | o :: r => end_of (op_end o) r end.

Lemma run_blocks_app a b : run_blocks (a ++ b) = run_blocks a ++ run_blocks b.
Proof. apply flat_map_app. Qed.
Lemma all_blocks_app a b : all_blocks (a ++ b) = all_blocks a ++ all_blocks b.
Proof. apply flat_map_app. Qed.
Lemma run_blocks_cons o a : run_blocks (o :: a) = match o with Run b e => range b e | Gap _ _ => [] end ++ run_blocks a.
Proof. reflexivity. Qed.
Lemma end_of_app l a b : end_of l (a ++ b) = end_of (end_of l a) b.
Proof. revert l; induction a; intros; cbn; auto. Qed.
Lemma chained_app l a b : chained l (a ++ b) <-> chained l a /\ chained (end_of l a) b.
Proof. revert l; induction a; intros; cbn; [tauto|]. rewrite IHa. tauto. Qed.

Lemma find_runs_loop_spec thr : forall blocks b e, b < e ->
  run_blocks (find_runs_loop thr (b, e) blocks) = range b e ++ blocks /\
  wf_ops (find_runs_loop thr (b, e) blocks) /\
  (exists e' t, find_runs_loop thr (b, e) blocks = Run b e' :: t) /\
  Forall (fun o => match o with Gap x y => 1 <= y - x <= thr | _ => True end) (find_runs_loop thr (b, e) blocks).
Proof.
  induction blocks as [|x r IH]; intros b e Hb; cbn [find_runs_loop fst snd].
  - conj; cbn; auto; eauto.
  - assert (Rx : range x (x + 1) = [x]).
    { rewrite range_cons by lia. rewrite range_nil by lia. reflexivity. }
    destruct (IH x (x + 1)) as (A & B & (e' & t & C) & D); [lia|].
    destruct (N.ltb_spec e x); [destruct (N.ltb_spec thr (x - e))|destruct (N.eqb_spec x e)].
    + rewrite run_blocks_cons, A, Rx. conj; cbn [wf_ops]; auto; eauto.
    + rewrite !run_blocks_cons, A, Rx. cbn [app]. split; [reflexivity|].
      split; [|split; [eauto|constructor; auto; constructor; auto; lia]].
      cbn [wf_ops]. conj; auto; try lia. rewrite C. reflexivity.
    + subst. destruct (IH b (e + 1)) as (A' & B' & C' & D'); [lia|].
      rewrite A'. conj; auto. rewrite (range_app b e (e + 1)) by lia.
      rewrite Rx, <- app_assoc. reflexivity.
    + rewrite run_blocks_cons, A, Rx. conj; cbn [wf_ops]; auto; eauto.
Qed.

Lemma find_runs_spec blocks thr :
  run_blocks (find_runs blocks thr) = blocks /\ wf_ops (find_runs blocks thr) /\
  Forall (fun o => match o with Gap x y => 1 <= y - x <= thr | _ => True end) (find_runs blocks thr).
Proof.
  destruct blocks as [|b r]; cbn [find_runs]; [conj; auto; constructor|].
  destruct (find_runs_loop_spec thr r b (b + 1)) as (A & B & _ & D); [lia|].
  rewrite A. conj; auto. rewrite range_cons by lia. rewrite range_nil by lia. reflexivity.
Qed.

Lemma wf_split a : forall l o r, wf_ops (a ++ o :: r) -> end_of l a <> op_begin o ->
  wf_ops a /\ wf_ops (o :: r).
Proof.
  induction a as [|x a IH]; intros l o r W E; [split; auto; exact I|].
  cbn [app] in W. cbn [end_of] in E.
  destruct x as [b e|b e]; cbn [op_end] in E.
  - destruct W as [W1 W2]. destruct (IH _ _ _ W2 E). split; [split|]; auto.
  - destruct W as (W1 & W2 & W3). destruct (IH _ _ _ W3 E) as [P Q]. cbn [wf_ops]. conj; auto.
    destruct a as [|[b' e'|b' e'] a]; cbn [app] in W2; auto.
    destruct o; [|contradiction]. cbn in E. congruence.
Qed.

Definition batch_ok (b : list run_op) : Prop :=
  match b with [] => False | o :: _ => chained (op_begin o) b /\ wf_ops b end.

Lemma batch_loop_spec : forall runs o a, wf_ops (o :: a ++ runs) -> chained (op_begin o) (o :: a) ->
  concat (batch_loop (o :: a) (end_of 0 (o :: a)) runs) = o :: a ++ runs /\
  Forall batch_ok (batch_loop (o :: a) (end_of 0 (o :: a)) runs).
Proof.
  induction runs as [|x r IH]; intros o a W C; cbn [batch_loop].
  - rewrite app_nil_r in *. cbn [concat app]. rewrite app_nil_r. split; auto.
    constructor; auto. split; auto.
  - destruct (N.eqb_spec (op_begin x) (end_of 0 (o :: a))).
    + specialize (IH o (a ++ [x])). rewrite <- app_assoc in IH. cbn [app] in IH.
      replace (end_of 0 (o :: a ++ [x])) with (op_end x) in IH.
      2:{ change (o :: a ++ [x]) with ((o :: a) ++ [x]). rewrite end_of_app. reflexivity. }
      apply IH; auto. change (o :: a ++ [x]) with ((o :: a) ++ [x]). apply chained_app. split; auto.
      cbn. auto.
    + destruct (wf_split (o :: a) 0 x r) as [W1 W2]; auto.
      specialize (IH x []). cbn [app] in IH. destruct IH as [P Q]; auto; [cbn; auto|].
      cbn [end_of] in P, Q. cbn [concat]. rewrite P. split; auto.
      constructor; auto. split; auto.
Qed.

Lemma batch_adjacent_spec runs : wf_ops runs ->
  concat (batch_adjacent runs) = runs /\ Forall batch_ok (batch_adjacent runs).
Proof.
  destruct runs as [|o r]; cbn [batch_adjacent]; intros W; [split; auto|].
  destruct (batch_loop_spec r o []) as [A B]; cbn; auto.
Qed.

(** split *)
Definition good_batch (max : N) (b : list run_op) : Prop :=
  match b with
  | [] => False
  | o :: _ => chained (op_begin o) b /\ Forall (fun o => op_begin o <= op_end o) b /\
              1 <= ops_blocks b <= max
  end.

Lemma ops_blocks_app a b : ops_blocks (a ++ b) = ops_blocks a + ops_blocks b.
Proof. unfold ops_blocks. induction a as [|x a IH]; cbn [app fold_right]; [lia|]. rewrite IH. lia. Qed.
Lemma ops_blocks_cons o b : ops_blocks (o :: b) = (op_end o - op_begin o) + ops_blocks b.
Proof. reflexivity. Qed.

Lemma good_batch_snoc max batch o : 
  match batch with [] => True | x :: _ => chained (op_begin x) batch /\ end_of 0 batch = op_begin o end ->
  Forall (fun o => op_begin o <= op_end o) batch -> op_begin o <= op_end o ->
  1 <= ops_blocks batch + (op_end o - op_begin o) <= max -> good_batch max (batch ++ [o]).
Proof.
  intros C F Ho L. destruct batch as [|x batch]; cbn [app good_batch].
  - conj; auto; try (split; auto; exact I); rewrite ops_blocks_cons; cbn in *; lia.
  - destruct C as [C E]. split; [|split; [|split]].
    + split; [reflexivity|]. change (chained (end_of 0 [x]) (batch ++ [o])). apply chained_app. split; [apply C|].
      cbn. split; auto.
    + change (x :: batch ++ [o]) with ((x :: batch) ++ [o]). apply Forall_app. split; auto.
    + change (x :: batch ++ [o]) with ((x :: batch) ++ [o]). rewrite ops_blocks_app. cbn [ops_blocks fold_right] in *. lia.
    + change (x :: batch ++ [o]) with ((x :: batch) ++ [o]). rewrite ops_blocks_app. cbn [ops_blocks fold_right] in *. lia.
Qed.

Definition opt_ops (op : option run_op) (ops : list run_op) := match op with Some o => o :: ops | None => [] end.

Lemma split_loop_spec max (Hm : 1 <= max) : forall fuel op ops remaining batch,
  let todo := opt_ops op ops in
  wf_ops todo -> (match op with None => ops = [] | _ => True end) ->
  (match op with Some o => chained (op_begin o) todo | None => True end) ->
  (N.to_nat (ops_blocks todo) + length todo < fuel)%nat ->
  1 <= remaining -> remaining + ops_blocks batch = max ->
  Forall (fun o => op_begin o <= op_end o) batch ->
  match batch with [] => True | x :: _ => chained (op_begin x) batch /\
     match op with Some o => end_of 0 batch = op_begin o | None => 1 <= ops_blocks batch end end ->
  exists r, split_loop fuel max op ops remaining batch = Ok r /\
    Forall (good_batch max) r /\
    run_blocks (concat r) = run_blocks batch ++ run_blocks todo.
Proof.
  induction fuel as [|f IH]; intros op ops remaining batch todo W Ho Ch Hf Hr Ht Fb Cb; [lia|].
  cbn [split_loop]. destruct op as [o|].
  2:{ subst todo; cbn [opt_ops]. eexists. split; [reflexivity|]. cbn [run_blocks flat_map]. rewrite app_nil_r.
      destruct batch as [|x batch]; [split; [constructor|reflexivity]|].
      split; [|cbn [concat]; rewrite app_nil_r; reflexivity].
      constructor; auto. cbn [good_batch]. conj; auto; try apply Cb; lia. }
  subst todo; cbn [opt_ops] in *.
  (* what split_op does *)
  assert (S : exists first rest rem, split_op o remaining = (first, rest, rem) /\
     op_begin first = op_begin o /\ op_begin first <= op_end first /\
     rem + (op_end first - op_begin first) = remaining /\
     match rest with
     | None => first = o /\ (match o with Gap _ _ => 1 <= rem | Run _ _ => True end)
     | Some x => op_begin x = op_end first /\ op_end x = op_end o /\ rem = 0 /\ 
                 wf_ops (x :: ops) /\ run_blocks [first] ++ run_blocks [x] = run_blocks [o] /\
                 ops_blocks [x] + remaining = ops_blocks [o]
     end).
  { destruct o as [b e|b e]; cbn [split_op].
    - cbn [wf_ops] in W. destruct (N.leb_spec (e - b) remaining).
      + eexists _, _, _. split; [reflexivity|]. cbn. conj; auto; lia.
      + eexists _, _, _. split; [reflexivity|]. cbn [op_begin op_end wf_ops ops_blocks fold_right run_blocks flat_map].
        conj; try lia; try tauto. rewrite !app_nil_r. symmetry. apply range_app; lia.
    - cbn [wf_ops] in W. destruct (N.ltb_spec (e - b) remaining).
      + eexists _, _, _. split; [reflexivity|]. cbn. conj; auto; lia.
      + eexists _, _, _. split; [reflexivity|]. cbn [op_begin op_end wf_ops ops_blocks fold_right run_blocks flat_map].
        conj; try lia; try tauto. }
  destruct S as (first & rest & rem & -> & F1 & F2 & F3 & F4).
  set (nx := match rest with Some x => (Some x, ops) | None => match ops with [] => (None, []) | x :: t => (Some x, t) end end).
  assert (N1 : wf_ops (opt_ops (fst nx) (snd nx)) /\
     (match fst nx with None => snd nx = [] | _ => True end) /\
     (match fst nx with Some y => chained (op_begin y) (y :: snd nx) /\ op_begin y = op_end first | None => True end) /\
     (N.to_nat (ops_blocks (opt_ops (fst nx) (snd nx))) + length (opt_ops (fst nx) (snd nx)) < f)%nat /\
     run_blocks [first] ++ run_blocks (opt_ops (fst nx) (snd nx)) = run_blocks (o :: ops) /\
     (fst nx = None -> 1 <= op_end first - op_begin first)).
  { subst nx. cbn [length] in Hf. rewrite ops_blocks_cons in Hf. destruct rest as [x|]; cbn [fst snd opt_ops].
    - destruct F4 as (G1 & G2 & G3 & G4 & G5 & G6). conj; auto.
      + cbn [chained] in *. split; [reflexivity|]. rewrite G2. apply Ch.
      + rewrite ops_blocks_cons in *. cbn [ops_blocks fold_right length] in *. fold ops_blocks in *. lia.
      + rewrite (run_blocks_cons x), (run_blocks_cons o), app_assoc. f_equal.
        rewrite !run_blocks_cons in G5. cbn in G5. rewrite !app_nil_r in G5. cbn. rewrite app_nil_r. exact G5.
      + discriminate.
    - destruct F4 as [-> G]. destruct ops as [|x t]; cbn [fst snd opt_ops].
      + conj; auto.
        * cbn in *. lia.
        * cbn. rewrite !app_nil_r. reflexivity.
        * intros _. destruct o; cbn in W |- *; [lia|tauto].
      + conj; auto.
        * destruct o; cbn [wf_ops] in W; tauto.
        * cbn [chained] in Ch |- *. tauto.
        * cbn [chained] in Ch. tauto.
        * cbn [length] in *. lia.
        * rewrite (run_blocks_cons o (x :: t)). cbn. rewrite app_nil_r. reflexivity.
        * discriminate. }
  destruct N1 as (N1 & N2 & N3 & N4 & N5 & N6).
  fold nx. destruct nx as [op' ops']. cbn [fst snd] in *.
  assert (Hb : ops_blocks (batch ++ [first]) = ops_blocks batch + (op_end first - op_begin first)).
  { rewrite ops_blocks_app. cbn. lia. }
  assert (Fb' : Forall (fun o => op_begin o <= op_end o) (batch ++ [first])).
  { apply Forall_app. split; auto. }
  assert (Cb0 : match batch with [] => True | x :: _ => chained (op_begin x) batch /\ end_of 0 batch = op_begin first end).
  { destruct batch; auto. rewrite F1. auto. }
  destruct (N.eqb_spec rem 0) as [E|E].
  - destruct (IH op' ops' max []) as (r & R1 & R2 & R3); auto.
    + destruct op'; auto. apply N3.
    + cbn. lia.
    + rewrite R1. cbn [bind]. eexists. split; [reflexivity|]. split.
      * constructor; auto. apply good_batch_snoc; auto; lia.
      * cbn [concat]. rewrite !run_blocks_app, R3, <- app_assoc. f_equal. exact N5.
  - destruct (IH op' ops' rem (batch ++ [first])) as (r & R1 & R2 & R3); auto; try lia.
    + destruct op'; auto. apply N3.
    + assert (exists x t, batch ++ [first] = x :: t /\ chained (op_begin x) (batch ++ [first])) as (x & t & Ex & Cx).
      { destruct batch as [|x batch]; cbn [app]; eexists _, _; (split; [reflexivity|]); cbn; auto.
        destruct Cb0 as [C1 C2]. cbn [chained] in C1. split; [auto|]. apply chained_app. split; [apply C1|]. cbn. auto. }
      rewrite Ex in Cx |- *. split; [exact Cx|]. rewrite <- Ex.
      destruct op'; [|rewrite Hb; specialize (N6 eq_refl); lia].
      rewrite end_of_app. cbn. symmetry. apply N3.
    + exists r. split; [auto|]. split; [auto|]. rewrite R3, run_blocks_app, <- app_assoc. f_equal. exact N5.
Qed.

Lemma split_contiguous_spec max b : 1 <= max -> batch_ok b ->
  exists r, split_contiguous b max = Ok r /\ Forall (good_batch max) r /\ run_blocks (concat r) = run_blocks b.
Proof.
  intros Hm H. destruct b as [|o b]; [contradiction|]. destruct H as [C W].
  destruct (split_loop_spec max Hm (split_fuel (o :: b)) (Some o) b max []) as (r & R1 & R2 & R3); cbn [opt_ops]; auto.
  - unfold split_fuel. cbn [length]. lia.
  - cbn. lia.
  - exists r. auto.
Qed.

Lemma generate_runs_spec blocks thr max : 1 <= max ->
  exists batches, generate_runs blocks thr max = Ok batches /\
    run_blocks (concat batches) = blocks /\ Forall (good_batch max) batches.
Proof.
  intros Hm. destruct (find_runs_spec blocks thr) as (A & B & _).
  destruct (batch_adjacent_spec _ B) as [C D].
  assert (G : forall bs, Forall batch_ok bs -> exists r, split_batches bs max = Ok r /\
                run_blocks (concat r) = run_blocks (concat bs) /\ Forall (good_batch max) r).
  { clear - Hm. induction 1 as [|x l Hx Hl IH]; cbn [split_batches]; [eexists; repeat split; constructor|].
    destruct (split_contiguous_spec max x Hm Hx) as (r & -> & R2 & R3).
    destruct IH as (bs & E & E2 & E3). cbn [bind]. rewrite E. cbn [bind]. eexists. split; [reflexivity|].
    rewrite concat_app. cbn [concat]. rewrite !run_blocks_app, R3, E2. split; auto. apply Forall_app; auto. }
  destruct (G _ D) as (r & R1 & R2 & R3). exists r. unfold generate_runs. rewrite C, A in R2. auto.
Qed.

Lemma all_blocks_chained ops : forall l, chained l ops -> Forall (fun o => op_begin o <= op_end o) ops ->
  all_blocks ops = nseq l (N.to_nat (ops_blocks ops)).
Proof.
  induction ops as [|o r IH]; intros l C F; [reflexivity|].
  cbn [chained] in C. destruct C as [<- C]. inversion F; subst.
  rewrite ops_blocks_cons. cbn [all_blocks flat_map]. fold (all_blocks r). rewrite (IH (op_end o)) by auto.
  rewrite N2Nat.inj_add, nseq_app. unfold range. do 2 f_equal. lia.
Qed.

Lemma good_batch_one_io max b : good_batch max b -> one_io max b.
Proof.
  destruct b as [|o r]; [contradiction|]. intros (C & F & L).
  exists (op_begin o), (N.to_nat (ops_blocks (o :: r))). split; [apply all_blocks_chained; auto|lia].
Qed.
