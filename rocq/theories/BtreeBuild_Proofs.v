(** From node lists to trees. *)
From Coq Require Import Permutation.
From Verif Require Import Base Csum_Model Csum_Proofs Codec_Model Codec_Spec Codec_Proofs NodeCodec_Proofs
  SpaceMap_Model SpaceMap_Spec SpaceMap_Proofs Io_Proofs IoMany_Proofs Batcher_Model Batcher_Spec Batcher_Proofs
  Builder_Model Builder_Spec Builder_Proofs NodeBuilder_Proofs.

Lemma usable_env n max w : usable n max w <-> n < 2 ^ 64 /\ env n max w.
Proof.
  split.
  - intros (A & B & C & D & E & F & G & H & I & J). split; auto. constructor; auto. constructor; auto. constructor; auto.
  - intros [A [[[B C D E F G] H] I J]]. unfold usable. conj; auto.
Qed.

Section Ops.
Variables n max : N.
Hypothesis Hn : n < 2 ^ 64.
Context {V R : Type}.
Variable c : codec V.
Variable range : V -> Prop.
Variable rcinc : V -> st R unit.
Variable rep : R -> list V -> Prop.
Variable bad : list V -> V -> Prop.
Hypothesis L : lossless c range.
Hypothesis Hcs : N.of_nat (csize c) + 8 < 2 ^ 32.
Hypothesis Hm : 4 <= calc_max_entries c.
Hypothesis Hrc : counter_ok range rcinc rep bad.
Variable w0 : wb.
Variable rcs0 : list V.
Variable Pre : summary -> Prop.

Lemma prebuilt_in_node s kvs : prebuilt c n (wb_view w0) (cnt w0) s kvs /\ Pre s <-> in_node n c (leaf_io V) w0 Pre s kvs.
Proof. unfold prebuilt, in_node, node_for. cbn [io_make leaf_io]. tauto. Qed.

Definition op_pre (o : @build_op V) : Prop := match o with PushNodes ns => Forall Pre ns | PushValue _ _ => True end.

Lemma do_ops_wp os kvs : pushes c n (wb_view w0) (cnt w0) os kvs -> Forall op_pre os ->
  forall cont w b, Inv n max c (leaf_io V) false rep false w0 rcs0 Pre cont w b -> wfc range (cont ++ kvs) ->
  wp (do_ops c (leaf_io V) false rcinc os) (w, b)
     (fun s _ => Inv n max c (leaf_io V) false rep false w0 rcs0 Pre (cont ++ kvs) (fst s) (snd s))
     (Efail n max bad rcs0 (cont ++ kvs)).
Proof.
  intros Hp. induction Hp as [|k v os kvs Hp IH|ns kvss os kvs Hne HF HneF Hhalf Hp IH]; intros Hpre cont w b HI Hw; cbn [do_ops do_op]; [|inversion Hpre as [|? ? Hp1 Hp2]; subst..].
  - apply wp_ret. rewrite app_nil_r. auto.
  - apply wp_bind. rewrite (app_assoc cont [(k, v)] kvs : cont ++ (k, v) :: kvs = _) in *.
    pose proof (wfc_app range _ _ Hw) as [Hw1 _]. pose proof (wfc_app range _ _ Hw1) as [Hw2 Hkv].
    destruct Hkv as [_ Hkv]. inversion Hkv as [|? ? [K1 K2] _]; subst. cbn [fst snd] in *.
    eapply wp_mono.
    + eapply (push_value_wp n max Hn c range (leaf_io V) false rcinc rep bad L Hcs (leaf_io_ok c range) Hm Hrc false) with (lenient := false); eauto.
      * intros _ k' Hk'. destruct Hw1 as [Hw1 _]. rewrite map_app in Hw1. apply increasing_split in Hw1 as (_ & _ & Hw1).
        apply Hw1; auto. left; auto.
    + intros [w' b'] _ [A _]. apply IH; auto.
    + intros s [A|[A _]]; [|discriminate]. apply Efail_app; exact A.
  - apply wp_bind. rewrite (app_assoc cont (concat kvss) kvs) in *.
    pose proof (wfc_app range _ _ Hw) as [Hw1 _].
    eapply wp_mono.
    + eapply (push_nodes_wp n max Hn c range (leaf_io V) false rcinc rep bad L Hcs (leaf_io_ok c range) Hm Hrc false); eauto.
      * cbn [op_pre] in Hp1. clear - HF Hp1. induction HF; inversion Hp1; subst; constructor; auto. apply prebuilt_in_node; auto.
    + intros [w' b'] _ A. apply IH; auto.
    + intros s A. apply Efail_app; exact A.
Qed.

Lemma do_pushed_wp os kvs : pushed c n (wb_view w0) (cnt w0) os kvs -> Forall op_pre os ->
  forall rc, rep rc rcs0 -> env n max w0 -> wfc range kvs ->
  wp (do_ops c (leaf_io V) false rcinc os) (w0, nb_new rc)
     (fun s _ => Inv n max c (leaf_io V) false rep false w0 rcs0 Pre kvs (fst s) (snd s))
     (Efail n max bad rcs0 kvs).
Proof.
  intros Hp Hpre rc Hr He Hw.
  assert (HI0 : Inv n max c (leaf_io V) false rep false w0 rcs0 Pre [] w0 (nb_new rc)) by (eapply Inv_new; eauto).
  destruct Hp as [Hp|(s & os' & -> & Hs & Hp)]; [apply (do_ops_wp os kvs Hp Hpre [] w0 (nb_new rc) HI0 Hw)|].
  inversion Hpre as [|? ? Hp1 Hp2]; subst. cbn [do_ops do_op]. apply wp_bind. eapply wp_mono.
  - eapply push_first_wp with (vo := false); try exact HI0; auto.
    apply prebuilt_in_node. split; auto. cbn [op_pre] in Hp1. inversion Hp1; auto.
  - intros [w' b'] _ A. apply (do_ops_wp os' kvs Hp Hp2 [] w' b' A Hw).
  - intros s' A. apply (Efail_app n max bad rcs0 [] kvs s' A).
Qed.
End Ops.

Section Values.
Variables n max : N.
Hypothesis Hn : n < 2 ^ 64.
Context {V R : Type}.
Variable c : codec V.
Variable range : V -> Prop.
Variable io : node_io V.
Variable shared : bool.
Variable rcinc : V -> st R unit.
Variable rep : R -> list V -> Prop.
Variable bad : list V -> V -> Prop.
Hypothesis L : lossless c range.
Hypothesis Hcs : N.of_nat (csize c) + 8 < 2 ^ 32.
Hypothesis Hio : io_ok c range io.
Hypothesis Hm : 4 <= calc_max_entries c.
Hypothesis Hrc : counter_ok range rcinc rep bad.
Variable w0 : wb.
Variable rcs0 : list V.
Local Notation Inv := (Inv n max c io shared rep true w0 rcs0 (fun _ => False)).

Definition push_op (kv : N * V) : @build_op V := PushValue (fst kv) (snd kv).

Lemma increasing_snoc l k : increasing l -> match rev l with [] => True | x :: _ => x < k end -> increasing (l ++ [k]).
Proof.
  intros H Hk. apply increasing_split. conj; auto; [cbn; auto|].
  intros x y Hx [<-|[]]. destruct (rev l) as [|z r] eqn:E.
  - rewrite in_rev, E in Hx. destruct Hx.
  - assert (l = rev r ++ [z]) as -> by (rewrite <- (rev_involutive l), E; auto).
    apply increasing_split in H as (_ & _ & H). apply in_app_or in Hx as [Hx|[<-|[]]]; auto.
    specialize (H x z Hx (or_introl eq_refl)). lia.
Qed.

Lemma last_key_le cont l : last_key (V:=V) cont = Some l -> exists f v, cont = f ++ [(l, v)].
Proof.
  unfold last_key. destruct (rev cont) as [|[k v] r] eqn:E; [discriminate|]. intros [= ->].
  exists (rev r), v. rewrite <- (rev_involutive cont), E. auto.
Qed.

Lemma do_values_wp kvs : Forall (fun kv => fst kv < 2 ^ 64 /\ range (snd kv)) kvs ->
  forall cont w b, Inv cont w b -> wfc range cont ->
  wp (do_ops c io shared rcinc (map push_op kvs)) (w, b)
     (fun s _ => Inv (cont ++ kvs) (fst s) (snd s) /\ increasing (map fst (cont ++ kvs)))
     (fun s => Efail n max bad rcs0 (cont ++ kvs) s \/ ~ increasing (map fst (cont ++ kvs))).
Proof.
  intros HF. induction HF as [|[k v] kvs [K1 K2] HF IH]; intros cont w b HI Hw; cbn [map do_ops do_op].
  - apply wp_ret. rewrite app_nil_r. split; [auto|apply Hw].
  - cbn [push_op fst snd do_op] in *. apply wp_bind. rewrite (app_assoc cont [(k, v)] kvs : cont ++ (k, v) :: kvs = _).
    pose proof (v_vo _ _ _ _ _ _ _ _ _ _ _ _ _ HI eq_refl) as [_ Hlast].
    eapply wp_mono.
    + eapply (push_value_wp n max Hn c range io shared rcinc rep bad L Hcs Hio Hm Hrc true) with (lenient := true); eauto.
      discriminate.
    + intros [w' b'] _ [A B]. cbn [fst snd] in *. apply IH; auto.
      destruct Hw as [Hw1 Hw2]. split.
      * rewrite map_app. cbn [map fst]. apply increasing_snoc; auto. rewrite Hlast in B. unfold last_key in B.
        rewrite <- map_rev. destruct (rev cont) as [|[? ?] ?]; auto.
      * apply Forall_app. split; auto.
    + intros s [A|[_ A]].
      * left. apply Efail_app; exact A.
      * right. rewrite Hlast in A. destruct (last_key cont) as [l|] eqn:El; [|destruct A].
        apply last_key_le in El as (f & v' & ->). intros Hinc.
        rewrite !map_app in Hinc. apply increasing_split in Hinc as (Hinc & _).
        apply increasing_split in Hinc as (_ & _ & Hinc). specialize (Hinc l k). cbn [map fst] in Hinc.
        assert (l < k); [|lia]. apply Hinc; [apply in_or_app; right; left; auto|left; auto].
Qed.
End Values.

(** ** build_nodes *)
Lemma Efail_failed {V R} n max (bad : list V -> V -> Prop) rcs cont (s : @bst V R) :
  Efail n max bad rcs cont s -> build_failed n max bad (map snd cont ++ rcs) (fst s).
Proof. intros [H|[H|(v & vs & H1 & H2)]]; unfold build_failed, exhausted; eauto 6. Qed.

Lemma build_nodes_unfold {V R} (c : codec V) io shared (rcinc : V -> st R unit) os rc w (Q : wb -> list summary * R -> Prop) (E : wb -> Prop) :
  wp (_ <~ do_ops c io shared rcinc os ;; nb_complete c io shared rcinc) (w, nb_new rc)
     (fun s ns => Q (fst s) (ns, nb_rc (snd s))) (fun s => E (fst s)) ->
  wp (build_nodes c io shared rcinc os rc) w Q E.
Proof.
  unfold wp, build_nodes. destruct (bindst _ _ _) as [[w' b'] [ns| |]]; auto.
Qed.

(** The result of building a list of nodes. *)
Definition nodes_built {V R} n max (c : codec V) io shared (rep : R -> list V -> Prop) (w0 : wb) rcs0 (Pre : summary -> Prop) cont (w : wb) (ns : list summary) (rc : R) : Prop :=
  env n max w /\ nodes_done n c io shared rep rcs0 cont w ns rc /\
  (forall x, cnt w x = cnt w0 x + occ x (map su_block ns)) /\
  (forall x, 0 < cnt w0 x -> wb_view w x = wb_view w0 x) /\ wb_base w = wb_base w0 /\ origin shared w0 Pre ns.

Lemma build_values_wp {V R} n max (c : codec V) range io shared (rcinc : V -> st R unit) rep bad w rcs rc kvs :
  n < 2 ^ 64 -> lossless c range -> N.of_nat (csize c) + 8 < 2 ^ 32 -> io_ok c range io ->
  4 <= calc_max_entries c -> counter_ok range rcinc rep bad -> env n max w -> rep rc rcs ->
  Forall (fun kv => fst kv < 2 ^ 64 /\ range (snd kv)) kvs ->
  wp (build_nodes c io shared rcinc (map push_op kvs) rc) w
     (fun w' r => nodes_built n max c io shared rep w rcs (fun _ => False) kvs w' (fst r) (snd r) /\ increasing (map fst kvs))
     (fun w' => build_failed n max bad (map snd kvs ++ rcs) w' \/ ~ increasing (map fst kvs)).
Proof.
  intros Hn L Hcs Hio Hm Hrc He Hr HF. apply build_nodes_unfold. apply wp_bind.
  eapply wp_mono.
  - eapply (do_values_wp n max Hn c range io shared rcinc rep bad L Hcs Hio Hm Hrc w rcs kvs HF []).
    + eapply Inv_new; eauto.
    + split; [cbn; auto|constructor].
  - cbn [app]. intros [w' b'] _ [HI Hinc]. eapply wp_mono.
    + eapply (complete_wp n max Hn c range io shared rcinc rep bad L Hcs Hio Hm Hrc true); eauto. split; auto.
    + intros [w2 b2] ns H. cbn [fst snd] in *. unfold nodes_built. tauto.
    + intros [w2 b2] H. apply Efail_failed in H. auto.
  - cbn [app]. intros [w' b'] [H|H]; [apply Efail_failed in H|]; auto.
Qed.

Lemma build_ops_wp {V R} n max (c : codec V) range (rcinc : V -> st R unit) rep bad w rcs rc Pre os kvs :
  n < 2 ^ 64 -> lossless c range -> N.of_nat (csize c) + 8 < 2 ^ 32 ->
  4 <= calc_max_entries c -> counter_ok range rcinc rep bad -> env n max w -> rep rc rcs ->
  pushed c n (wb_view w) (cnt w) os kvs -> Forall (op_pre Pre) os -> entries_ok range kvs ->
  wp (build_nodes c (leaf_io V) false rcinc os rc) w
     (fun w' r => nodes_built n max c (leaf_io V) false rep w rcs Pre kvs w' (fst r) (snd r))
     (build_failed n max bad (map snd kvs ++ rcs)).
Proof.
  intros Hn L Hcs Hm Hrc He Hr Hp Hpre Hok. apply build_nodes_unfold. apply wp_bind.
  eapply wp_mono.
  - apply (do_pushed_wp n max Hn c range rcinc rep bad L Hcs Hm Hrc w rcs Pre os kvs Hp Hpre rc); auto.
  - cbn [app]. intros [w' b'] _ HI. eapply wp_mono.
    + eapply (complete_wp n max Hn c range (leaf_io V) false rcinc rep bad L Hcs (leaf_io_ok c range) Hm Hrc false); eauto.
    + intros [w2 b2] ns H. exact H.
    + intros [w2 b2] H. apply Efail_failed in H. auto.
  - cbn [app]. intros [w' b'] H. apply Efail_failed in H. auto.
Qed.

(** ** Trees *)
Lemma tree_frame {V} (c : codec V) (d d' : disk) depth : forall root b kvs foot,
  (forall x, In x foot -> d' x = d x) -> tree c d root depth b kvs foot -> tree c d' root depth b kvs foot.
Proof.
  induction depth as [|dp IH]; intros root b kvs foot Hd H; cbn [tree] in *.
  - destruct H as (h & ks & vs & Hh & H). exists h, ks, vs. split; auto.
    eapply holds_ext; [|exact Hh]. apply Hd. destruct H as (_ & _ & _ & _ & _ & _ & ->). left; auto.
  - destruct H as (h & ch & subs & Hh & H1 & H2 & H3 & H4 & HF & -> & ->). exists h, ch, subs. conj; auto; try tauto.
    + eapply holds_ext; [|exact Hh]. apply Hd. left; auto.
    + assert (Hd' : forall x, In x (concat (map snd subs)) -> d' x = d x) by (intros; apply Hd; right; auto).
      clear - HF Hd' IH. induction HF as [|kb sub ch subs (A & B & C) HF IHF]; constructor.
      * conj; auto. eapply IH; [|exact C]. intros; apply Hd'. cbn [map concat]. apply in_or_app; auto.
      * apply IHF. intros; apply Hd'. cbn [map concat]. apply in_or_app; auto.
Qed.

Lemma leaves_frame {V} (c : codec V) (d d' : disk) depth : forall root b kvs foot,
  (forall x, In x foot -> d' x = d x) -> tree c d root depth b kvs foot -> leaves c d' depth b = leaves c d depth b.
Proof.
  induction depth as [|dp IH]; intros root b kvs foot Hd H; cbn [tree leaves] in *.
  - destruct H as (h & ks & vs & Hh & H). destruct H as (_ & _ & _ & _ & _ & _ & ->). rewrite Hd by (left; auto). auto.
  - destruct H as (h & ch & subs & Hh & H1 & H2 & H3 & H4 & HF & -> & ->). rewrite Hd by (left; auto).
    rewrite (holds_raw _ _ _ _ _ Hh).
    assert (Hd' : forall x, In x (concat (map snd subs)) -> d' x = d x) by (intros; apply Hd; right; auto).
    clear - HF Hd' IH. induction HF as [|kb sub ch subs (A & B & C) HF IHF]; cbn [map flat_map]; auto. f_equal.
    + eapply IH; [|exact C]. intros; apply Hd'. cbn [map concat]. apply in_or_app; auto.
    + apply IHF. intros; apply Hd'. cbn [map concat]. apply in_or_app; auto.
Qed.

Lemma inner_frame {V} (c : codec V) (d d' : disk) depth : forall root b kvs foot,
  (forall x, In x foot -> d' x = d x) -> tree c d root depth b kvs foot -> inner c d' depth b = inner c d depth b.
Proof.
  induction depth as [|dp IH]; intros root b kvs foot Hd H; cbn [tree inner] in *; auto.
  destruct H as (h & ch & subs & Hh & _ & _ & _ & _ & HF & -> & ->). rewrite (Hd b) by (left; auto).
  rewrite (holds_raw _ _ _ _ _ Hh). f_equal. clear Hh.
  induction HF as [|kb sub ch subs (A & B & C) HF IHF]; cbn [map flat_map concat] in *; auto. f_equal.
  - eapply IH; [|exact C]. intros x Hx. apply Hd. right. apply in_or_app; auto.
  - apply IHF. intros x Hx. apply Hd. cbn [In] in *. destruct Hx; auto. right. apply in_or_app; auto.
Qed.
Lemma occ_inner {V} (c : codec V) d depth : forall root b kvs foot x, tree c d root depth b kvs foot ->
  occ x foot = occ x (b :: flat_map (children c d) (inner c d depth b)) /\ occ x (inner c d depth b) <= occ x foot /\
  (In x foot -> In x (inner c d depth b) \/ exists vs, In (x, vs) (leaves c d depth b)).
Proof.
  induction depth as [|dp IH]; intros root b kvs foot x H; cbn [tree inner leaves] in *.
  - destruct H as (h & ks & vs & Hh & H). decompose [and] H. subst foot. cbn [flat_map occ]. conj; auto; [lia|].
    intros [<-|[]]. right. rewrite (holds_raw _ _ _ _ _ Hh). exists vs. left; auto.
  - destruct H as (h & ch & subs & Hh & _ & _ & _ & _ & HF & -> & ->). rewrite (holds_raw _ _ _ _ _ Hh).
    cbn [flat_map]. unfold children at 1. rewrite (holds_raw _ _ _ _ _ Hh). cbn [occ In]. rewrite !occ_app.
    enough (occ x (concat (map snd subs)) = occ x (map snd ch) + occ x (flat_map (children c d) (flat_map (inner c d dp) (map snd ch))) /\
            occ x (flat_map (inner c d dp) (map snd ch)) <= occ x (concat (map snd subs)) /\
            (In x (concat (map snd subs)) -> In x (flat_map (inner c d dp) (map snd ch)) \/ exists vs, In (x, vs) (flat_map (leaves c d dp) (map snd ch)))) as (K1 & K2 & K3).
    { conj; [lia|lia|]. intros [<-|Hx]; [left; left; auto|]. destruct (K3 Hx) as [K|K]; auto. }
    clear Hh. induction HF as [|kb sub ch subs (A & B & C) HF (J1 & J2 & J3)]; cbn [map flat_map concat occ In]; [conj; auto; lia|].
    destruct (IH _ _ _ _ x C) as (I1 & I2 & I3). cbn [occ] in I1. rewrite ?flat_map_app, !occ_app. conj; [lia|lia|].
    intros Hx. apply in_app_or in Hx as [Hx|Hx].
    + destruct (I3 Hx) as [K|(vs & K)]; [left; apply in_or_app; auto|right; exists vs; apply in_or_app; auto].
    + destruct (J3 Hx) as [K|(vs & K)]; [left; apply in_or_app; auto|right; exists vs; apply in_or_app; auto].
Qed.

Lemma tree_root_weaken {V} (c : codec V) d depth b kvs foot : tree c d false depth b kvs foot -> tree c d true depth b kvs foot.
Proof.
  destruct depth; cbn [tree].
  - intros (h & ks & vs & H). exists h, ks, vs. intuition discriminate.
  - intros (h & ch & subs & H). exists h, ch, subs. intuition discriminate.
Qed.

Lemma Forall2_concat {A B} (P : A -> B -> Prop) ls ys : Forall2 P (concat ls) ys ->
  exists yss, ys = concat yss /\ Forall2 (Forall2 P) ls yss.
Proof.
  revert ys. induction ls as [|l ls IH]; intros ys H; cbn [concat] in H.
  - inversion H; subst. exists []. auto.
  - apply Forall2_app_inv_l in H as (y1 & y2 & H1 & H2 & ->). apply IH in H2 as (yss & -> & H2).
    exists (y1 :: yss). auto.
Qed.

(** Reading an internal node does not depend on the leaf values' type. *)
Lemma unpack_internal_any {V W} (c1 : codec V) (c2 : codec W) data ig root h ks vs :
  unpack_node_raw c1 data ig root = Ok (Internal h ks vs) -> unpack_node_raw c2 data ig root = Ok (Internal h ks vs).
Proof.
  unfold unpack_node_raw. destruct (nh_unpack data) as [[h0 i]| |]; cbn [bind]; try discriminate.
  destruct (nh_is_leaf h0) eqn:El; cbn [andb].
  - destruct (negb _); [discriminate|].
    repeat match goal with |- (if ?b then _ else _) = _ -> _ => destruct b; [discriminate|] end.
    destruct (p_count p_u64 _ i) as [[ks0 i0]| |]; cbn [bind]; try discriminate.
    destruct (negb _); [discriminate|].
    destruct (p_count p_u64 _ i0) as [[ks1 i1]| |]; cbn [bind]; try discriminate.
    destruct (p_count (cunpack c1) _ i1) as [[vs1 i2]| |]; cbn [bind]; try discriminate.
  - repeat match goal with |- (if ?b then _ else _) = _ -> _ => destruct b; [discriminate|] end.
    destruct (p_count p_u64 _ i) as [[ks0 i0]| |]; cbn [bind]; try discriminate.
    destruct (negb _); [discriminate|].
    destruct (p_count p_u64 _ i0) as [[ks1 i1]| |]; cbn [bind]; try discriminate.
    destruct (p_count p_u64 _ i1) as [[vs1 i2]| |]; cbn [bind]; try discriminate.
    intros H. congruence.
Qed.
Lemma holds_internal_any {V W} (c1 : codec V) (c2 : codec W) d b h ks vs :
  holds c1 d b (Internal h ks vs) -> holds c2 d b (Internal h ks vs).
Proof.
  intros (A & B & C). unfold holds. conj; auto. intros ig root H. specialize (C ig root H).
  unfold check_and_unpack_node in *. cbn [b_data b_loc] in *. destruct (metadata_block_type (d b)); try discriminate.
  destruct (unpack_node_raw c1 (d b) ig root) as [m| |] eqn:E; cbn [bind] in C; try discriminate.
  destruct (negb _) eqn:E2; [discriminate|]. assert (m = Internal h ks vs) as -> by congruence.
  apply (unpack_internal_any c1 c2) in E. rewrite E. cbn [bind get_header] in *. rewrite E2. auto.
Qed.

Section Levels.
Variables n max : N.
Hypothesis Hn : n < 2 ^ 64.
Context {V : Type}.
Variable c : codec V.
Variable range : V -> Prop.

(** A list of summaries each of which is the root of a tree. *)
Definition sub_ok (d : disk) (dp : nat) (root : bool) (s : summary) (sub : list (N * V) * list N) : Prop :=
  su_block s < n /\ su_key s = first_key (fst sub) /\ (root = false -> fst sub <> []) /\
  tree c d root dp (su_block s) (fst sub) (snd sub).

Lemma sub_keys_increasing d dp ns subs : Forall2 (sub_ok d dp false) ns subs ->
  increasing (map fst (concat (map fst subs))) -> increasing (map su_key ns).
Proof.
  induction 1 as [|s sub ns subs (A & B & C & D) HF IH]; intros Hi; [exact I|].
  cbn [map concat] in *. rewrite map_app in Hi. apply increasing_split in Hi as (H1 & H2 & H3).
  specialize (IH H2). apply increasing_strong. split; auto.
  intros k Hk. rewrite B.
  assert (In (first_key (fst sub)) (map fst (fst sub))) as Hin.
  { destruct (fst sub) as [|[k0 v0] r] eqn:Es; [exfalso; apply C; auto|left; auto]. }
  apply H3; auto. clear - Hk HF. induction HF as [|s' sub' ns subs (A & B & C & D) HF IH]; [destruct Hk|].
  cbn [map concat] in *. rewrite map_app, in_app_iff. destruct Hk as [<-|Hk]; [|right; auto].
  left. rewrite B. destruct (fst sub') as [|[k0 v0] r] eqn:Es; [exfalso; apply C; auto|left; auto].
Qed.

Lemma noop_ok rg : counter_ok (V:=N) rg noop_inc (fun (_ : unit) _ => True) (fun _ _ => False).
Proof. constructor; auto. Qed.

Lemma m_u64 : calc_max_entries u64_codec = 252.
Proof. reflexivity. Qed.

Lemma level_step d (w w' : wb) dp ns subs up :
  (forall x, wb_view w x = d x) ->
  Forall2 (sub_ok d dp false) ns subs -> (2 <= length ns)%nat ->
  nodes_built n max u64_codec internal_io false (fun (_ : unit) _ => True) w [] (fun _ => False) (map (fun s => (su_key s, su_block s)) ns) w' up tt ->
  (forall x, cnt w x = 0 -> occ x (concat (map snd subs)) = 0) ->
  exists usubs root, (root = true -> exists u, up = [u]) /\
    Forall2 (sub_ok (wb_view w') (S dp) root) up usubs /\
    concat (map fst usubs) = concat (map fst subs) /\
    (length up < length ns)%nat /\ up <> [] /\
    forall x, occ x (concat (map snd usubs)) = occ x (map su_block up) + occ x (concat (map snd subs)).
Proof.
  intros Hd HF Hlen (He & (kvss & HF1 & Hc & _ & Hne & Hhalf) & Hcnt & Hfr & _) Hocc.
  rewrite m_u64 in Hhalf. change (252 / 2) with 126 in Hhalf.
  assert (HF2 : Forall2 (fun kb sub => fst sub <> [] /\ fst kb = first_key (fst sub) /\
                   tree c (wb_view w') false dp (snd kb) (fst sub) (snd sub)) (concat kvss) subs).
  { rewrite Hc.
    assert (Hv : forall x, In x (concat (map snd subs)) -> wb_view w' x = d x).
    { intros x Hx. rewrite Hfr, Hd; auto. apply occ_in in Hx. specialize (Hocc x). lia. }
    clear - HF Hv. induction HF as [|s sub ns subs (A & B & C & D) HF IH]; cbn [map]; constructor.
    - cbn [fst snd]. conj; auto. eapply tree_frame; [|exact D]. intros; apply Hv. cbn [map concat]. apply in_or_app; auto.
    - apply IH. intros; apply Hv. cbn [map concat]. apply in_or_app; auto. }
  assert (Hsz : Forall (fun kvs => (2 <= length kvs)%nat) kvss).
  { destruct Hhalf as [Hhalf|(s & ->)].
    - clear - HF1 Hhalf. induction HF1 as [|s kvs ns kvss (A & B & _) HF1 IH]; constructor; inversion Hhalf; subst; auto.
      unfold nlen in B. lia.
    - inversion HF1 as [|? kvs ? ? _ Hn1]; subst. inversion Hn1; subst. cbn [concat] in Hc. rewrite app_nil_r in Hc.
      constructor; auto. rewrite Hc, map_length. auto. }
  apply Forall2_concat in HF2 as (yss & -> & HF2).
  exists (combine (map (fun ys => concat (map fst ys)) yss) (map (fun p => su_block (fst p) :: concat (map snd (snd p))) (combine up yss))).
  exists (match up with [_] => true | _ => false end).
  assert (Hl1 : length up = length kvss) by (eapply Forall2_length; eauto).
  assert (Hl2 : length kvss = length yss) by (eapply Forall2_length; eauto).
  conj.
  - destruct up as [|u [|? ?]]; try discriminate. eauto.
  - assert (Hroot : forall u, In u up -> (match up with [_] => true | _ => false end) = false -> 126 <= su_nr u).
    { intros u Hu Hr. destruct Hhalf as [Hh|(s & ->)]; [|discriminate]. rewrite Forall_forall in Hh. auto. }
    set (root := match up with [_] => true | _ => false end) in *. clearbody root.
    clear - HF1 HF2 Hroot Hsz. revert yss HF2.
    induction HF1 as [|u kvs up kvss Hu HF1 IH]; intros yss HF2; inversion HF2 as [|? ys ? yss' Hy HF2']; subst; cbn [map combine fst snd]; constructor.
    + inversion Hsz; subst. destruct Hu as (A & B & C & D & h & E & F & G). unfold sub_ok. cbn [fst snd].
      assert (kvs <> [] /\ ys <> []) as [Hk1 Hk2].
      { split; intros ->; [cbn in *; lia|]. inversion Hy; subst. cbn in *; lia. }
      conj; auto.
      * rewrite C. inversion Hy as [|[k b] sub kvs' ys' (P1 & P2 & P3) _]; subst; [congruence|].
        cbn [first_key map concat fst] in *. destruct (fst sub) as [|[k0 v0] r]; [congruence|]. cbn in *. auto.
      * intros _. inversion Hy as [|? sub kvs' ys' (P1 & _) _]; subst; [congruence|].
        cbn [map concat]. destruct (fst sub); [congruence|discriminate].
      * cbn [tree]. exists h, kvs, ys. rewrite m_u64 in *. change (252 / 2) with 126.
        conj; auto; try (unfold nlen in *; lia).
        -- eapply holds_internal_any; exact E.
        -- intros Hr. rewrite <- B. apply Hroot; auto. left; auto.
    + apply IH; auto. * inversion Hsz; auto. * intros; apply Hroot; auto. right; auto.
  - clear - Hl1 Hl2. rewrite Hl2 in Hl1. clear Hl2. revert up Hl1.
    induction yss as [|ys yss IH]; intros [|u up] Hl; try discriminate; cbn [map combine concat fst]; auto.
    rewrite map_app, concat_app. f_equal. apply IH. cbn in Hl; lia.
  - assert (length (concat kvss) = length ns) as Hcl by (rewrite Hc, map_length; auto).
    assert (2 * length kvss <= length (concat kvss))%nat.
    { clear - Hsz. induction Hsz; cbn [concat length]; [lia|]. rewrite app_length. lia. }
    lia.
  - auto.
  - clear - Hl1 Hl2. rewrite Hl2 in Hl1. clear Hl2. revert up Hl1.
    induction yss as [|ys yss IH]; intros [|u up] Hl x; try discriminate; cbn [map combine concat snd occ fst app]; auto.
    rewrite map_app, concat_app, !occ_app. rewrite IH by (cbn in Hl; lia). lia.
Qed.

Lemma level_leaves d (w w' : wb) dp ns subs up :
  (forall x, wb_view w x = d x) ->
  Forall2 (sub_ok d dp false) ns subs ->
  nodes_built n max u64_codec internal_io false (fun (_ : unit) _ => True) w [] (fun _ => False) (map (fun s => (su_key s, su_block s)) ns) w' up tt ->
  (forall x, cnt w x = 0 -> occ x (concat (map snd subs)) = 0) ->
  flat_map (fun u => leaves c (wb_view w') (S dp) (su_block u)) up = flat_map (fun s => leaves c d dp (su_block s)) ns.
Proof.
  intros Hd HF (He & (kvss & HF1 & Hc & _) & Hcnt & Hfr & _) Hocc.
  assert (Hv : forall x, In x (concat (map snd subs)) -> wb_view w' x = d x).
  { intros x Hx. rewrite Hfr, Hd; auto. apply occ_in in Hx. specialize (Hocc x). lia. }
  transitivity (flat_map (fun kb => leaves c (wb_view w') dp (snd kb)) (concat kvss)).
  - clear - HF1. induction HF1 as [|u kvs up kvss Hu HF1 IH]; cbn [flat_map concat]; auto.
    rewrite flat_map_app, <- IH. f_equal. destruct Hu as (A & B & C & D & h & E & F & G). cbn [io_make internal_io] in E.
    apply (holds_internal_any u64_codec c) in E. cbn [leaves]. rewrite (holds_raw _ _ _ _ _ E).
    rewrite !flat_map_concat_map, map_map. auto.
  - rewrite Hc. clear - HF Hv. induction HF as [|s sub ns subs (A & B & C & D) HF IH]; cbn [map flat_map]; auto. f_equal.
    + cbn [snd]. eapply leaves_frame; [|exact D]. intros; apply Hv. cbn [map concat]. apply in_or_app; auto.
    + apply IH. intros; apply Hv. cbn [map concat]. apply in_or_app; auto.
Qed.

Lemma level_inner d (w w' : wb) dp ns subs up x :
  (forall x, wb_view w x = d x) ->
  Forall2 (sub_ok d dp false) ns subs ->
  nodes_built n max u64_codec internal_io false (fun (_ : unit) _ => True) w [] (fun _ => False) (map (fun s => (su_key s, su_block s)) ns) w' up tt ->
  (forall x, cnt w x = 0 -> occ x (concat (map snd subs)) = 0) ->
  In x (flat_map (fun u => inner c (wb_view w') (S dp) (su_block u)) up) ->
  In x (map su_block up) \/ In x (flat_map (fun s => inner c d dp (su_block s)) ns).
Proof.
  intros Hd HF (He & (kvss & HF1 & Hc & _) & Hcnt & Hfr & _) Hocc Hx.
  assert (Hv : forall x, In x (concat (map snd subs)) -> wb_view w' x = d x).
  { intros y Hy. rewrite Hfr, Hd; auto. apply occ_in in Hy. specialize (Hocc y). lia. }
  assert (In x (map su_block up) \/ In x (flat_map (fun kb => inner c (wb_view w') dp (snd kb)) (concat kvss))) as [K|K]; [|left; auto|right].
  - clear - HF1 Hx. induction HF1 as [|u kvs up kvss Hu HF1 IH]; cbn [flat_map concat map In] in *; auto.
    rewrite flat_map_app, in_app_iff. destruct Hu as (A & B & C & D & h & E & F & G). cbn [io_make internal_io] in E.
    apply (holds_internal_any u64_codec c) in E. apply in_app_or in Hx as [Hx|Hx]; [|tauto].
    cbn [inner] in Hx. rewrite (holds_raw _ _ _ _ _ E) in Hx. destruct Hx as [Hx|Hx]; auto.
    right. left. rewrite flat_map_concat_map, map_map, <- flat_map_concat_map in Hx. auto.
  - rewrite Hc in K. clear - HF Hv K. induction HF as [|s sub ns subs (A & B & C & D) HF IH]; cbn [map flat_map] in *; auto.
    apply in_or_app. apply in_app_or in K as [K|K]; [left|right].
    + cbn [snd] in K. erewrite inner_frame in K; [exact K| |exact D]. intros; apply Hv. cbn [map concat]. apply in_or_app; auto.
    + apply IH; auto. intros; apply Hv. cbn [map concat]. apply in_or_app; auto.
Qed.

Lemma build_levels_wp base fuel : forall ns dp root subs w,
  env n max w -> (length ns <= S fuel)%nat -> ns <> [] ->
  (root = true -> exists u, ns = [u]) ->
  Forall2 (sub_ok (wb_view w) dp root) ns subs ->
  increasing (map fst (concat (map fst subs))) ->
  Forall (fun kv => fst kv < 2 ^ 64) (concat (map fst subs)) ->
  (forall x, cnt w x = base x + occ x (concat (map snd subs))) ->
  (forall s, In s ns -> su_key s < 2 ^ 64) ->
  (forall x, In x (flat_map (fun s => inner c (wb_view w) dp (su_block s)) ns) -> (base x = 0 /\ occ x (concat (map snd subs)) = 1) /\ x < n) ->
  wp (build_levels fuel ns) w
     (fun w' r => env n max w' /\ wb_base w' = wb_base w /\
        (forall x, 0 < base x -> wb_view w' x = wb_view w x) /\
        exists depth foot, tree c (wb_view w') true depth r (concat (map fst subs)) foot /\ r < n /\
          leaves c (wb_view w') depth r = flat_map (fun s => leaves c (wb_view w) dp (su_block s)) ns /\
          (forall x, In x (inner c (wb_view w') depth r) -> (base x = 0 /\ occ x foot = 1) /\ x < n) /\
          forall x, cnt w' x = base x + occ x foot)
     (exhausted n max).
Proof.
  induction fuel as [|f IH]; intros ns dp root subs w He Hlen Hne Hroot HF Hinc Hk64 Hcnt Hkey Hin.
  - destruct ns as [|s [|s2 r]]; [congruence| |cbn in Hlen; lia]. cbn [build_levels]. apply wp_ret.
    inversion HF as [|? sub ? ? (A & B & C & D) Hnil]; subst. inversion Hnil; subst.
    cbn [map concat flat_map] in *. rewrite !app_nil_r in *. conj; auto. exists dp, (snd sub). conj; auto.
    { destruct root; auto. apply tree_root_weaken; auto. }
  - destruct ns as [|s [|s2 r]]; [congruence| |]; cbn [build_levels].
    + apply wp_ret.
      inversion HF as [|? sub ? ? (A & B & C & D) Hnil]; subst. inversion Hnil; subst.
      cbn [map concat flat_map] in *. rewrite !app_nil_r in *. conj; auto. exists dp, (snd sub). conj; auto.
      { destruct root; auto. apply tree_root_weaken; auto. }
    + set (ns := s :: s2 :: r) in *.
      assert (root = false) as ->. { destruct root; auto. destruct (Hroot eq_refl) as (u & Hu). discriminate. }
      apply wp_bind.
      assert (Hkvs : Forall (fun kv : N * N => fst kv < 2 ^ 64 /\ snd kv < 2 ^ 64) (map (fun n0 => (su_key n0, su_block n0)) ns)).
      { apply Forall_map. apply Forall_forall. intros u Hu. cbn [fst snd]. split; [auto|].
        assert (su_block u < n); [|lia]. clear - HF Hu. induction HF as [|? ? ? ? (A & _) HF IHF]; [destruct Hu|].
        destruct Hu as [<-|Hu]; auto. }
      assert (Eops : map (fun n0 => PushValue (su_key n0) (su_block n0)) ns = map push_op (map (fun n0 => (su_key n0, su_block n0)) ns)).
      { rewrite map_map. reflexivity. }
      rewrite Eops.
      eapply wp_mono.
      * eapply (build_values_wp n max u64_codec (fun v => v < 2 ^ 64) internal_io false noop_inc (fun _ _ => True) (fun _ _ => False) w [] tt); auto.
        -- apply u64_lossless.
        -- reflexivity.
        -- apply internal_io_ok.
        -- rewrite m_u64. lia.
        -- apply noop_ok. 
      * intros w' [up []] [Hb _]. cbn [fst snd] in Hb.
        pose proof Hb as (He' & _ & Hcnt' & Hfr & Hbase & Horg).
        assert (Hlns : (2 <= length ns)%nat) by (cbn; lia).
        destruct (level_step (wb_view w) w w' dp ns subs up) as (usubs & root' & R1 & R2 & R3 & R4 & R5 & R6); auto.
        { intros x Hx. rewrite Hcnt in Hx. lia. }
        assert (Hlv : flat_map (fun u => leaves c (wb_view w') (S dp) (su_block u)) up =
                      flat_map (fun s => leaves c (wb_view w) dp (su_block s)) ns).
        { eapply (level_leaves (wb_view w) w w' dp ns subs up); eauto. intros x Hx. rewrite Hcnt in Hx. lia. }
        eapply wp_mono.
        -- apply (IH up (S dp) root' usubs w'); auto; try (rewrite R3; auto).
           ++ lia.
           ++ intros x. rewrite Hcnt', Hcnt, R6. lia.
           ++ intros u Hu. clear - R2 Hu R3 Hk64 Hinc. rewrite <- R3 in Hk64. clear R3 Hinc.
              induction R2 as [|u' us up usubs (A & B & C & D) R2 IHR]; [destruct Hu|].
              cbn [map concat] in Hk64. apply Forall_app in Hk64 as [K1 K2].
              destruct Hu as [<-|Hu]; auto. rewrite B. destruct (fst us) as [|[k v] rr]; [cbn; lia|].
              inversion K1; subst. auto.
           ++ intros x Hx. rewrite R6. eapply (level_inner (wb_view w) w w' dp ns subs up) in Hx; eauto.
              2:{ intros y Hy. rewrite Hcnt in Hy. lia. }
              assert (Hup : In x (map su_block up) -> (cnt w x = 0 /\ occ x (map su_block up) = 1) /\ x < n).
              { intros K. apply in_map_iff in K as (u & <- & Hu).
                assert (su_block u < n) as Hun.
                { clear - R2 Hu. induction R2 as [|u' us up usubs (A & _) R2 IHR]; [destruct Hu|]. destruct Hu as [<-|Hu]; auto. } unfold origin in Horg. rewrite Forall_forall in Horg.
                specialize (Horg u Hu). destruct (own false u); tauto. }
              destruct Hx as [Hx|Hx].
              ** specialize (Hup Hx). rewrite Hcnt in Hup. lia.
              ** specialize (Hin x Hx). destruct (in_dec N.eq_dec x (map su_block up)) as [K|K].
                 --- specialize (Hup K). rewrite Hcnt in Hup. lia.
                 --- rewrite occ_not_in by auto. lia.
        -- intros w2 rt (A & B & C & dp' & foot & D1 & D2 & D4 & D5 & D3). rewrite R3 in D1. conj; auto.
           ++ congruence.
           ++ intros x Hx. rewrite C, Hfr; auto. rewrite Hcnt. lia.
           ++ exists dp', foot. rewrite D4, Hlv. conj; auto.
        -- auto.
      * intros w' [[H|(v & vs & [] & _)]|H]; auto.
        exfalso. apply H. rewrite map_map. cbn [fst].
        eapply sub_keys_increasing; eauto.
Qed.
End Levels.

(** ** The whole tree *)
Lemma leaf_subs {V} n (c : codec V) d ns kvss :
  4 <= calc_max_entries c ->
  Forall2 (node_for n c (leaf_io V) d) ns kvss ->
  (Forall (fun s => calc_max_entries c / 2 <= su_nr s) ns \/ exists s, ns = [s]) ->
  let root := match ns with [_] => true | _ => false end in
  let subs := combine kvss (map (fun s => [su_block s]) ns) in
  Forall2 (sub_ok n c d 0 root) ns subs /\ map fst subs = kvss /\ concat (map snd subs) = map su_block ns.
Proof.
  intros Hm HF Hh root subs.
  assert (Hr : forall s, In s ns -> root = false -> calc_max_entries c / 2 <= su_nr s).
  { intros s Hs E. destruct Hh as [Hh|(u & ->)]; [|discriminate]. rewrite Forall_forall in Hh; auto. }
  unfold subs. clearbody root. clear Hh subs.
  induction HF as [|s kvs ns kvss (A & B & C & D & h & E & F & G) HF IH]; cbn [combine map concat fst snd]; auto.
  destruct IH as (I1 & I2 & I3); [intros; apply Hr; auto; right; auto|].
  conj; [|congruence|cbn [app]; congruence].
  constructor; auto. unfold sub_ok. cbn [fst snd]. conj; auto.
  - intros Er Ek. specialize (Hr s (or_introl eq_refl) Er). rewrite B, Ek in Hr. cbn in Hr. dlia.
  - cbn [tree]. cbn [io_make leaf_io] in E. exists h, (map fst kvs), (map snd kvs). conj; auto.
    + rewrite !map_length. auto.
    + rewrite combine_fst_snd. auto.
    + intros Er. rewrite <- B. apply Hr; auto. left; auto.
Qed.

Lemma build_btree_wp {V R} n max (c : codec V) range (rep : R -> list V -> Prop) w0 rcs Pre kvs w ns rc shared :
  n < 2 ^ 64 -> 4 <= calc_max_entries c -> entries_ok range kvs ->
  nodes_built n max c (leaf_io V) shared rep w0 rcs Pre kvs w ns rc ->
  wp (build_btree ns) w
     (fun w' r => env n max w' /\ wb_base w' = wb_base w0 /\
        (forall x, 0 < cnt w0 x -> wb_view w' x = wb_view w0 x) /\
        exists depth foot, tree c (wb_view w') true depth r kvs foot /\ r < n /\
          leaves c (wb_view w') depth r = flat_map (fun s => leaves c (wb_view w) 0 (su_block s)) ns /\
          (forall x, In x (inner c (wb_view w') depth r) -> (cnt w0 x = 0 /\ occ x foot = 1) /\ x < n) /\
          forall x, cnt w' x = cnt w0 x + occ x foot)
     (exhausted n max).
Proof.
  intros Hn Hm [Hinc Hrange] (He & (kvss & HF & <- & _ & Hne & Hh) & Hcnt & Hfr & Hb & _).
  destruct (leaf_subs n c (wb_view w) ns kvss Hm HF Hh) as (H1 & H2 & H3).
  eapply wp_mono.
  - unfold build_btree. eapply (build_levels_wp n max Hn c (cnt w0) (length ns) ns 0); eauto.
    + destruct ns as [|? [|? ?]]; try discriminate; eauto.
    + rewrite H2. auto.
    + rewrite H2. eapply Forall_impl; [|exact Hrange]. cbn. tauto.
    + rewrite H3. auto.
    + intros s Hs. clear - HF Hs Hrange. induction HF as [|s' kvs ns kvss (A & B & C & D) HF IH]; [destruct Hs|].
      cbn [concat] in Hrange. apply Forall_app in Hrange as [K1 K2]. destruct Hs as [<-|Hs]; auto.
      rewrite C. destruct kvs as [|[k v] r]; [cbn; lia|]. inversion K1; subst. cbn in *. tauto.
    + intros x Hx. apply in_flat_map in Hx as (s & _ & []).
  - intros w' r (A & B & C & dp & foot & D1 & D2 & D4 & D5 & D3). rewrite H2 in D1. conj; auto.
    + congruence.
    + intros x Hx. rewrite C; auto.
    + exists dp, foot. conj; auto.
  - auto.
Qed.
