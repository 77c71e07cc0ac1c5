(** Common definitions: the result type, little-endian bytes, list lemmas. *)
From Coq Require Export List NArith ZArith Bool Lia.
From Coq Require Export ZifyBool ZifyNat ZifyN.
Export ListNotations.
Open Scope N_scope.

(** Outcome of a Rust function that returns [Result]: [Err] stands for any
    error value, [Panic] for a panic (unwrap on None, out of range index,
    failed assertion). *)
Inductive res (A : Type) : Type :=
| Ok (a : A)
| Err
| Panic.
Arguments Ok {A} a.
Arguments Err {A}.
Arguments Panic {A}.

Definition bind {A B} (x : res A) (f : A -> res B) : res B :=
  match x with Ok a => f a | Err => Err | Panic => Panic end.

Declare Scope res_scope.
Delimit Scope res_scope with res.
Notation "x <- e ;; f" := (bind e (fun x => f))
  (at level 61, e at next level, right associativity) : res_scope.
Notation "' p <- e ;; f" := (bind e (fun p => f))
  (at level 61, p pattern, e at next level, right associativity) : res_scope.
Open Scope res_scope.

(** lia with division and modulus by constants. *)
Ltac dlia := zify; Z.to_euclidean_division_equations; lia.

(** Split conjunctions only. *)
Ltac conj := repeat match goal with |- _ /\ _ => split end.

(** ** Bytes *)
Definition is_byte (b : N) : Prop := b < 256.
Definition bytes (l : list N) : Prop := Forall is_byte l.

(** Length of a list as an [N]. *)
Definition nlen {A} (l : list A) : N := N.of_nat (length l).

(** byteorder's write_uXX::<LittleEndian>: the [n] low bytes of [v]. *)
Fixpoint le_enc (n : nat) (v : N) : list N :=
  match n with
  | O => []
  | S n' => (v mod 256) :: le_enc n' (v / 256)
  end.

(** The value of a little-endian byte string. *)
Fixpoint le_dec (l : list N) : N :=
  match l with
  | [] => 0
  | b :: r => b + 256 * le_dec r
  end.

(** nom's le_u16/le_u32/le_u64: take [n] bytes, or fail. *)
Definition take_bytes (n : nat) (l : list N) : option (list N * list N) :=
  if Nat.ltb (length l) n then None else Some (firstn n l, skipn n l).

Definition take_le (n : nat) (l : list N) : option (N * list N) :=
  match take_bytes n l with
  | None => None
  | Some (a, r) => Some (le_dec a, r)
  end.

Definition le_u16 := take_le 2.
Definition le_u32 := take_le 4.
Definition le_u64 := take_le 8.

(** nom's [count]: apply a parser [n] times. *)
Fixpoint count_p {A} (p : list N -> option (A * list N)) (n : nat) (l : list N)
  : option (list A * list N) :=
  match n with
  | O => Some ([], l)
  | S n' =>
      match p l with
      | None => None
      | Some (a, l1) =>
          match count_p p n' l1 with
          | None => None
          | Some (r, l2) => Some (a :: r, l2)
          end
      end
  end.

Definition obind {A B} (x : option A) (f : A -> option B) : option B :=
  match x with Some a => f a | None => None end.
Notation "x <-o e ;; f" := (obind e (fun x => f))
  (at level 61, e at next level, right associativity).
Notation "' p <-o e ;; f" := (obind e (fun p => f))
  (at level 61, p pattern, e at next level, right associativity).

(** ** Lemmas on bytes *)

Lemma le_enc_length n v : length (le_enc n v) = n.
Proof. revert v; induction n; simpl; intros; auto. Qed.

Lemma le_enc_bytes n v : bytes (le_enc n v).
Proof.
  revert v; induction n; simpl; intros; constructor.
  - unfold is_byte. dlia.
  - apply IHn.
Qed.

Lemma le_dec_enc_mod n v : le_dec (le_enc n v) = v mod (256 ^ N.of_nat n).
Proof.
  revert v; induction n; intros.
  - simpl. rewrite N.mod_1_r. reflexivity.
  - cbn [le_enc le_dec]. rewrite IHn.
    rewrite Nat2N.inj_succ, N.pow_succ_r'.
    rewrite N.mod_mul_r by first [discriminate | apply N.pow_nonzero; discriminate].
    reflexivity.
Qed.

Lemma le_dec_enc n v : v < 256 ^ N.of_nat n -> le_dec (le_enc n v) = v.
Proof. intros. rewrite le_dec_enc_mod. apply N.mod_small; auto. Qed.

Lemma le_dec_lt l : bytes l -> le_dec l < 256 ^ nlen l.
Proof.
  induction 1; unfold nlen in *.
  - simpl. lia.
  - cbn [length le_dec]. rewrite Nat2N.inj_succ, N.pow_succ_r'.
    unfold is_byte in H. lia.
Qed.

Lemma le_enc_dec l : bytes l -> le_enc (length l) (le_dec l) = l.
Proof.
  induction 1; [reflexivity|]. cbn [length le_enc le_dec].
  unfold is_byte in H. f_equal.
  - replace (x + _) with (x + le_dec l * 256) by lia.
    rewrite N.mod_add by discriminate. apply N.mod_small; auto.
  - replace (x + _) with (x + le_dec l * 256) by lia.
    rewrite N.div_add by discriminate. rewrite N.div_small by auto. auto.
Qed.

Lemma le_dec_inj l1 l2 : bytes l1 -> bytes l2 -> length l1 = length l2 ->
  le_dec l1 = le_dec l2 -> l1 = l2.
Proof.
  intros. rewrite <- (le_enc_dec l1), <- (le_enc_dec l2) by auto. congruence.
Qed.

Lemma take_bytes_app n a r : length a = n -> take_bytes n (a ++ r) = Some (a, r).
Proof.
  intros <-. unfold take_bytes. rewrite app_length.
  destruct (Nat.ltb_spec (length a + length r) (length a)); [lia|].
  rewrite firstn_app, skipn_app, Nat.sub_diag, firstn_all, skipn_all.
  simpl. rewrite app_nil_r. reflexivity.
Qed.

Lemma take_bytes_inv n l a r : take_bytes n l = Some (a, r) ->
  l = a ++ r /\ length a = n.
Proof.
  unfold take_bytes. destruct (Nat.ltb_spec (length l) n); [discriminate|].
  intros [= <- <-]. split.
  - symmetry; apply firstn_skipn.
  - apply firstn_length_le; auto.
Qed.

Lemma take_le_app n v r : v < 256 ^ N.of_nat n ->
  take_le n (le_enc n v ++ r) = Some (v, r).
Proof.
  intros. unfold take_le. rewrite take_bytes_app by apply le_enc_length.
  rewrite le_dec_enc; auto.
Qed.

Lemma take_le_inv n l v r : take_le n l = Some (v, r) ->
  exists a, l = a ++ r /\ length a = n /\ v = le_dec a.
Proof.
  unfold take_le. destruct (take_bytes n l) as [[a r']|] eqn:E; [|discriminate].
  intros [= <- <-]. apply take_bytes_inv in E as [-> ?]. eauto.
Qed.

Lemma take_le_bound n l v r : bytes l -> take_le n l = Some (v, r) ->
  v < 256 ^ N.of_nat n /\ bytes r /\ l = le_enc n v ++ r.
Proof.
  intros Hb H. apply take_le_inv in H as (a & -> & Hl & ->).
  unfold bytes in *. apply Forall_app in Hb as [Ha Hr].
  repeat split; auto.
  - pose proof (le_dec_lt a Ha). unfold nlen in *. subst n. auto.
  - subst n. rewrite le_enc_dec; auto.
Qed.

Lemma take_le_some n l : (n <= length l)%nat -> exists v r, take_le n l = Some (v, r)
   /\ length r = (length l - n)%nat.
Proof.
  intros. unfold take_le, take_bytes. destruct (Nat.ltb_spec (length l) n); [lia|].
  eexists _, _. split; eauto. apply skipn_length.
Qed.

Lemma bytes_app a b : bytes (a ++ b) <-> bytes a /\ bytes b.
Proof. apply Forall_app. Qed.

Lemma bytes_nil : bytes [].
Proof. constructor. Qed.

Lemma bytes_repeat0 n : bytes (repeat 0 n).
Proof. induction n; simpl; constructor; auto. unfold is_byte; lia. Qed.

(** Parsing a concatenation of encodings. *)
Lemma count_p_app {A} (p : list N -> option (A * list N)) (e : A -> list N)
      (ok : A -> Prop) :
  (forall a r, ok a -> p (e a ++ r) = Some (a, r)) ->
  forall l r, Forall ok l ->
  count_p p (length l) (concat (map e l) ++ r) = Some (l, r).
Proof.
  intros Hp l r. induction 1; simpl; auto.
  rewrite <- app_assoc, Hp by auto. rewrite IHForall. reflexivity.
Qed.

Lemma count_p_length {A} (p : list N -> option (A * list N)) n l vs r :
  count_p p n l = Some (vs, r) -> length vs = n.
Proof.
  revert l vs r; induction n; simpl; intros.
  - injection H as <- <-. reflexivity.
  - destruct (p l) as [[a l1]|]; [|discriminate].
    destruct (count_p p n l1) as [[r' l2]|] eqn:E; [|discriminate].
    injection H as <- <-. simpl. f_equal. eauto.
Qed.

(** ** List helpers *)
Definition slice {A} (off len : nat) (l : list A) : list A :=
  firstn len (skipn off l).

(** Strictly increasing list of keys. *)
Fixpoint increasing (l : list N) : Prop :=
  match l with
  | [] => True
  | a :: r => match r with [] => True | b :: _ => a < b end /\ increasing r
  end.

Lemma increasing_cons a l : increasing (a :: l) <->
  (match l with [] => True | b :: _ => a < b end) /\ increasing l.
Proof. reflexivity. Qed.

Lemma increasing_head_lt a l x : increasing (a :: l) -> In x l -> a < x.
Proof.
  revert a; induction l; simpl; intros a0 [H1 H2] Hin; [tauto|].
  destruct Hin as [<-|Hin]; auto.
  specialize (IHl a H2 Hin). lia.
Qed.

Lemma increasing_strong a l : increasing (a :: l) <->
  (forall x, In x l -> a < x) /\ increasing l.
Proof.
  split.
  - intros H. split; [|apply H]. intros. eapply increasing_head_lt; eauto.
  - intros [H1 H2]. split; auto. destruct l; auto. apply H1. left; auto.
Qed.

Lemma increasing_app l1 l2 : increasing (l1 ++ l2) <->
  increasing l1 /\ increasing l2 /\ (forall x y, In x l1 -> In y l2 -> x < y).
Proof.
  induction l1; cbn [app].
  - split; [|tauto]. intros. repeat split; auto. intros x y [].
  - rewrite !increasing_strong, IHl1. split.
    + intros (H1 & H2 & H3 & H4). repeat split; auto.
      * intros; apply H1; apply in_or_app; auto.
      * intros x y [<-|Hx] Hy; auto. apply H1, in_or_app; auto.
    + intros ((H1 & H2) & H3 & H4). repeat split; auto.
      * intros x Hx. apply in_app_or in Hx as [Hx|Hx]; auto. apply H4; simpl; auto.
      * intros; apply H4; simpl; auto.
Qed.

Lemma increasing_NoDup l : increasing l -> NoDup l.
Proof.
  induction l; intros H; constructor.
  - intros Hin. apply increasing_strong in H as [H _]. specialize (H _ Hin). lia.
  - apply IHl. apply H.
Qed.

(** Function update. *)
Definition upd {A} (f : N -> A) (k : N) (v : A) : N -> A :=
  fun x => if x =? k then v else f x.

Lemma upd_same {A} (f : N -> A) k v : upd f k v k = v.
Proof. unfold upd. rewrite N.eqb_refl. reflexivity. Qed.

Lemma upd_other {A} (f : N -> A) k v x : x <> k -> upd f k v x = f x.
Proof. unfold upd. intros. destruct (N.eqb_spec x k); congruence. Qed.

(** [nseq a n] = [a; a+1; ...; a+n-1]. *)
Fixpoint nseq (a : N) (n : nat) : list N :=
  match n with O => [] | S n' => a :: nseq (a + 1) n' end.

Lemma nseq_length a n : length (nseq a n) = n.
Proof. revert a; induction n; simpl; auto. Qed.

Lemma in_nseq x a n : In x (nseq a n) <-> a <= x < a + N.of_nat n.
Proof.
  revert a; induction n; intros; simpl nseq.
  - simpl. lia.
  - simpl In. rewrite IHn. lia.
Qed.

Lemma nseq_app a n m : nseq a (n + m) = nseq a n ++ nseq (a + N.of_nat n) m.
Proof.
  revert a; induction n; intros; simpl.
  - f_equal. lia.
  - f_equal. rewrite IHn. do 2 f_equal. lia.
Qed.

Lemma nseq_increasing a n : increasing (nseq a n).
Proof.
  revert a; induction n; intros; [exact I|].
  simpl nseq. apply increasing_strong. split; auto.
  intros x Hx. apply in_nseq in Hx. lia.
Qed.

(** The half-open range [b, e). *)
Definition range (b e : N) : list N := nseq b (N.to_nat (e - b)).

Lemma in_range x b e : In x (range b e) <-> b <= x < e.
Proof. unfold range. rewrite in_nseq. lia. Qed.

Lemma range_increasing b e : increasing (range b e).
Proof. apply nseq_increasing. Qed.

Lemma range_nil b e : e <= b -> range b e = [].
Proof. intros. unfold range. replace (e - b) with 0 by lia. reflexivity. Qed.

Lemma range_app b m e : b <= m -> m <= e -> range b e = range b m ++ range m e.
Proof.
  intros. unfold range.
  replace (N.to_nat (e - b)) with (N.to_nat (m - b) + N.to_nat (e - m))%nat by lia.
  rewrite nseq_app. do 2 f_equal. lia.
Qed.

Lemma range_cons b e : b < e -> range b e = b :: range (b + 1) e.
Proof.
  intros. unfold range.
  replace (N.to_nat (e - b)) with (S (N.to_nat (e - (b + 1)))) by lia.
  reflexivity.
Qed.

Lemma range_length b e : length (range b e) = N.to_nat (e - b).
Proof. apply nseq_length. Qed.
