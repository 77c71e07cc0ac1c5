(** The abstract counter per block that a space map should be. *)
From Verif Require Import Base SpaceMap_Model.

(** Number of blocks below [n] with a non-zero counter. *)
Definition nr_used (n : N) (cnt : N -> N) : N :=
  nlen (filter (fun b => negb (cnt b =? 0)) (range 0 n)).

(** What one operation may return and do to the counters of a map of [n]
    blocks whose counters may not exceed [max]. *)
Definition sm_spec (n max : N) (cnt : N -> N) (o : sm_op) (out : sm_out) (cnt' : N -> N) : Prop :=
  match o, out with
  | OGet b, RCount r => cnt' = cnt /\ r = (if b <? n then Ok (cnt b) else Err)
  | OSet b v, RCount r =>
      (b < n /\ v <= max /\ r = Ok (cnt b) /\ (forall x, cnt' x = if x =? b then v else cnt x)) \/
      (~ (b < n /\ v <= max) /\ r = Err /\ cnt' = cnt)
  | ODec b, RBool r =>
      (b < n /\ 0 < cnt b /\ r = Ok (cnt b =? 1) /\ (forall x, cnt' x = if x =? b then cnt b - 1 else cnt x)) \/
      (~ (b < n /\ 0 < cnt b) /\ r = Err /\ cnt' = cnt)
  | OInc b len, RUnit r =>
      (b + len <= n /\ (forall x, b <= x < b + len -> cnt x < max) /\ r = Ok tt /\
         (forall x, cnt' x = if (b <=? x) && (x <? b + len) then cnt x + 1 else cnt x)) \/
      (n < b + len /\ r = Err /\ cnt' = cnt) \/
      (b + len <= n /\ r = Err /\ exists sat, b <= sat < b + len /\ cnt sat = max /\
         (forall x, b <= x < sat -> cnt x < max) /\
         (forall x, cnt' x = if (b <=? x) && (x <? sat) then cnt x + 1 else cnt x))
  | OAlloc, RBlock r =>
      (exists b, b < n /\ cnt b = 0 /\ r = Ok (Some b) /\ (forall x, cnt' x = if x =? b then 1 else cnt x)) \/
      ((forall b, b < n -> cnt b <> 0) /\ r = Ok None /\ cnt' = cnt)
  | OFindFree b e, RBlock r =>
      cnt' = cnt /\
      ((exists x, b <= x < e /\ x < n /\ cnt x = 0 /\ (forall y, b <= y < x -> cnt y <> 0) /\ r = Ok (Some x)) \/
       ((forall x, b <= x < e -> x < n /\ cnt x <> 0) /\ r = Ok None) \/
       ((forall x, b <= x < n -> cnt x <> 0) /\ n < e /\ b < e /\ r = Panic))
  | ONrBlocks, RCount r => cnt' = cnt /\ r = Ok n
  | ONrAllocated, RCount r => cnt' = cnt /\ r = Ok (nr_used n cnt)
  | _, _ => False
  end.

(** A history: the outputs of a sequence of operations. *)
Fixpoint sm_history (n max : N) (cnt : N -> N) (os : list sm_op) (outs : list sm_out) (cnt' : N -> N) : Prop :=
  match os, outs with
  | [], [] => cnt' = cnt
  | o :: os, x :: outs => exists c1, sm_spec n max cnt o x c1 /\ sm_history n max c1 os outs cnt'
  | _, _ => False
  end.

(** The block numbers and lengths given to inc do not overflow 64 bits. *)
Definition op_no_overflow (o : sm_op) : Prop :=
  match o with OInc b len => b + len < 2 ^ 64 | _ => True end.

(** How many of the ranges (begin, len) contain block [b]. *)
Fixpoint nr_covering (incs : list (N * N)) (b : N) : N :=
  match incs with
  | [] => 0
  | (begin, len) :: r => (if (begin <=? b) && (b <? begin + len) then 1 else 0) + nr_covering r b
  end.
