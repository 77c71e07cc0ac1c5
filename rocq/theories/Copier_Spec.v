(** What a copy reports, in terms of its list of operations, the faults of the devices and
    the contents of the devices before and after. *)
From Verif Require Import Base Copier_Model.

Inductive outcome := Copied | ReadFailed | WriteFailed.
Definition outcome_is (o p : outcome) : bool :=
  match o, p with Copied, Copied | ReadFailed, ReadFailed | WriteFailed, WriteFailed => true | _, _ => false end.
(** The operations with outcome [o], in order. *)
Definition with_outcome (o : outcome) (log : list (cop * outcome)) : list cop :=
  map fst (filter (fun p => outcome_is o (snd p)) log).

(** How many of the first [n] block transfers fail. *)
Definition failures (ok : nat -> bool) (n : nat) : nat := length (filter (fun i => negb (ok i)) (seq 0 n)).

(** The stats of a copy of [ops] that took the devices from [m] to [m']: every operation has
    exactly one outcome; the lists are those of the failed ones and the counter counts the
    others; a copied block is in its place, a block that could not be read is left alone,
    nothing but the destinations is touched; and there are as many failures as the devices
    had. *)
Definition reports {A} (src dst : bool) (f : faults A) (ops : list cop) (m m' : mem A) (t : cstats) : Prop :=
  exists log : list (cop * outcome),
    map fst log = ops /\
    t_rerr t = with_outcome ReadFailed log /\ t_werr t = with_outcome WriteFailed log /\
    t_copied t = nlen (with_outcome Copied log) /\
    (forall op, In (op, Copied) log -> m' dst (c_dst op) = m src (c_src op)) /\
    (forall op, In (op, ReadFailed) log -> m' dst (c_dst op) = m dst (c_dst op)) /\
    (forall d b, ~ (d = dst /\ In b (map c_dst ops)) -> m' d b = m d b) /\
    length (t_rerr t) = failures (f_read f) (length ops) /\
    length (t_werr t) = failures (f_write f) (length ops - length (t_rerr t)).

(** The operations do not interfere: no two have the same destination and, on one device, no
    source is a destination. *)
Definition independent (src dst : bool) (ops : list cop) : Prop :=
  NoDup (map c_dst ops) /\ (src = dst -> forall o p, In o ops -> In p ops -> c_src o <> c_dst p).

(** Infinite schedules in which both threads get turns again and again. *)
Definition fair (f : nat -> bool) : Prop := forall who n, exists m, (n <= m)%nat /\ f m = who.

(** The stats of the rescue copier: each operation is marked with whether some page of it
    could not be read, and whether some page could not be written.  A page of an operation
    without write failures is copied, or could not be read and is left alone. *)
Definition rescued {A} (src dst : bool) (pages : nat) (ops : list cop) (m m' : pmem A) (t : cstats) : Prop :=
  exists log : list (cop * (bool * bool)),
    map fst log = ops /\
    t_rerr t = map fst (filter (fun p => fst (snd p)) log) /\
    t_werr t = map fst (filter (fun p => snd (snd p)) log) /\
    t_copied t = nlen (filter (fun p => negb (fst (snd p)) && negb (snd (snd p))) log) /\
    (forall op, In (op, (false, false)) log -> forall i, (i < pages)%nat -> m' dst (c_dst op) i = m src (c_src op) i) /\
    (forall op, In (op, (true, false)) log -> forall i, (i < pages)%nat ->
       m' dst (c_dst op) i = m src (c_src op) i \/ m' dst (c_dst op) i = m dst (c_dst op) i) /\
    (forall d b i, ~ (d = dst /\ In b (map c_dst ops) /\ (i < pages)%nat) -> m' d b i = m d b i).
