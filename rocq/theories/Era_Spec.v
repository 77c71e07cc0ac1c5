(** What the era tools should do. *)
From Verif Require Import Base Csum_Model Codec_Model Walker_Model Array_Model Array_Spec Builder_Spec.

(** Block [x] lies in one of the ranges, given as (begin, end). *)
Definition covered (rs : list (N * N)) (x : N) : Prop := exists b e, In (b, e) rs /\ b <= x < e.
(** Non-empty ranges in order, with a gap between any two. *)
Fixpoint separated (rs : list (N * N)) : Prop :=
  match rs with
  | [] => True
  | (b, e) :: r => b < e /\ match r with (b', _) :: _ => e < b' | [] => True end /\ separated r
  end.
(** Bit [x] of a bitset in words of [K] bits. *)
Definition bit_at (K : N) (ws : list N) (x : N) : bool := N.testbit (nth (N.to_nat (x / K)) ws 0) (x mod K).

(** ** Writesets *)
(** The marked ranges of a writeset as the input gives them, (begin, len): not empty, in
    order, disjoint and within [lo, nr). *)
Fixpoint marked_ranges (lo nr : N) (rs : list (N * N)) : Prop :=
  match rs with
  | [] => True
  | (b, l) :: r => lo <= b /\ 0 < l /\ b + l <= nr /\ marked_ranges (b + l) nr r
  end.
Definition marked (rs : list (N * N)) (x : N) : Prop := exists b l, In (b, l) rs /\ b <= x < b + l.
(** No range crosses a boundary between 64-bit words. *)
Definition within_word (r : N * N) : Prop := fst r / 64 = (fst r + snd r - 1) / 64.

(** ** Era metadata on a device *)
(** The array at [root] has the values [vs], all its blocks can be read and lie on the device. *)
Definition readable_array {V} (c : codec V) (eng : N -> option (list N)) (d : disk) (nr root : N) (vs : list V) : Prop :=
  exists foot blocks, array_at c d root vs foot blocks /\ NoDup foot /\
    forall b, In b (blocks ++ foot) -> b < nr /\ eng b = Some (d b).
(** A writeset and the words of its bitset, as many as it needs. *)
Definition readable_set (eng : N -> option (list N)) (d : disk) (nr : N) (ws : writeset) (words : list N) : Prop :=
  readable_array u64_codec eng d nr (ws_root ws) words /\ nlen words = (ws_nr_bits ws + 63) / 64 /\ ws_nr_bits ws < 2 ^ 32 /\
  Forall (fun w => w < 2 ^ 64) words.
(** Block [x] is marked in it. *)
Definition marks (ws : writeset) (words : list N) (x : N) : Prop := x < ws_nr_bits ws /\ bit_at 64 words x = true.
(** No bit beyond the end is set. *)
Definition clean_tail (ws : writeset) (words : list N) : Prop := forall x, ws_nr_bits ws <= x -> bit_at 64 words x = false.
(** The tree of writesets. *)
Definition readable_tree (eng : N -> option (list N)) (d : disk) (nr root : N) (kvs : list (N * writeset)) : Prop :=
  exists depth foot, tree ws_codec d true depth root kvs foot /\ NoDup foot /\ (forall b, In b foot -> b < nr /\ eng b = Some (d b)).
(** The archived writesets [m] and the current one, if there is one. *)
Definition all_sets (sb : era_sb) (m : list (N * writeset)) : list (N * writeset) :=
  m ++ (if ws_root (es_current_writeset sb) =? 0 then [] else [(es_current_era sb, es_current_writeset sb)]).
(** Block [x] is marked in a writeset of era [e]. *)
Definition written_in (sets : list ((N * writeset) * list N)) (e x : N) : Prop :=
  exists ws words, In ((e, ws), words) sets /\ marks ws words x.
(** [e] is the latest era in which [x] was written; without one, what the era array says. *)
Definition latest_era (sets : list ((N * writeset) * list N)) (eras : list N) (x e : N) : Prop :=
  (written_in sets e x /\ forall e', written_in sets e' x -> e' <= e) \/
  ((forall e', ~ written_in sets e' x) /\ nth_error eras (N.to_nat x) = Some e).
