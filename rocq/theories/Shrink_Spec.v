(** What shrinking a data device to [nr] blocks should do to the mappings. *)
From Verif Require Import Base Codec_Model ThinOut_Model.

(** Data block [b] is mapped. *)
Definition used_by (es : list event) (b : N) : Prop :=
  exists m, In (EvMap m) es /\ m_data m <= b < m_data m + m_len m.
(** Runs that a document may contain: at least one block, no number past 2^64. *)
Definition runs_fit (es : list event) : Prop :=
  forall m, In (EvMap m) es -> 0 < m_len m /\ m_data m + m_len m < 2 ^ 64 /\ m_thin m + m_len m < 2 ^ 64.
(** A plan is a list of ((start, end), to): the blocks start..end move to to, to + 1, ... *)
Definition moves (plan : list ((N * N) * N)) (b b' : N) : Prop :=
  exists s e t, In ((s, e), t) plan /\ s <= b < e /\ b' = t + (b - s).
(** Where a block is afterwards. *)
Definition goes (plan : list ((N * N) * N)) (b b' : N) : Prop :=
  moves plan b b' \/ ((forall x, ~ moves plan b x) /\ b' = b).
(** Mapping [q] is mapping [p] with its data block moved. *)
Definition relocated (plan : list ((N * N) * N)) (p q : N * block_time) : Prop :=
  fst q = fst p /\ bt_time (snd q) = bt_time (snd p) /\ goes plan (bt_block (snd p)) (bt_block (snd q)).
(** [l] lists the blocks with property [P]. *)
Definition lists (l : list N) (P : N -> Prop) : Prop := NoDup l /\ forall b, In b l <-> P b.
