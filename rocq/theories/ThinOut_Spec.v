(** What the output of the tools that print thin mappings means. *)
From Verif Require Import Base Csum_Model Codec_Model SpaceMap_Model Batcher_Model Builder_Model
  Builder_Spec ThinOut_Model.

(** The mappings of a thin device: increasing thin blocks (a device has
    fewer than 2^64 blocks), data blocks and
    times of the widths stored on disk. *)
Definition mappings_ok (kvs : list (N * block_time)) : Prop :=
  increasing (map fst kvs) /\ Forall (fun kv => fst kv < 2 ^ 64 - 1 /\ bt_block (snd kv) < 2 ^ 40) kvs.

(** The mappings a run of thin_dump stands for. *)
Definition expand (m : ir_map) : list (N * block_time) :=
  map (fun i => (m_thin m + i, mkbt (m_data m + i) (m_time m))) (range 0 (m_len m)).
Definition mergeable (a b : ir_map) : Prop :=
  m_thin b = m_thin a + m_len a /\ m_data b = m_data a + m_len a /\ m_time b = m_time a.
(** Consecutive elements of a list are related. *)
Fixpoint consecutive {A} (P : A -> A -> Prop) (l : list A) : Prop :=
  match l with
  | a :: r => match r with b :: _ => P a b | [] => True end /\ consecutive P r
  | [] => True
  end.

(** The mappings the events inside a device or definition stand for, given what
    the references stand for. *)
Definition denote (resolve : N -> list (N * block_time)) (e : event) : list (N * block_time) :=
  match e with EvMap m => expand m | EvRef n => resolve n | _ => [] end.
Definition denote_entry (leaf : N -> list (N * block_time)) (resolve : N -> list (N * block_time)) (e : entry)
  : list (N * block_time) :=
  match e with EnLeaf b => leaf b | EnRef n => resolve n end.
(** The block [b] can be read and is a B-tree leaf with these entries. *)
Definition leaf_is (eng : N -> option (list N)) (b : N) (kvs : list (N * block_time)) : Prop :=
  exists data h ks vs, eng b = Some data /\ metadata_block_type data = NODE /\
    unpack_node_raw bt_codec data true true = Ok (Leaf h ks vs) /\ kvs = combine ks vs.

(** ** thin_delta *)
Definition classify (left right : list (N * block_time)) (t : N) : option dkind :=
  match assoc left t, assoc right t with
  | Some a, Some b => Some (if bt_block a =? bt_block b then KSame else KDiffer)
  | Some _, None => Some KLeft
  | None, Some _ => Some KRight
  | None, None => None
  end.
(** Elements (kind, begin, length) one after the other from block [lo] on. *)
Fixpoint in_order (lo : N) (es : list (dkind * N * N)) : Prop :=
  match es with
  | [] => True
  | (_, b, n) :: r => lo <= b /\ 1 <= n /\ in_order (b + n) r
  end.
Definition covers (es : list (dkind * N * N)) (k : dkind) (t : N) : Prop :=
  exists b n, In (k, b, n) es /\ b <= t < b + n.
Definition not_mergeable (a b : dkind * N * N) : Prop :=
  let '(k, s, n) := a in let '(k', s', _) := b in ~ (k = k' /\ s' = s + n).

(** The data blocks a verbose range claims for thin block [t]. *)
Definition claims (d : delta) (t : N) : option (dkind * option N * option N) :=
  let '(k, s, (a, b), n) := verbose_elem d in
  if (s <=? t) && (t <? s + n) then
    Some (k, match k with KRight => None | _ => Some (a + (t - s)) end,
             match k with KLeft => None | _ => Some (b + (t - s)) end)
  else None.
Definition truth (left right : list (N * block_time)) (t : N) : option (dkind * option N * option N) :=
  match classify left right t with
  | Some k => Some (k, option_map bt_block (assoc left t), option_map bt_block (assoc right t))
  | None => None
  end.

(** ** thin_trim *)
(** Block [b] is in use according to bitmap [b / 16320]. *)
Definition in_use (bitmaps : list (list N)) (b : N) : bool :=
  match nth_error bitmaps (N.to_nat (b / 16320)) with
  | Some data =>
      match bitmap_unpack data with
      | Ok (bm, _) => match nth_error (bm_entries bm) (N.to_nat (b mod 16320)) with
                      | Some (Small 0) => false | _ => true end
      | _ => true
      end
  | None => true
  end.
(** A discard covers data block [b] of [bs] bytes (some byte of it). *)
Definition discards (bs : N) (d : N * N) (b : N) : Prop := fst d < (b + 1) * bs /\ b * bs < fst d + snd d.

(** ** thin_rmap *)
Definition rr_triples (r : rregion) : list (N * N * N) :=
  map (fun i => (rr_begin r + i, rr_dev r, rr_thin r + i)) (range 0 (rr_end r - rr_begin r)).
Definition rr_before (a b : rregion) : Prop := rr_begin a <= rr_begin b.

(** ** migration stream *)
Fixpoint contiguous (from : N) (cs : list chunk) (upto : N) : Prop :=
  match cs with
  | [] => from = upto
  | c :: r => ck_offset c = from /\ 0 < ck_len c /\ contiguous (from + ck_len c) r upto
  end.
Definition copies (cs : list chunk) (c : contents) (byte : N) : Prop :=
  exists k, In k cs /\ ck_contents k = c /\ ck_offset k <= byte < ck_offset k + ck_len k.
