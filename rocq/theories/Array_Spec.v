(** What an array on a device is. *)
From Verif Require Import Base Csum_Model Codec_Model SpaceMap_Model Batcher_Model Builder_Model Builder_Spec Walker_Model Array_Model.

(** Block [b] of the device is an array block with the values [vs]: it has the checksum of
    an array block, and the reader returns exactly these values and a header that says
    so. *)
Definition array_block_at {V} (c : codec V) (d : disk) (b : N) (vs : list V) : Prop :=
  bytes (d b) /\ nlen (d b) = 4096 /\ metadata_block_type (d b) = ARRAY /\
  unpack_array_block c (d b) = Ok (mkab (mkah ((4096 - 24) / N.of_nat (csize c)) (nlen vs) (N.of_nat (csize c)) b) vs).

(** The array rooted at [root] has exactly the values [vs]: an index tree maps 0, 1, ... to
    the array blocks; all but the last hold as many values as fit, and together they hold
    [vs].  [foot]: the blocks of the tree; [blocks]: the array blocks. *)
Definition array_at {V} (c : codec V) (d : disk) (root : N) (vs : list V) (foot blocks : list N) : Prop :=
  exists depth vss,
    tree u64_codec d true depth root (combine (range 0 (nlen blocks)) blocks) foot /\
    Forall2 (array_block_at c d) blocks vss /\ concat vss = vs /\
    forall j, (j < length vss)%nat ->
      nlen (nth j vss []) = N.min (nlen vs - N.of_nat j * ((4096 - 24) / N.of_nat (csize c))) ((4096 - 24) / N.of_nat (csize c)) /\
      nth j vss [] <> [].

(** The contents asked for: entry i is what was pushed for it, or the default. *)
Definition value_at {V} (dflt : V) (kvs : list (N * V)) (i : N) : V :=
  match assoc kvs i with Some v => v | None => dflt end.
Definition contents {V} (dflt : V) (nr : N) (kvs : list (N * V)) : list V := map (value_at dflt kvs) (range 0 nr).

(** ** Bitsets *)
(** The words of an array block as the device gives it now: [None] when it cannot be read
    or is not a valid array block. *)
Definition block_words (eng : N -> option (list N)) (b : N) : option (list N) :=
  match eng b with
  | Some data =>
      match metadata_block_type data, unpack_array_block u64_codec data with
      | ARRAY, Ok a => Some (ab_values a)
      | _, _ => None
      end
  | None => None
  end.
(** Bit [x] of the bitset whose array blocks are [blocks]: 509 words of 64 bits per block. *)
Definition stored_bit (eng : N -> option (list N)) (blocks : list N) (x : N) : option bool :=
  match nth_error blocks (N.to_nat (x / (509 * 64))) with
  | Some b =>
      match block_words eng b with
      | Some ws => option_map (fun w => N.testbit w (x mod 64)) (nth_error ws (N.to_nat (x mod (509 * 64) / 64)))
      | None => None
      end
  | None => None
  end.
(** What is wrong with an array block. *)
Definition block_errors (eng : N -> option (list N)) (nr_bits : N) (ib : N * N) : list aerr :=
  match eng (snd ib), block_words eng (snd ib) with
  | None, _ => [AIo (fst ib) (snd ib)]
  | _, None => [ABad (fst ib) (snd ib)]
  | _, Some _ => if nr_bits <=? fst ib * 509 * 64 then [ARefused (fst ib) (snd ib)] else []
  end.
