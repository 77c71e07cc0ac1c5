(** What collecting the leaves of several trees should give. *)
From Verif Require Import Base Csum_Model Codec_Model Merge_Model.

Section Spec.
Context {V : Type} (c : codec V) (eng : N -> option (list N)).
(** The summary is that of a leaf on the device, with these entries, at least one. *)
Definition summarises (l : leaf_summary) (kvs : list (N * V)) : Prop :=
  exists data is_root h ks vs, eng (l_block l) = Some data /\
    check_and_unpack_node c (mkblock (l_block l) data) false is_root = Ok (Leaf h ks vs) /\ length ks = length vs /\
    kvs = combine ks vs /\ ks <> [] /\ l_nr l = nlen ks /\ l_low l = hd 0 ks /\ l_high l = last ks 0.
(** One after the other. *)
Fixpoint in_sequence (ls : list leaf_summary) : Prop :=
  match ls with
  | l :: (l' :: _) as r => l_high l < l_low l' /\ in_sequence r
  | _ => True
  end.
End Spec.
