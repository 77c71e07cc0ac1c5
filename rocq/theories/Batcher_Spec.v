(** A device without a queue in front of it. *)
From Verif Require Import Base Csum_Model Codec_Model SpaceMap_Model Batcher_Model.

(** [cur]: the blocks as last written.  What a call may return and do.  [free]: the
    blocks whose reference count is zero; [al]: the blocks allocated since the
    allocations were last cleared. *)
Definition direct_spec (good : N -> bool) (n : N)
    (cur : disk) (cnt : N -> N) (al : list N) (o : wb_op) (out : wb_out)
    (cur' : disk) (cnt' : N -> N) (al' : list N) : Prop :=
  match o, out with
  | BAlloc, OBlock r | BAllocZeroed, OBlock r =>
      (forall x, cur' x = cur x) /\
      ((exists b, r = Ok b /\ b_loc b < n /\ cnt (b_loc b) = 0 /\
          (o = BAllocZeroed -> b_data b = repeat 0 (N.to_nat 4096)) /\
          (forall x, cnt' x = if x =? b_loc b then 1 else cnt x) /\ al' = b_loc b :: al) \/
       (r = Err /\ (forall b, b < n -> cnt b <> 0) /\ cnt' = cnt /\ al' = al))
  | BWrite loc data kind, OUnit r =>
      cnt' = cnt /\ al' = al /\
      match write_checksum data kind with
      | Ok d => r = Ok tt /\ forall x, cur' x = if x =? loc then d else cur x
      | Err => r = Err /\ (forall x, cur' x = cur x)
      | Panic => False
      end
  | BRead loc, OBlock r =>
      (forall x, cur' x = cur x) /\ cnt' = cnt /\ al' = al /\ (good loc = true -> r = Ok (mkblock loc (cur loc)))
  | BFlush, OUnit r => r = Ok tt /\ (forall x, cur' x = cur x) /\ cnt' = cnt /\ al' = al
  | BClearAllocations, OBlocks r => r = Ok al /\ (forall x, cur' x = cur x) /\ cnt' = cnt /\ al' = []
  | _, _ => False
  end.

Fixpoint direct_history (good : N -> bool) (n : N) (cur : disk) (cnt : N -> N) (al : list N)
    (os : list wb_op) (outs : list wb_out) (cur' : disk) (cnt' : N -> N) (al' : list N) : Prop :=
  match os, outs with
  | [], [] => (forall x, cur' x = cur x) /\ cnt' = cnt /\ al' = al
  | o :: os, x :: outs =>
      exists c1 n1 a1, direct_spec good n cur cnt al o x c1 n1 a1 /\
                       direct_history good n c1 n1 a1 os outs cur' cnt' al'
  | _, _ => False
  end.

(** Only blocks the device has are written. *)
Definition writes_good (good : N -> bool) (o : wb_op) : Prop :=
  match o with BWrite loc _ _ => good loc = true | _ => True end.
