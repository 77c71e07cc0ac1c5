(** C01: block checksums. *)
From Verif Require Import Base Csum_Model Csum_Proofs.

(** Writing a checksum makes the block identify itself as [kind], changes only
    the first four bytes, and succeeds exactly on 4096-byte buffers with a known
    kind. *)
Theorem C01_checksum_identifies : forall buf kind buf',
  bytes buf -> write_checksum buf kind = Ok buf' ->
  metadata_block_type buf' = kind /\
  skipn 4 buf' = skipn 4 buf /\ length buf' = length buf.
Proof.
  intros buf kind buf' Hb H. destruct (write_checksum_ok _ _ _ Hb H) as (H1 & H2 & H3 & _).
  auto.
Qed.

Theorem C01_checksum_accepts : forall buf kind,
  (exists b, write_checksum buf kind = Ok b) <->
  N.of_nat (length buf) = 4096 /\ kind <> UNKNOWN.
Proof.
  intros. rewrite write_checksum_total. unfold BLOCK_SIZE. split; intros [? ?]; split; auto; lia.
Qed.

(** A block of the wrong size has no type. *)
Theorem C01_wrong_size_unknown : forall buf,
  N.of_nat (length buf) <> 4096 -> metadata_block_type buf = UNKNOWN.
Proof.
  intros buf H. unfold metadata_block_type.
  destruct (Nat.eqb_spec (length buf) BLOCK_SIZE) as [E|E]; auto.
  exfalso. apply H. rewrite E. reflexivity.
Qed.

(** Any corruption of the body confined to 32 consecutive bits is detected. *)
Theorem C01_burst_detected : forall b b' k i,
  bytes b -> bytes b' -> length b = length b' ->
  metadata_block_type b = k -> k <> UNKNOWN -> b <> b' ->
  firstn 4 b = firstn 4 b' ->
  (forall j, (j < i \/ i + 32 <= j)%nat ->
     bit_at (skipn 4 b) j = bit_at (skipn 4 b') j) ->
  metadata_block_type b' <> k.
Proof. exact burst_detected. Qed.

(** Any corruption of the stored checksum word is detected. *)
Theorem C01_stored_sum_detected : forall b b' k,
  bytes b -> bytes b' -> length b = length b' ->
  metadata_block_type b = k -> k <> UNKNOWN ->
  skipn 4 b = skipn 4 b' -> firstn 4 b <> firstn 4 b' ->
  metadata_block_type b' <> k.
Proof. exact stored_sum_detected. Qed.

(** The CRC used is the standard CRC-32C: check value of "123456789". *)
Example crc32c_check_value :
  crc32c [49;50;51;52;53;54;55;56;57] = 3808858755. (* 0xE3069283 *)
Proof. vm_compute. reflexivity. Qed.

(** Hypotheses are satisfiable: an all-zero block, checksummed as a NODE, then
    with one bit flipped. *)
Definition ex_zero : list N := repeat 0 BLOCK_SIZE.
Definition ex_node : list N :=
  match write_checksum ex_zero NODE with Ok b => b | _ => [] end.
Example ex_node_type : metadata_block_type ex_node = NODE.
Proof. vm_compute. reflexivity. Qed.
Definition ex_flip : list N := firstn 100 ex_node ++ 1 :: skipn 101 ex_node.
Example ex_flip_type : metadata_block_type ex_flip = UNKNOWN.
Proof. vm_compute. reflexivity. Qed.

Print Assumptions C01_checksum_identifies.
Print Assumptions C01_checksum_accepts.
Print Assumptions C01_wrong_size_unknown.
Print Assumptions C01_burst_detected.
Print Assumptions C01_stored_sum_detected.
