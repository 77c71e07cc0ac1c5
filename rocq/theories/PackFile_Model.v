(** Model of src/pack/toplevel.rs: packing a whole metadata device into a file
    and unpacking it again. *)
From Verif Require Import Base Csum_Model Codec_Model Pack_Model.

Definition urange : Type := N * N.

(** pack/toplevel.rs:38-49.  [shuffle] (29-32) is not part of this: the list is
    the one before shuffling. *)
Definition chunk_size (nr_blocks nr_jobs : N) : N :=
  N.min 4096 (N.max 128 (nr_blocks / (nr_jobs * 64))).
Definition nr_chunks (nr_blocks nr_jobs : N) : N := nr_blocks / chunk_size nr_blocks nr_jobs.
Definition mk_chunks (nr_blocks nr_jobs : N) : list urange :=
  let cs := chunk_size nr_blocks nr_jobs in
  let nc := nr_chunks nr_blocks nr_jobs in
  map (fun i => (i * cs, (i + 1) * cs)) (range 0 nc) ++
  (if nc * cs <? nr_blocks then [(nc * cs, nr_blocks)] else []).

(** pack/toplevel.rs:53-62: chunk [c] of the shuffled list goes to job
    [c mod nr_jobs], for [c] in 0..nr_chunks. *)
Definition deal (nr_jobs nc : N) (chunks : list urange) : list (list urange) :=
  let numbered := List.combine (range 0 nc) chunks in
  map (fun j => map snd (filter (fun p => fst p mod nr_jobs =? j) numbered))
      (range 0 nr_jobs).

Definition ranges_blocks (rs : list urange) : list N := flat_map (fun r => range (fst r) (snd r)) rs.

(** pack/toplevel.rs:102-145.  [z] is the data given to the zlib encoder since
    its last reset; the result is the sequence of buffers handed to the
    encoder between resets (each of them compressed and written as one
    record).  Reading the input device is assumed to succeed. *)
Fixpoint crunch (disk : N -> list N) (bs : list N) (z : list N) (written : N)
  : res (list (list N)) :=
  match bs with
  | [] => Ok (if 0 <? written then [z] else [])
  | b :: r =>
      let data := disk b in
      let kind := metadata_block_type data in
      if BT_eqb kind UNKNOWN then crunch disk r z written
      else
        c <- pack_block kind data ;;
        let z := z ++ le_enc 8 b ++ c in
        let written := written + 1 in
        if written =? 1024 then rest <- crunch disk r [] 0 ;; Ok (z :: rest)
        else crunch disk r z written
  end.

(** pack/toplevel.rs:88-98: the records of every job, in the order each job
    writes them. *)
Fixpoint pack_jobs (disk : N -> list N) (jobs : list (list urange)) : res (list (list (list N))) :=
  match jobs with
  | [] => Ok []
  | j :: r => a <- crunch disk (ranges_blocks j) [] 0 ;; b <- pack_jobs disk r ;; Ok (a :: b)
  end.

(** pack/toplevel.rs:26-27, 147-157 *)
Definition MAGIC : N := 11905160793643675511.
Definition PACK_VERSION : N := 3.
Definition write_header (nr_blocks : N) : list N :=
  le_enc 8 MAGIC ++ le_enc 8 PACK_VERSION ++ le_enc 8 4096 ++ le_enc 8 nr_blocks.
(** pack/toplevel.rs:159-188 *)
Definition read_header (i : list N) : res (N * list N) :=
  ' (m, i) <- p_u64 i ;;
  if negb (m =? MAGIC) then Err else
  ' (v, i) <- p_u64 i ;;
  if negb (v =? PACK_VERSION) then Err else
  ' (b, i) <- p_u64 i ;;
  if negb (b =? 4096) then Err else p_u64 i.

(** pack/toplevel.rs:128-130, 139-140: one record of the output file;
    [compress] is flate2's encoder (external). *)
Definition frame (compress : list N -> list N) (z : list N) : list N :=
  le_enc 8 (nlen (compress z)) ++ compress z.

(** pack/toplevel.rs:298-303: split the file into compressed records.  The loop
    stops when no length word can be read. *)
Fixpoint read_frames (fuel : nat) (i : list N) : res (list (list N)) :=
  match fuel with
  | O => Panic
  | S f =>
      match p_u64 i with
      | Ok (len, i) =>
          ' (bs, i) <- p_take (N.to_nat len) i ;;
          r <- read_frames f i ;; Ok (bs :: r)
      | _ => Ok []
      end
  end.

(** pack/toplevel.rs:246-256, on the decompressed record: the (block, contents)
    pairs it writes.  [Panic]: the unwrap or the assert. *)
Fixpoint decode_blocks (fuel : nat) (i : list N) : res (list (N * list N)) :=
  match fuel with
  | O => Panic
  | S f =>
      match p_u64 i with
      | Ok (b, i) =>
          match vm_unpack BLOCK_SIZE i with
          | Ok (data, i) =>
              if BT_eqb (metadata_block_type data) UNKNOWN then Panic
              else r <- decode_blocks f i ;; Ok ((b, data) :: r)
          | _ => Panic
          end
      | _ => Ok []
      end
  end.
Definition decode_record (z : list N) : res (list (N * list N)) := decode_blocks (S (length z)) z.

(** pack/toplevel.rs:263-313: the number of blocks of the output device and the
    block writes of every record, record by record; which worker performs them,
    and when, is up to the scheduler. *)
Fixpoint decode_all (decompress : list N -> list N) (frames : list (list N))
  : res (list (N * list N)) :=
  match frames with
  | [] => Ok []
  | z :: r => a <- decode_record (decompress z) ;; b <- decode_all decompress r ;; Ok (a ++ b)
  end.
Definition unpack_file (decompress : list N -> list N) (file : list N)
  : res (N * list (N * list N)) :=
  ' (nr, i) <- read_header file ;;
  frames <- read_frames (S (length i)) i ;;
  ws <- decode_all decompress frames ;;
  Ok (nr, ws).

(** The output device after a sequence of block writes; it starts as a sparse
    file of zeroes (pack/toplevel.rs:219-226, 278-279). *)
Definition zero_disk : N -> list N := fun _ => repeat 0 BLOCK_SIZE.
Definition apply_writes (d : N -> list N) (ws : list (N * list N)) : N -> list N :=
  fold_left (fun d w => upd d (fst w) (snd w)) ws d.
