(** What the space map checker and the leak repair should do. *)
From Verif Require Import Base Csum_Model Codec_Model SpaceMap_Model Builder_Spec Walker_Spec SmCheck_Model.

(** A leak: the bitmap says 1, nobody refers to the block. *)
Definition is_leak (expected : N) (e : bitmap_entry) : Prop := e = Small 1 /\ expected = 0.
(** What the checker lets pass: a leak; the low byte of the count; "3 or more". *)
Definition tolerated (expected : N) (e : bitmap_entry) : Prop :=
  is_leak expected e \/ match e with Small c => c = expected mod 256 | Overflow => 3 <= expected end.

(** The device holds a bitmap with these entries at [loc]. *)
Definition bitmap_on (eng : N -> option (list N)) (loc : N) (es : list bitmap_entry) : Prop :=
  exists data bm rest, eng loc = Some data /\ metadata_block_type data = BITMAP /\ bitmap_unpack data = Ok (bm, rest) /\ bm_entries bm = es.
(** The bitmaps of an index; the entry for block [b] is the [b]-th of all of them. *)
Definition bitmaps_on (eng : N -> option (list N)) (ies : list index_entry) (ess : list (list bitmap_entry)) : Prop :=
  Forall2 (fun ie es => bitmap_on eng (ie_blocknr ie) es) ies ess.
Definition entry_of (ess : list (list bitmap_entry)) (b : N) : option bitmap_entry := nth_error (concat ess) (N.to_nat b).

(** Bitmap [i] of the index contains a leak. *)
Definition leaky (counts : N -> N) (nr : N) (ess : list (list bitmap_entry)) (i : nat) : Prop :=
  exists b e, b / 16320 = N.of_nat i /\ b < nr /\ entry_of ess b = Some e /\ is_leak (counts b) e.
(** [lks] lists exactly the bitmaps with leaks, in order. *)
Definition leaks_listed (counts : N -> N) (nr : N) (ies : list index_entry) (ess : list (list bitmap_entry)) (lks : list leak) : Prop :=
  exists is, increasing (map N.of_nat is) /\ (forall i, In i is <-> leaky counts nr ess i) /\
    Forall2 (fun i lk => lk_first lk = N.of_nat i * 16320 /\ exists ie, nth_error ies i = Some ie /\ lk_loc lk = ie_blocknr ie) is lks.
Definition nr_leaks (counts : N -> N) (nr : N) (ess : list (list bitmap_entry)) : N :=
  nlen (filter (fun b => match entry_of ess b with Some (Small 1) => counts b =? 0 | _ => false end) (range 0 nr)).

(** The count a space map stores for a block: the two bits, or the entry of the reference
    count tree. *)
Definition stored_count (ess : list (list bitmap_entry)) (kvs : list (N * N)) (b : N) : option N :=
  match entry_of ess b with
  | Some (Small c) => Some c
  | Some Overflow => assoc kvs b
  | None => None
  end.
(** A space map for [nr] blocks that a well-behaved writer may have written, whatever the
    counts in it: enough bitmaps; the reference count tree has exactly the blocks marked as
    overflow, with counts above 2. *)
Definition complete_map (nr : N) (ess : list (list bitmap_entry)) (kvs : list (N * N)) : Prop :=
  (forall b, b < nr -> entry_of ess b <> None) /\
  (forall b, b < nr -> entry_of ess b = Some Overflow -> In b (map fst kvs)) /\
  (forall b v, In (b, v) kvs -> b < nr /\ entry_of ess b = Some Overflow /\ 3 <= v).

(** What leak repair does to the entry of block [b]. *)
Definition released (counts : N -> N) (nr b : N) (e e' : bitmap_entry) : Prop :=
  (b < nr /\ is_leak (counts b) e /\ e' = Small 0) \/ (~ (b < nr /\ is_leak (counts b) e) /\ e' = e).
(** A device that returns the blocks of [d], some of which cannot be read. *)
Definition reads (readable : N -> bool) (d : disk) (b : N) : option (list N) := if readable b then Some (d b) else None.

(** Devices have blocks of 4096 bytes. *)
Definition blocks_ok (eng : N -> option (list N)) : Prop := forall b data, eng b = Some data -> bytes data /\ nlen data = 4096.
Definition dev_ok (d : disk) : Prop := forall b, bytes (d b) /\ nlen (d b) = 4096.

(** Maps in core: within their limits; [l]: distinct blocks not in use; *)
(** [sm'] is [sm] with the blocks of [l] counted. *)
Definition with_blocks (l : list N) (sm sm' : core_sm) : Prop :=
  sm_nr sm' = sm_nr sm /\ sm_max sm' = sm_max sm /\
  forall b, b < sm_nr sm -> sm_counts sm' b = sm_counts sm b + counted l b.
Definition core_valid (sm : core_sm) : Prop := sm_nr sm < W64 /\ 1 <= sm_max sm /\ forall b, b < sm_nr sm -> sm_counts sm b <= sm_max sm.
Definition fresh (sm : core_sm) (l : list N) : Prop := NoDup l /\ forall b, In b l -> b < sm_nr sm /\ sm_counts sm b = 0.
(** The reference count tree agrees with the expected counts. *)
Definition matches (sm : core_sm) (kvs : list (N * N)) : Prop := forall k v, In (k, v) kvs -> k < sm_nr sm /\ sm_counts sm k = v.
