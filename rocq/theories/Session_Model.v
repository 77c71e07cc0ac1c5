(** A sequence of builds that share leaves, as a user of
    src/pdata/btree_builder.rs makes them: runs of leaves are built once
    (NodeBuilder::new with shared = true, then complete; lines 216, 358), trees
    are made from values and references to such runs (push_value, push_nodes,
    complete, build_btree; 241, 280, 358, 499), and at the end the temporary
    references to the runs are released (release_leaves; 527).  thin/restore.rs
    makes exactly these calls: lines 124-154, 173-183, 287-343. *)
From Verif Require Import Base Codec_Model SpaceMap_Model Batcher_Model Builder_Model.

Section Session.
Context {V R : Type}.
Variable c : codec V.
Variables rcinc rcdec : V -> st R unit.

(** The state: the block writer, the value counter, the runs and roots so far. *)
Record sess := mkss { ss_wb : wb; ss_rc : R; ss_runs : list (list summary); ss_roots : list N }.

Inductive item := IVal (k : N) (v : V) | IRef (run : nat).
Inductive sop := Define (kvs : list (N * V)) | Tree (its : list item).

(** A reference to a run that does not exist is an error (thin/restore.rs:337-340). *)
Fixpoint item_ops (runs : list (list summary)) (its : list item) : option (list (@build_op V)) :=
  match its with
  | [] => Some []
  | IVal k v :: r => match item_ops runs r with Some os => Some (PushValue k v :: os) | None => None end
  | IRef i :: r => match nth_error runs i, item_ops runs r with
                   | Some ns, Some os => Some (PushNodes ns :: os) | _, _ => None end
  end.

Definition sess_step (o : sop) : st sess unit := fun s =>
  match o with
  | Define kvs =>
      match build_nodes c (leaf_io V) true rcinc (map (fun kv => PushValue (fst kv) (snd kv)) kvs) (ss_rc s) (ss_wb s) with
      | (w, Ok (ns, rc)) => (mkss w rc (ss_runs s ++ [ns]) (ss_roots s), Ok tt)
      | (w, Err) => (mkss w (ss_rc s) (ss_runs s) (ss_roots s), Err)
      | (w, Panic) => (mkss w (ss_rc s) (ss_runs s) (ss_roots s), Panic)
      end
  | Tree its =>
      match item_ops (ss_runs s) its with
      | None => (s, Err)
      | Some os =>
          match btree_build c rcinc os (ss_rc s) (ss_wb s) with
          | (w, Ok (root, rc)) => (mkss w rc (ss_runs s) (ss_roots s ++ [root]), Ok tt)
          | (w, Err) => (mkss w (ss_rc s) (ss_runs s) (ss_roots s), Err)
          | (w, Panic) => (mkss w (ss_rc s) (ss_runs s) (ss_roots s), Panic)
          end
      end
  end.
Fixpoint sess_steps (os : list sop) : st sess unit :=
  match os with [] => ret tt | o :: r => _ <~ sess_step o ;; sess_steps r end.

(** thin/restore.rs:178-180 *)
Fixpoint release_runs (runs : list (list summary)) : st (wb * R) unit :=
  match runs with [] => ret tt | ns :: r => _ <~ release_leaves c rcdec ns ;; release_runs r end.

Definition session (os : list sop) : st sess unit :=
  _ <~ sess_steps os ;;
  fun s => match release_runs (ss_runs s) (ss_wb s, ss_rc s) with
           | ((w, rc), r) => (mkss w rc [] (ss_roots s), r)
           end.
End Session.
Arguments mkss {R}.
Arguments ss_wb {R}.
Arguments ss_rc {R}.
Arguments ss_runs {R}.
Arguments ss_roots {R}.

(** MappingRC (thin/restore.rs:27-42): the data space map as value counter. *)
Definition mapping_inc (v : block_time) : st core_sm unit := fun s => sm_inc s (bt_block v) 1.
Definition mapping_dec (v : block_time) : st core_sm unit := fun s =>
  match sm_dec s (bt_block v) with
  | (s', Ok _) => (s', Ok tt) | (s', Err) => (s', Err) | (s', Panic) => (s', Panic)
  end.
