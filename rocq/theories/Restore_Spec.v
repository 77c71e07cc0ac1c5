(** What may be handed to thin_restore, and what the outcome should be. *)
From Verif Require Import Base Csum_Model Codec_Model SpaceMap_Model Batcher_Model Builder_Model ThinOut_Model.

(** One <def> or <device> section: only mappings in a definition, mappings and references
    in a device. *)
Inductive section_events : list event -> Prop :=
| def_section name ms : section_events (EvDefB name :: map EvMap ms ++ [EvDefE])
| dev_section d its : Forall (fun e => (exists m, e = EvMap m) \/ exists name, e = EvRef name) its ->
    section_events (EvDevB d :: its ++ [EvDevE]).
(** A whole document: the superblock around any number of sections. *)
Definition document (es : list event) : Prop :=
  exists sb secs, Forall section_events secs /\ es = EvSbB sb :: concat secs ++ [EvSbE].

(** Properly nested tags, which is what an XML reader that checks end tags delivers. *)
Inductive tag := TSb | TDef | TDev.
Fixpoint nested (open : list tag) (es : list event) : Prop :=
  match es with
  | [] => True
  | EvSbB _ :: r => nested (TSb :: open) r
  | EvDefB _ :: r => nested (TDef :: open) r
  | EvDevB _ :: r => nested (TDev :: open) r
  | EvSbE :: r => match open with TSb :: o => nested o r | _ => False end
  | EvDefE :: r => match open with TDef :: o => nested o r | _ => False end
  | EvDevE :: r => match open with TDev :: o => nested o r | _ => False end
  | _ :: r => nested open r
  end.

(** A document whose last section was not closed before the superblock was; what follows
    may only be more content of that section. *)
Definition unclosed (es : list event) : Prop :=
  exists sb secs opening body rest, Forall section_events secs /\
    ((exists x, opening = EvDefB x) \/ exists x, opening = EvDevB x) /\
    Forall (fun e => (exists m, e = EvMap m) \/ exists name, e = EvRef name) (body ++ rest) /\
    es = EvSbB sb :: concat secs ++ opening :: body ++ EvSbE :: rest.

(** The writes issued to the device, in order: does the one at this position go to block 0? *)
Definition to_superblock (b : block) : Prop := b_loc b = 0.
(** What the device holds when the power fails after the first [k] of these writes. *)
Definition crashed (d : disk) (good : N -> bool) (log : list block) (k : nat) : disk := put_log d good (firstn k log).
