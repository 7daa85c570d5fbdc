(** Stages of artifacts. *)
From Coq Require Import String Ascii List Bool NArith Arith.
From Verif Require Import Common.Strs Hex.Model GitTree.Model TreeOps.Model TreeOps.Spec Path.Model Upload.Model Upload.Spec Computed.Model.
Import ListNotations.
Local Open Scope string_scope.
Local Open Scope list_scope.

(** A known artifact, given by type and raw id of the object, after conversion to native storage if there is one. *)
Definition delivers (rehash : option (info -> option info)) (e : stage_entry) (t : otype) (id : string) : Prop :=
  exists i, e = KnownInfo i /\ (match rehash with Some f => f i | None => Some i end) = Some (ToHexString id, t).

(** The stage has exactly these objects at these paths. *)
Definition stands_for (rehash : option (info -> option info)) (stage : list (string * stage_entry)) (l : list input) : Prop :=
  Forall2 (fun p i => fst p = fst i /\ exists t id, snd i = Some (t, id) /\ String.length id = 20 /\ delivers rehash (snd p) t id) stage l.

(** A normalised path to something in the directory or below, with possible file names. *)
Definition good_key (p : string) : Prop := ToNormalPath p = p /\ inside p /\ nameable p.
