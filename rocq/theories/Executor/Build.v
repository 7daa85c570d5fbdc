(** A build: the traversal of the action graph (Dag/Traverse.v) with the processing of nodes
    (Process.v). The log of a traversal tells when the processing of each node began and ended; an action
    reads the infos of its inputs when it begins and writes those of its outputs when it ends. *)
From Coq Require Import String List Bool Arith.
From Verif Require Import Common.Strs Describe.Model Dag.Traverse Executor.Process.
Import ListNotations.

(** The infos of artifact nodes, [Artifact::Info]. *)
Definition infos : Type := nat -> option object_info.
Definition write_info (m : infos) (w : nat * object_info) : infos :=
  fun a => if Nat.eqb a (fst w) then Some (snd w) else m a.
Definition write_infos (m : infos) (ws : writes) : infos := fold_left write_info ws m.

(** The inputs of an action with their infos; [None] if one has no info, in which case the program would
    access an empty optional. *)
Fixpoint read_inputs (m : infos) (ins : list (string * nat)) : option (list (string * object_info)) :=
  match ins with
  | [] => Some []
  | (p, a) :: r =>
      match m a, read_inputs m r with
      | Some i, Some l => Some ((p, i) :: l)
      | _, _ => None
      end
  end.

(** Infos, and the results of actions that have begun and not yet ended. *)
Record build := mkBuild { b_infos : infos; b_pending : nat -> option (bool * writes) }.

(** [Undefined]: an empty optional was accessed. [Impossible]: the log does not fit to the processing. *)
Inductive replayed := Undefined | Impossible | Fine (b : build).

Section Replay.
Variable X : context.
Variable A : api.
Variable acts : nat -> act.
(** The info of an artifact that no action builds, once [VerifyOrUploadArtifact] (executor.hpp:305-381)
    succeeded; [None] if that fails. Source files do not change during a build. Infos of known artifacts are
    there from the beginning; here, as for local files, they are set at the end of the processing. *)
Variable source : nat -> option object_info.

Definition replay_event (b : build) (e : event) : replayed :=
  match e with
  | EStart (Art a) => Fine b
  | EStart (Act c) =>
      match read_inputs (b_infos b) (n_inputs (acts c)) with
      | None => Undefined
      | Some ins =>
          Fine (mkBuild (b_infos b) (fun x => if Nat.eqb x c then Some (Process X A (acts c) ins) else b_pending b x))
      end
  | EEnd (Art a) ok =>
      match source a, ok with
      | Some i, true => Fine (mkBuild (write_info (b_infos b) (a, i)) (b_pending b))
      | None, false => Fine b
      | _, _ => Impossible
      end
  | EEnd (Act c) ok =>
      match b_pending b c with
      | Some (ok', ws) =>
          if Bool.eqb ok ok' then Fine (mkBuild (write_infos (b_infos b) ws) (b_pending b)) else Impossible
      | None => Impossible
      end
  end.

(** The log is kept newest first. *)
Fixpoint replay (l : list event) : replayed :=
  match l with
  | [] => Fine (mkBuild (fun _ => None) (fun _ => None))
  | e :: past =>
      match replay past with
      | Fine b => replay_event b e
      | other => other
      end
  end.
End Replay.
