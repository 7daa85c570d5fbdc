(** Model of the rebuilder: class Rebuilder in
    src/buildtool/execution_engine/executor/executor.hpp:1074-1283. *)
From Coq Require Import String List Bool Arith ZArith.
From Verif Require Import Common.Strs Describe.Model Executor.Local Executor.Process.
Import ListNotations.

(** A response with the id of the action, [ActionDigest]. *)
Record full_reply := mkFull { z_id : string; z_reply : reply }.

(** What the endpoints answer: the regular one to a run that pretends to be cached, the one with the cache to a
    lookup. [None] is a null pointer; both have passed the checks of [ExecuteAction]. *)
Record endpoints := mkEnds {
  rebuilt : list (string * object_info) -> option full_reply;
  looked_up : list (string * object_info) -> option full_reply
}.

(** [Artifact::ObjectInfo::operator==]. *)
Definition type_eqb (x y : object_type) : bool :=
  match x, y with
  | File, File | Executable, Executable | Tree, Tree | Symlink, Symlink => true
  | _, _ => false
  end.
Definition digest_eqb (x y : digest) : bool :=
  String.eqb (d_hash x) (d_hash y) && Bool.eqb (d_tree x) (d_tree y) && N.eqb (d_size x) (d_size y).
Definition info_eqb (x y : object_info) : bool :=
  digest_eqb (i_digest x) (i_digest y) && type_eqb (i_type x) (i_type y) && Bool.eqb (i_failed x) (i_failed y).

(** What is recorded for an action: the outputs that differ (path, rebuilt, cached), or that it was not
    found in the cache. *)
Inductive finding := Miss | Compared (differing : list (string * (object_info * object_info))).

(** The loop over the artifacts, executor.hpp:1217-1225; [None] is the exception for a path missing in the
    cached artifacts. The artifacts are in the order in which the hash map is walked. *)
Fixpoint compare (artifacts cached : list (string * object_info)) : option (list (string * (object_info * object_info))) :=
  match artifacts with
  | [] => Some []
  | (p, i) :: r =>
      match alookup p cached with
      | None => None
      | Some j =>
          match compare r cached with
          | None => None
          | Some l => Some (if info_eqb i j then l else (p, (i, j)) :: l)
          end
      end
  end.

(** [DetectFlakyAction], executor.hpp:1199-1250: [None] for errors. What was recorded before an error is
    left out. *)
Definition DetectFlakyAction (o o' : option full_reply) : option finding :=
  match o, o' with
  | Some z, Some z' =>
      if String.eqb (z_id z') (z_id z) then
        match y_artifacts (z_reply z), y_artifacts (z_reply z') with
        | Some m, Some m' =>
            match compare m m' with Some l => Some (Compared l) | None => None end
        | _, _ => None
        end
      else Some Miss
  | _, _ => Some Miss
  end.

(** [Rebuilder::Process] for commands, executor.hpp:1095-1156: the result, what is written to the outputs,
    and what is recorded. *)
Definition RebuilderProcess (E : endpoints) (n : act) (ins : list (string * object_info)) : bool * writes * option finding :=
  match DetectFlakyAction (rebuilt E ins) (looked_up E ins) with
  | None => (false, [], None)
  | Some f =>
      match rebuilt E ins with
      | None => (false, [], Some f)
      | Some z => let '(ok, ws) := ParseResponse n ins (z_reply z) in (ok, ws, Some f)
      end
  end.
