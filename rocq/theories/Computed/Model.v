(** Model of src/buildtool/computed_roots/artifacts_root.cpp: the tree id of a root computed from the artifacts of a
    target. Paths are strings with the operations of Path/Model.v; [std::stack] is a list, top first. *)
From Coq Require Import String Ascii List Bool NArith Arith.
From Verif Require Import Common.Strs Hex.Model GitTree.Model TreeOps.Model Path.Model.
Import ListNotations.
Local Open Scope string_scope.
Local Open Scope list_scope.

(** A value; an error that has been logged; or undefined behaviour, here the use of the top of an empty stack and
    of the first element of an empty path. *)
Inductive result (A : Type) := Value (a : A) | Failed | Undefined.
Arguments Value {A}. Arguments Failed {A}. Arguments Undefined {A}.
Definition bind {A B} (r : result A) (k : A -> result B) : result B :=
  match r with Value a => k a | Failed => Failed | Undefined => Undefined end.

(** An entry of the stage, artifacts_root.cpp:155-177: no artifact, an artifact that is not yet known, or a known
    artifact. (The info of known artifacts is always there, artifact_description.hpp and artifact.hpp:146-153.) *)
Inductive stage_entry := NotArtifact | NotKnown | KnownInfo (i : info).

Section H.
Variable H : string -> string.

(** [PartialTree], artifacts_root.cpp:67-71. *)
Definition partial_tree : Type := string * list tree_entries.
Definition empty_partial_tree : partial_tree := ("", [[]]).

(** [AddEntryRaw], artifacts_root.cpp:37-48. *)
Definition AddEntryRaw (tree : tree_entries) (p raw_hash : string) (ot : otype) : tree_entries :=
  emplace_back raw_hash (p, ot) tree.

(** [Down], artifacts_root.cpp:73-79. *)
Definition Down (t : partial_tree) (segment : string) : partial_tree :=
  if String.eqb segment "." || String.eqb segment "" then t
  else (append (fst t) segment, [] :: snd t).

(** [Up], artifacts_root.cpp:81-92; [CreateShallowTree] succeeds (C19). *)
Definition Up (t : partial_tree) : result partial_tree :=
  match snd t with
  | top :: next :: rest =>
      Value (parent_path (fst t), AddEntryRaw next (filename (fst t)) (fst (CreateShallowTree H top)) Tree :: rest)
  | _ => Undefined
  end.

(** The loop of [To], artifacts_root.cpp:95-101. As each round takes an element from the stack, more rounds than
    elements are not possible. *)
Fixpoint up_loop (fuel : nat) (dir : string) (t : partial_tree) : result (partial_tree * list string) :=
  match elements (lexically_relative dir (fst t)) with
  | [] => Undefined
  | e :: r =>
      if String.eqb e ".." then
        match fuel with
        | O => Undefined
        | S f => bind (Up t) (up_loop f dir)
        end
      else Value (t, e :: r)
  end.

(** [To], artifacts_root.cpp:94-106. *)
Definition To (dir : string) (t : partial_tree) : result partial_tree :=
  bind (up_loop (length (snd t)) dir t) (fun '(t', segments) => Value (fold_left Down segments t')).

(** [Add] with [AddEntry], artifacts_root.cpp:50-63, 108-119. *)
Definition Add (ps hash : string) (ot : otype) (t : partial_tree) : result partial_tree :=
  bind (To (parent_path ps) t) (fun t' =>
    match FromHexString hash with
    | None => Failed
    | Some raw_hash =>
        match snd t' with
        | top :: rest => Value (fst t', AddEntryRaw top (filename ps) raw_hash ot :: rest)
        | [] => Undefined
        end
    end).

(** [Done], artifacts_root.cpp:121-135. *)
Fixpoint done_loop (fuel : nat) (t : partial_tree) : result partial_tree :=
  match fst t with
  | "" => Value t
  | _ =>
      match fuel with
      | O => Undefined
      | S f => bind (Up t) (done_loop f)
      end
  end.
Definition Done (t : partial_tree) : result string :=
  bind (done_loop (length (snd t)) t) (fun t' =>
    match snd t' with
    | top :: _ => Value (ToHexString (fst (CreateShallowTree H top)))
    | [] => Undefined
    end).

(** [ArtifactsRoot], artifacts_root.cpp:141-197: the entries of the stage are those of a map expression, in the order
    of [Items] (C04); [rehash] converts an artifact to native storage (C89). *)
Definition add_artifact (rehash : option (info -> option info)) (t : partial_tree) (p : string * stage_entry)
  : result partial_tree :=
  match snd p with
  | NotArtifact | NotKnown => Failed
  | KnownInfo i =>
      match (match rehash with Some f => f i | None => Some i end) with
      | None => Failed
      | Some (hash, ot) => Add (fst p) hash ot t
      end
  end.
Definition ArtifactsRoot (rehash : option (info -> option info)) (stage : list (string * stage_entry)) : result string :=
  bind (fold_left (fun r p => bind r (fun t => add_artifact rehash t p)) stage (Value empty_partial_tree)) Done.
End H.
