(** What remote execution should give, and what is assumed. *)
From Coq Require Import String Ascii List Bool Arith NArith ZArith.
From Verif Require Import Common.Strs Describe.Model Executor.Wire Executor.Local.
Import ListNotations.
Local Open Scope string_scope.
Local Open Scope list_scope.

(** The same command, on the same inputs, in the same directory, with the same environment, for the same outputs. (The
    properties and the timeout may differ.) *)
Definition same_work (a b : local_action) : Prop :=
  a_root a = a_root b /\ a_command a = a_command b /\ a_cwd a = a_cwd b /\ a_env a = a_env b /\
  a_files a = a_files b /\ a_dirs a = a_dirs b /\ a_paths a = a_paths b /\ a_mode a = a_mode b.

(** The files and directories left by commands are stored under digests of the right form; the targets of links are
    among the texts. *)
Definition well_stored (t : hash_type) (text : string -> Prop) (happens : local_action -> world -> Prop) : Prop :=
  forall a w p, happens a w ->
    match w_at w p with
    | Some (FFile _ (Some d)) | Some (FDir (Some d)) => valid_input t (d_hash d) (d_tree d) = true
    | Some (FLink (Some c) _) => text c
    | _ => True
    end.

(** Different texts have different hashes, which are hashes of the kind used; strings of hexadecimal digits are valid UTF-8. *)
Definition good_hash (hash : string -> string) (t : hash_type) (utf8 : string -> bool) (text : string -> Prop) : Prop :=
  (forall x y, text x -> text y -> hash x = hash y -> x = y) /\
  (forall x, valid_input t (hash x) false = true) /\
  (forall d, valid_input t (d_hash d) (d_tree d) = true -> utf8 (bazel_hash t d) = true).
