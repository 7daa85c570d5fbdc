(** Which digests, object infos, artifact descriptions and action descriptions are considered valid. *)
From Coq Require Import String Ascii List Bool NArith.
From Verif Require Import Common.Strs Expr.Json Describe.Model.
Import ListNotations.
Local Open Scope string_scope.

(** Hexadecimal digits, in either case. *)
Definition hex_digit (c : ascii) : Prop := In c (list_ascii_of_string "0123456789abcdefABCDEF").

(** A hash: 40 hexadecimal digits (SHA1) or 64 (SHA256). *)
Definition hash_ok (t : hash_type) (h : string) : Prop :=
  String.length h = match t with GitSHA1 => 40 | PlainSHA256 => 64 end /\
  Forall hex_digit (list_ascii_of_string h).

(** The digest of an object of a given type: sizes are 64-bit numbers; only with Git hashes, digests
    of trees are marked as such. *)
Definition digest_ok (t : hash_type) (ty : object_type) (d : digest) : Prop :=
  hash_ok t (d_hash d) /\ (d_size d < 2 ^ 64)%N /\
  (d_tree d = true <-> t = GitSHA1 /\ ty = Tree).

Definition info_ok (t : hash_type) (i : object_info) : Prop := digest_ok t (i_type i) (i_digest i).

Definition artifact_ok (t : hash_type) (a : artifact) : Prop :=
  match a with AKnown d ty _ => digest_ok t ty d | _ => True end.

(** The repository a known artifact comes from is not part of its identity. *)
Definition forget_repo (a : artifact) : artifact :=
  match a with AKnown d ty _ => AKnown d ty None | _ => a end.

Definition forget_repos (a : action) : action :=
  mkAction (a_id a) (a_output a) (a_output_dirs a) (a_command a) (a_cwd a) (a_env a) (a_may_fail a)
    (a_no_cache a) (a_timeout a) (a_properties a)
    (map (fun p => match p with (k, v) => (k, forget_repo v) end) (a_inputs a)).

(** An action has a command and outputs; its maps have each key once (here: in sorted order). *)
Definition action_ok (t : hash_type) (a : action) : Prop :=
  a_command a <> [] /\ (a_output a <> [] \/ a_output_dirs a <> []) /\
  sorted_keys (a_env a) /\ sorted_keys (a_properties a) /\ sorted_keys (a_inputs a) /\
  Forall (fun p => artifact_ok t (snd p)) (a_inputs a).

(** JSON objects hold each key once, in sorted order ([nlohmann::json] keeps them in a [std::map]). *)
Definition object_sorted (j : json) : Prop := match j with JObj m => sorted_keys m | _ => True end.
