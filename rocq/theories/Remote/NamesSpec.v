(** Vocabulary for the statements about digests and names on the wire. *)
From Coq Require Import String Ascii NArith List Bool.
From Verif Require Import Describe.Model Remote.Names.
Import ListNotations.
Local Open Scope string_scope.

(** A digest as all digests of the program are: the hash is a hexadecimal
    string of the right length; trees only where the protocol has them; the
    size fits into the message. *)
Definition wellformed (t : hash_type) (d : digest) : Prop :=
  valid_input t (d_hash d) (d_tree d) = true /\ (d_size d < 2 ^ 63)%N.

(** The text [f] stands between two slashes of [s], or between a slash and an
    end of [s]. *)
Definition segment (f s : string) : Prop :=
  exists before after,
    s = before ++ f ++ after /\
    (before = "" \/ exists b, before = b ++ "/") /\
    (after = "" \/ exists a, after = "/" ++ a).

(** Words that have a meaning in resource names. *)
Definition keywords : list string :=
  ["blobs"; "uploads"; "actions"; "actionResults"; "operations"; "capabilities"; "compressed-blobs"].

(** An instance name: the empty one, or one that does not end in a slash and
    where none of the key words stands between slashes. *)
Definition instance_name (s : string) : Prop :=
  s = "" \/ ((forall s', s <> s' ++ "/") /\ forall k, In k keywords -> ~ segment k s).

(** A part of a name: not empty and without slashes. *)
Definition plain (s : string) : Prop := s <> "" /\ ~ In "/"%char (list_ascii_of_string s).
