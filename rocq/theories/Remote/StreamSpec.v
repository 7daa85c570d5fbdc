(** Vocabulary for the statements about transfers in pieces. *)
From Coq Require Import String Ascii NArith List Bool.
From Verif Require Import Describe.Model Remote.Names Remote.Stream.
Import ListNotations.
Local Open Scope string_scope.

(** A source that can be read everywhere. *)
Definition always_readable (s : source) : Prop :=
  match s with FileSource _ r => forall i, r i = true | MemorySource _ => True end.

(** What can happen to a download: all arrives; or only the first messages
    arrive and the client is told an error. *)
Definition network_fault (cut : option (nat * code)) : Prop :=
  forall n c, cut = Some (n, c) -> c <> OK.

(** The bytes of [s] from position [n] on. *)
Definition from_position (s : string) (n : nat) : string := substring n (String.length s - n) s.

(** The digest [d] is the one of [data]. *)
Definition digest_of (hash : bool -> string -> string) (d : digest) (data : string) : Prop :=
  hash (d_tree d) data = d_hash d /\ d_size d = N.of_nat (String.length data).

(** The object a server accepts when it gets the messages [ms]. *)
Definition accepted (t : hash_type) (hash : bool -> string -> string) (ms : list write_msg) : option (digest * string) :=
  match server_write t ms with
  | Some (d, data) => if consistent t hash d data then Some (d, data) else None
  | None => None
  end.

(** The answer of the server when the first [n] messages reach it: it reports
    the size of what it stored. If the connection broke, the client is told an
    error instead. *)
Definition server_answer (t : hash_type) (hash : bool -> string -> string) (n : nat) (lost : option code)
    (ms : list write_msg) : code * N :=
  match lost with
  | Some c => (c, 0%N)
  | None =>
      match accepted t hash (firstn n ms) with
      | Some (_, data) => (OK, N.of_nat (String.length data))
      | None => (Other 3, 0%N)
      end
  end.

(** The server never reports that a part of an upload was stored; this is so
    for the server of this project, which does not implement the request. *)
Definition no_partial_uploads (conn : connection) : Prop :=
  forall i, fst (conn i) = false -> snd (conn i) = 0%N.
