(** Model of reading data in pieces (src/utils/cpp/incremental_reader.{hpp,cpp})
    and of both sides of the byte stream service: the client
    (src/buildtool/execution_api/remote/bazel/bytestream_client.hpp) and what the
    server does with the messages
    (src/buildtool/execution_api/execution_service/bytestream_server.cpp). *)
From Coq Require Import String Ascii NArith List Bool Arith.
From Verif Require Import Describe.Model Remote.Names.
Import ListNotations.
Local Open Scope string_scope.
Local Open Scope list_scope.
Local Open Scope nat_scope.

(** [grpc::StatusCode]; the codes that are treated differently. *)
Inductive code := OK | UNAVAILABLE | DEADLINE_EXCEEDED | Other (n : nat).
Definition is_ok (c : code) : bool := match c with OK => true | _ => false end.

(** ** IncrementalReader *)

(** A source of data, incremental_reader.hpp:97-110. A file can fail to be read
    at an offset. *)
Inductive source :=
| FileSource (content : string) (readable : nat -> bool)
| MemorySource (content : string).
Definition content_of (s : source) : string :=
  match s with FileSource c _ => c | MemorySource c => c end.
Definition content_size (s : source) : nat := String.length (content_of s).

Section Reading.
Variable chunk_size : nat.

(** ReadChunk, incremental_reader.cpp:93-115; ReadFromFile, 117-144; [None] is an
    error. Reading at the end of a file gives nothing. ReadFromMemory, 146-157:
    [data->at(offset)] throws if there is no such position, unless there are no
    data at all. *)
Definition ReadChunk (s : source) (offset : nat) : option string :=
  match s with
  | FileSource c readable => if readable offset then Some (substring offset chunk_size c) else None
  | MemorySource c =>
      if Nat.eqb (String.length c) 0 then Some ""
      else if Nat.ltb offset (String.length c)
           then Some (substring offset (Nat.min chunk_size (String.length c - offset)) c)
           else None
  end.

(** GetEndOffset, make_iterator, incremental_reader.hpp:78-93, 129-133, and
    operator++, incremental_reader.cpp:169-176. *)
Definition end_offset (s : source) : nat := S (content_size s).
Definition make_iterator (s : source) (offset : nat) : nat := Nat.min offset (end_offset s).
Definition next (s : source) (offset : nat) : nat :=
  if Nat.leb (content_size s) (offset + chunk_size) then end_offset s else offset + chunk_size.

(** ** Download *)

(** The loop of BytestreamServiceImpl::Read, bytestream_server.cpp:80-96: the
    messages written to the stream, and the status. [fuel] bounds the
    recursion; running out of it is an error as well. *)
Fixpoint send_from (fuel : nat) (s : source) (offset : nat) : list string * code :=
  if Nat.eqb offset (end_offset s) then ([], OK)
  else match fuel with
  | O => ([], Other 0)
  | S f =>
      match ReadChunk s offset with
      | None => ([], Other 13)
      | Some c => let '(ms, st) := send_from f s (next s offset) in (c :: ms, st)
      end
  end.
Definition send_all (s : source) (read_offset : nat) : list string * code :=
  send_from (S (S (content_size s))) s (make_iterator s read_offset).

(** What arrives: everything, or the first [n] messages and an error. *)
Definition deliver (cut : option (nat * code)) (sent : list string * code) : list string * code :=
  match cut with
  | None => sent
  | Some (n, c) => (firstn n (fst sent), c)
  end.

(** IncrementalReader::Next called until it gives an empty string or an error,
    bytestream_client.hpp:55-74, as ByteStreamClient::Read (117-130) and
    BazelNetworkReader::DumpBlob (bazel_network_reader.cpp:156-172) do: the data
    read, and whether the end was reached without error. An empty message ends
    the loop. *)
Fixpoint receive (ms : list string) (st : code) : string * bool :=
  match ms with
  | [] => ("", is_ok st)
  | m :: r =>
      if String.eqb m "" then ("", true)
      else let '(data, ok) := receive r st in ((m ++ data)%string, ok)
  end.

(** ByteStreamClient::Read, bytestream_client.hpp:104-143: the digest of what
    was read is compared (hash and tree flag, artifact_digest.hpp:51-53).
    Failures of the temporary file are left out. [hash] gives the hash of a
    blob or tree. *)
Definition client_read (hash : bool -> string -> string) (d : digest) (arrived : list string * code) : option string :=
  let '(data, ok) := receive (fst arrived) (snd arrived) in
  if ok && String.eqb (hash (d_tree d) data) (d_hash d) then Some data else None.

(** BazelNetworkReader::DumpBlob: what is written to the output, and success. *)
Definition client_dump (arrived : list string * code) : string * bool :=
  receive (fst arrived) (snd arrived).

(** ** Upload *)

(** A [WriteRequest] message. Offsets are natural numbers; the program casts
    them to [int]. *)
Record write_msg := mkMsg { m_name : string; m_data : string; m_offset : nat; m_finish : bool }.

(** What the client sees of the connection: whether the [i]-th message could be
    written, and what QueryWriteStatus reports after it could not. *)
Definition connection := nat -> bool * N.

(** The loop of ByteStreamClient::Write, bytestream_client.hpp:184-222: the
    messages handed to the stream, and whether the loop ended regularly. [i]
    counts the attempts to write, [size] is the size in the digest of the blob;
    it is the one of the content unless the file changed meanwhile. *)
Fixpoint write_from (fuel i : nat) (conn : connection) (name : string) (size : nat) (s : source) (pos offset : nat)
    : list write_msg * bool :=
  if Nat.eqb offset (end_offset s) then ([], true)
  else match fuel with
  | O => ([], false)
  | S f =>
      match ReadChunk s offset with
      | None => ([], false)
      | Some c =>
          let m := mkMsg name c pos (Nat.leb size (pos + String.length c)) in
          if fst (conn i) then
            let '(ms, ok) := write_from f (S i) conn name size s (pos + String.length c) (next s offset) in
            (m :: ms, ok)
          else
            let committed := snd (conn i) in
            if N.eqb committed 0 then ([], false)
            else write_from f (S i) conn name size s (N.to_nat committed) (make_iterator s (N.to_nat committed))
      end
  end.

(** ByteStreamClient::Write, bytestream_client.hpp:145-247: [answer] is what
    WritesDone and Finish give for the messages handed to the stream. A
    negative committed size counts as 0. *)
Definition client_write (fuel : nat) (conn : connection) (name : string) (size : nat) (s : source)
    (answer : list write_msg -> code * N) : bool :=
  let '(ms, ok) := write_from fuel 0 conn name size s 0 (make_iterator s 0) in
  ok && (let '(st, committed) := answer ms in
         is_ok st && N.eqb committed (N.of_nat size)).

(** BytestreamServiceImpl::Write, bytestream_server.cpp:99-168: the resource
    is the one of the first message, all the data up to the one with
    finish_write are taken; offsets are not looked at. Reading from a broken
    connection ends the loop in the same way. *)
Fixpoint collect (ms : list write_msg) : string :=
  match ms with
  | [] => ""
  | m :: r => if m_finish m then m_data m else (m_data m ++ collect r)%string
  end.
Definition server_write (t : hash_type) (ms : list write_msg) : option (digest * string) :=
  let name := match ms with [] => "" | m :: _ => m_name m end in
  match write_FromString name with
  | None => None
  | Some q =>
      match FromBazel t (wr_digest q) with
      | None => None
      | Some d => Some (d, collect ms)
      end
  end.

(** CASContentValidator::CheckDigestConsistency,
    execution_service/cas_utils.cpp:143-166, for the digest announced and the
    hash of the data stored. *)
Definition consistent (t : hash_type) (hash : bool -> string -> string) (d : digest) (data : string) : bool :=
  String.eqb (hash (d_tree d) data) (d_hash d) &&
  (if negb (IsNative t) || negb (N.eqb (d_size d) 0)
   then N.eqb (d_size d) (N.of_nat (String.length data)) else true).

End Reading.
