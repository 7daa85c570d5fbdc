(** Model of what src/buildtool/execution_api/bazel_msg/bazel_msg_factory.cpp writes for actions:
    [SerializeMessage] (41-54) applied to the messages [Command] and [Action].

    The protocol buffer library and the definition of the messages
    (build/bazel/remote/execution/v2/remote_execution.proto, google/protobuf/duration.proto) are not
    part of /repo. Their encoding is modelled after the protocol buffer specification: a message is
    the concatenation of its fields in the order of the field numbers; a field is a key
    [8 * number + wire type] followed by its value; integers are varints (base 128, least significant
    group first, the highest bit of a byte telling that more follow); strings and embedded messages
    are preceded by their length; singular fields with the default value (empty string, zero, false)
    are left out, embedded messages that are set and members of repeated fields are not. *)
From Coq Require Import String Ascii List Bool NArith ZArith.
From Verif Require Import Common.Strs Describe.Model.
Import ListNotations.
Local Open Scope string_scope.

Definition byte (n : N) : string := String (ascii_of_N n) "".

(** A varint; the number of groups is at most the number of bits. *)
Fixpoint varint_go (fuel : nat) (n : N) : string :=
  match fuel with
  | O => byte n
  | S f => if (n <? 128)%N then byte n else byte (128 + n mod 128) ++ varint_go f (n / 128)
  end.
Definition varint (n : N) : string := varint_go (N.size_nat n) n.

Definition strlen (s : string) : N := N.of_nat (String.length s).

(** Values of fields: wire types 0 and 2. *)
Inductive value := VInt (n : N) | VBytes (s : string).
Definition field : Type := (N * value).

Definition write_field (f : field) : string :=
  match f with
  | (n, VInt v) => varint (8 * n) ++ varint v
  | (n, VBytes s) => varint (8 * n + 2) ++ varint (strlen s) ++ s
  end.
Definition write (fs : list field) : string := fold_right (fun f s => write_field f ++ s) "" fs.

(** Singular fields with their default value are left out. *)
Definition str_field (n : N) (s : string) : list field := match s with "" => [] | _ => [(n, VBytes s)] end.
Definition int_field (n : N) (v : N) : list field := if (v =? 0)%N then [] else [(n, VInt v)].
(** Members of repeated fields and set embedded messages are always written. *)
Definition bytes_fields (n : N) (l : list string) : list field := map (fun s => (n, VBytes s)) l.

(** Signed integers ([int32], [int64]) are written as their two's complement in 64 bits. *)
Definition int64 (z : Z) : N := Z.to_N (z mod 2 ^ 64).

(** [bazel_re::Digest] from [ArtifactDigestFactory::ToBazel], artifact_digest_factory.cpp:50-54 with
    [BazelDigestFactory::Create], bazel_digest_factory.cpp:22-34 and the tags of
    bazel_digest_factory.hpp:30-31, 68-71: hash = 1, size_bytes = 2. Sizes are assumed to fit [int64]
    (otherwise [gsl::narrow] throws). *)
Definition bazel_hash (t : hash_type) (d : digest) : string :=
  match t with
  | GitSHA1 => (if d_tree d then "74" else "62") ++ d_hash d
  | PlainSHA256 => d_hash d
  end.
Definition digest_msg (t : hash_type) (d : digest) : string :=
  write (str_field 1 (bazel_hash t d) ++ int_field 2 (d_size d)).

(** [Command.EnvironmentVariable] and [Platform.Property]: name = 1, value = 2. *)
Definition pair_msg (p : string * string) : string := write (str_field 1 (fst p) ++ str_field 2 (snd p)).

(** [Platform] ([CreatePlatform], bazel_msg_factory.cpp:57-65): properties = 1. *)
Definition platform_msg (props : list (string * string)) : string := write (bytes_fields 1 (map pair_msg props)).

(** [google.protobuf.Duration] of a timeout in milliseconds, bazel_msg_factory.cpp:225-232: seconds =
    1 (truncated towards zero), nanos = 2. *)
Definition duration_msg (ms : Z) : string :=
  let sec := Z.quot ms 1000 in
  write (int_field 1 (int64 sec) ++ int_field 2 (int64 ((ms - 1000 * sec) * 1000000))).

(** [ActionDigestRequest], bazel_msg_factory.hpp:204-243. The vectors of environment variables and
    properties are made from [std::map]s ([CreateMessageVectorFromMap], 171-187), i.e. lists of pairs
    with increasing keys. *)
Record request := mkRequest {
  q_command : list string;
  q_cwd : string;
  q_files : list string;
  q_dirs : list string;
  q_paths : list string;
  q_env : list (string * string);
  q_props : list (string * string);
  q_root : digest;
  q_timeout : Z;
  q_skip_cache : bool
}.

(** [CreateCommandBundle], bazel_msg_factory.cpp:176-216: arguments = 1, environment_variables = 2,
    output_files = 3, output_directories = 4, platform = 5, working_directory = 6, output_paths = 7. *)
Definition command_text (q : request) : string :=
  write (bytes_fields 1 (q_command q) ++
         bytes_fields 2 (map pair_msg (q_env q)) ++
         bytes_fields 3 (q_files q) ++
         bytes_fields 4 (q_dirs q) ++
         [(5%N, VBytes (platform_msg (q_props q)))] ++
         str_field 6 (q_cwd q) ++
         bytes_fields 7 (q_paths q)).

(** [SerializeMessage], bazel_msg_factory.cpp:41-54: sizes that do not fit [int] are an error. *)
Definition SerializeMessage (content : string) : option string :=
  if (strlen content <? 2 ^ 31)%N then Some content else None.

Section Hash.
(** The hash of a blob, in hexadecimal, and the kind of hash function of the storage. *)
Variable hash : string -> string.
Variable t : hash_type.

(** [ArtifactBlob::FromMemory] for a file, followed by [GetDigest]. *)
Definition blob_digest (content : string) : digest := mkDigest (hash content) false (strlen content).

(** [CreateActionBundle], bazel_msg_factory.cpp:219-260: command_digest = 1, input_root_digest = 2,
    timeout = 6, do_not_cache = 7, platform = 10. *)
Definition action_text (cmd : digest) (q : request) : string :=
  write ([(1%N, VBytes (digest_msg t cmd)); (2%N, VBytes (digest_msg t (q_root q)));
          (6%N, VBytes (duration_msg (q_timeout q)))] ++
         int_field 7 (if q_skip_cache q then 1 else 0) ++
         [(10%N, VBytes (platform_msg (q_props q)))]).

(** [CreateActionDigestFromCommandLine], bazel_msg_factory.cpp:916-934. *)
Definition CreateActionDigestFromCommandLine (q : request) : option digest :=
  match SerializeMessage (command_text q) with
  | None => None
  | Some c =>
      match SerializeMessage (action_text (blob_digest c) q) with
      | None => None
      | Some a => Some (blob_digest a)
      end
  end.
End Hash.
