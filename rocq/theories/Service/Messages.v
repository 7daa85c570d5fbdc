(** Reading the messages [Command] and [Action], which Executor/Wire.v writes. The reading of fields by the protocol
    buffer library is that of Rehash/Directory.v. *)
From Coq Require Import String Ascii List Bool NArith ZArith.
From Verif Require Import Common.Strs Describe.Model Executor.Wire Rehash.Directory Remote.Names.
Import ListNotations.
Local Open Scope string_scope.
Local Open Scope list_scope.

(** [bazel_re::Command], as far as the server uses it (the platform is parsed, but not used). *)
Record command_msg := mkCommand {
  cm_args : list string;
  cm_env : list (string * string);
  cm_files : list string;
  cm_dirs : list string;
  cm_cwd : string;
  cm_paths : list string
}.
(** [bazel_re::Action], as far as the server uses it (timeout and platform are parsed, but not used). *)
Record action_msg := mkActionMsg { am_command : wire_digest; am_root : wire_digest; am_no_cache : bool }.

Section Utf8.
Variable utf8 : string -> bool.

(** Requests whose strings are valid UTF-8. *)
Definition good_string (s : string) : Prop := utf8 s = true.
Definition good_pairs (l : list (string * string)) : Prop := Forall (fun p => utf8 (fst p) = true /\ utf8 (snd p) = true) l.
Definition good_command (q : request) : Prop :=
  Forall good_string (q_command q) /\ good_pairs (q_env q) /\ Forall good_string (q_files q) /\ Forall good_string (q_dirs q) /\
  good_pairs (q_props q) /\ utf8 (q_cwd q) = true /\ Forall good_string (q_paths q).

(** [Digest]: hash = 1, size_bytes = 2; the library keeps 64 bits. *)
Definition parse_wire (s : string) : option wire_digest :=
  match parse_message s with
  | Some fs => checked utf8 [get_string 1 fs] (mkWire (get_string 1 fs) (get_int 2 fs mod 2 ^ 64)%N)
  | None => None
  end.
(** [Command.EnvironmentVariable], [Platform.Property]: name = 1, value = 2. *)
Definition parse_pair (s : string) : option (string * string) :=
  match parse_message s with
  | Some fs => checked utf8 [get_string 1 fs; get_string 2 fs] (get_string 1 fs, get_string 2 fs)
  | None => None
  end.
(** [Platform]: properties = 1. *)
Definition parse_platform (s : string) : option (list (string * string)) :=
  match parse_message s with Some fs => parse_all parse_pair (all_bytes 1 fs) | None => None end.

(** [Command::ParseFromIstream], execution_server.cpp:546-551. *)
Definition ParseCommand (s : string) : option command_msg :=
  match parse_message s with
  | Some fs =>
      match parse_all parse_pair (all_bytes 2 fs), parse_platform (get_message 5 fs) with
      | Some env, Some _ =>
          checked utf8 (all_bytes 1 fs ++ all_bytes 3 fs ++ all_bytes 4 fs ++ [get_string 6 fs] ++ all_bytes 7 fs)
            (mkCommand (all_bytes 1 fs) env (all_bytes 3 fs) (all_bytes 4 fs) (get_string 6 fs) (all_bytes 7 fs))
      | _, _ => None
      end
  | None => None
  end.
(** [Action::ParseFromIstream], execution_server.cpp:503-507. *)
Definition ParseAction (s : string) : option action_msg :=
  match parse_message s with
  | Some fs =>
      match parse_wire (get_message 1 fs), parse_wire (get_message 2 fs), parse_message (get_message 6 fs), parse_platform (get_message 10 fs) with
      | Some c, Some r, Some _, Some _ => Some (mkActionMsg c r (negb (get_int 7 fs =? 0)%N))
      | _, _, _, _ => None
      end
  | None => None
  end.
End Utf8.
