(** The message [Directory] of the compatible protocol, as written and read by
    src/buildtool/execution_api/bazel_msg/bazel_msg_factory.cpp.

    The protocol buffer library and the definition of the messages (remote_execution.proto) are not part of /repo; see
    Executor/Wire.v for the encoding. *)
From Coq Require Import String Ascii List Bool NArith ZArith.
From Verif Require Import Common.Strs Describe.Model Executor.Wire.
Import ListNotations.
Local Open Scope string_scope.
Local Open Scope list_scope.

(** [Directory]: files (executable or not), directories, symbolic links; each with its name. *)
Record directory := mkDirectory {
  dm_files : list (string * (bool * digest));
  dm_dirs : list (string * digest);
  dm_links : list (string * string)
}.

(** [CreateFileNode], bazel_msg_factory.cpp:90-100: name = 1, digest = 2, is_executable = 4. *)
Definition file_msg (f : string * (bool * digest)) : string :=
  write (str_field 1 (fst f) ++ [(2%N, VBytes (digest_msg PlainSHA256 (snd (snd f))))] ++
         int_field 4 (if fst (snd f) then 1 else 0)).
(** [CreateDirectoryNode], bazel_msg_factory.cpp:103-110: name = 1, digest = 2. *)
Definition dir_msg (d : string * digest) : string :=
  write (str_field 1 (fst d) ++ [(2%N, VBytes (digest_msg PlainSHA256 (snd d)))]).
(** [CreateSymlinkNode], bazel_msg_factory.cpp:113-120: name = 1, target = 2. *)
Definition link_msg (l : string * string) : string := write (str_field 1 (fst l) ++ str_field 2 (snd l)).
(** Serialised [Directory]: files = 1, directories = 2, symlinks = 3. *)
Definition directory_text (d : directory) : string :=
  write (bytes_fields 1 (map file_msg (dm_files d)) ++ bytes_fields 2 (map dir_msg (dm_dirs d)) ++
         bytes_fields 3 (map link_msg (dm_links d))).

(** [std::sort] by name in [CreateDirectory], bazel_msg_factory.cpp:66-88. It is not stable; here names that occur more
    than once (which no file system allows) keep their order. *)
Fixpoint insert_named {V} (p : string * V) (l : list (string * V)) : list (string * V) :=
  match l with
  | [] => [p]
  | q :: r => if str_ltb (fst q) (fst p) then q :: insert_named p r else p :: l
  end.
Definition sort_named {V} (l : list (string * V)) : list (string * V) := fold_right insert_named [] l.
Definition CreateDirectory (files : list (string * (bool * digest))) (dirs : list (string * digest))
  (links : list (string * string)) : directory :=
  mkDirectory (sort_named files) (sort_named dirs) (sort_named links).

(** ** Reading, by the protocol buffer library: varints of at most ten bytes; fields in any order, of a singular field
    the last one counts, embedded messages given several times are merged, fields with other numbers or wire types are
    skipped. Simplification: the wire types for fixed-size values and groups, which these messages do not use, are
    rejected. *)
Fixpoint read_varint (more : nat) (s : string) : option (N * string) :=
  match s with
  | "" => None
  | String c r =>
      let n := N_of_ascii c in
      if (n <? 128)%N then Some (n, r)
      else match more with
           | O => None
           | S m => match read_varint m r with Some (v, r') => Some ((n - 128) + 128 * v, r')%N | None => None end
           end
  end.
Fixpoint take_bytes (n : nat) (s : string) : option (string * string) :=
  match n, s with
  | O, _ => Some ("", s)
  | S _, "" => None
  | S m, String c r => match take_bytes m r with Some (a, b) => Some (String c a, b) | None => None end
  end.
Definition read_field (s : string) : option (field * string) :=
  match read_varint 9 s with
  | None => None
  | Some (key, r) =>
      if (key mod 8 =? 0)%N then
        match read_varint 9 r with Some (v, r') => Some ((key / 8, VInt v)%N, r') | None => None end
      else if (key mod 8 =? 2)%N then
        match read_varint 9 r with
        | Some (n, r') =>
            if (strlen r' <? n)%N then None
            else match take_bytes (N.to_nat n) r' with Some (b, r'') => Some ((key / 8, VBytes b)%N, r'') | None => None end
        | None => None
        end
      else None
  end.
Fixpoint read_fields (fuel : nat) (s : string) : option (list field) :=
  match s, fuel with
  | "", _ => Some []
  | _, O => None
  | _, S f =>
      match read_field s with
      | Some (x, r) => match read_fields f r with Some l => Some (x :: l) | None => None end
      | None => None
      end
  end.
Definition parse_message (s : string) : option (list field) := read_fields (S (String.length s)) s.

Definition all_bytes (n : N) (fs : list field) : list string :=
  flat_map (fun f => match f with (m, VBytes b) => if (m =? n)%N then [b] else [] | _ => [] end) fs.
Definition all_ints (n : N) (fs : list field) : list N :=
  flat_map (fun f => match f with (m, VInt v) => if (m =? n)%N then [v] else [] | _ => [] end) fs.
Definition get_string (n : N) (fs : list field) : string := last (all_bytes n fs) "".
Definition get_int (n : N) (fs : list field) : N := last (all_ints n fs) 0%N.
Definition get_message (n : N) (fs : list field) : string := String.concat "" (all_bytes n fs).

Section Utf8.
(** Strings in messages have to be valid UTF-8; the check is done by the library. *)
Variable utf8 : string -> bool.

Definition checked {A} (strings : list string) (a : A) : option A := if forallb utf8 strings then Some a else None.

Definition parse_digest (s : string) : option digest :=
  match parse_message s with
  | Some fs => checked [get_string 1 fs] (mkDigest (get_string 1 fs) false (get_int 2 fs))
  | None => None
  end.
Definition parse_file (s : string) : option (string * (bool * digest)) :=
  match parse_message s with
  | Some fs =>
      match parse_digest (get_message 2 fs) with
      | Some d => checked [get_string 1 fs] (get_string 1 fs, (negb (get_int 4 fs =? 0)%N, d))
      | None => None
      end
  | None => None
  end.
Definition parse_dir (s : string) : option (string * digest) :=
  match parse_message s with
  | Some fs =>
      match parse_digest (get_message 2 fs) with
      | Some d => checked [get_string 1 fs] (get_string 1 fs, d)
      | None => None
      end
  | None => None
  end.
Definition parse_link (s : string) : option (string * string) :=
  match parse_message s with
  | Some fs => checked [get_string 1 fs; get_string 2 fs] (get_string 1 fs, get_string 2 fs)
  | None => None
  end.
Fixpoint parse_all {A} (f : string -> option A) (l : list string) : option (list A) :=
  match l with
  | [] => Some []
  | s :: r => match f s, parse_all f r with Some a, Some b => Some (a :: b) | _, _ => None end
  end.

(** [BazelMsgFactory::MessageFromString<bazel_re::Directory>], bazel_msg_factory.hpp:192-201. *)
Definition ParseDirectory (s : string) : option directory :=
  match parse_message s with
  | Some fs =>
      match parse_all parse_file (all_bytes 1 fs), parse_all parse_dir (all_bytes 2 fs), parse_all parse_link (all_bytes 3 fs) with
      | Some f, Some d, Some l => Some (mkDirectory f d l)
      | _, _, _ => None
      end
  | None => None
  end.
End Utf8.
