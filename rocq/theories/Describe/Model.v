(** Model of the textual and JSON forms of objects, artifacts and actions:
    src/buildtool/common/artifact.hpp (ObjectInfo), artifact_digest_factory.cpp,
    src/buildtool/crypto/hash_info.cpp, src/buildtool/file_system/object_type.hpp,
    src/buildtool/common/artifact_description.{hpp,cpp}, action.hpp and action_description.hpp.

    Strings are byte strings. JSON objects are association lists sorted by key without duplicates,
    as [nlohmann::json] keeps them (a [std::map]); [desc.find(key)] on a value that is no object
    finds nothing. Exceptions thrown inside the parsers are caught there and become [None], as in
    the code. *)
From Coq Require Import String Ascii List Bool NArith ZArith SpecFloat DecimalString.
From Verif Require Import Common.Strs Hex.Model Expr.Json.
Import ListNotations.
Local Open Scope string_scope.

(** ** Digests *)

(** [HashFunction::Type], src/buildtool/crypto/hash_function.hpp:32-35. *)
Inductive hash_type := GitSHA1 | PlainSHA256.

(** [ProtocolTraits::IsTreeAllowed(HashFunction::Type)], src/buildtool/common/protocol_traits.hpp:27-30. *)
Definition IsTreeAllowed (t : hash_type) : bool := match t with GitSHA1 => true | PlainSHA256 => false end.

(** [HashFunction::MakeHasher().GetHashLength()], src/buildtool/crypto/hasher.cpp: length of the
    hexadecimal form. *)
Definition hash_length (t : hash_type) : nat := match t with GitSHA1 => 40 | PlainSHA256 => 64 end.

(** [ArtifactDigest] (artifact_digest.hpp:33-103): hash in hexadecimal, tree flag, size ([size_t]). *)
Record digest := mkDigest { d_hash : string; d_tree : bool; d_size : N }.

(** [HashInfo::ValidateInput], hash_info.cpp:80-109. *)
Definition valid_input (t : hash_type) (hash : string) (is_tree : bool) : bool :=
  negb (is_tree && negb (IsTreeAllowed t)) &&
  Nat.eqb (String.length hash) (hash_length t) &&
  IsHexString hash.

(** [ArtifactDigestFactory::Create], artifact_digest_factory.cpp:24-36, with [HashInfo::Create],
    hash_info.cpp:33-41. *)
Definition create_digest (t : hash_type) (hash : string) (size : N) (is_tree : bool) : option digest :=
  let tree := IsTreeAllowed t && is_tree in
  if valid_input t hash tree then Some (mkDigest hash tree size) else None.

(** ** Object types, object_type.hpp:22-27, 29-41 ([FromChar]), 43-55 ([ToChar]) *)
Inductive object_type := File | Executable | Tree | Symlink.

Definition FromChar (c : ascii) : object_type :=
  if Ascii.eqb c "x" then Executable
  else if Ascii.eqb c "t" then Tree
  else if Ascii.eqb c "l" then Symlink
  else File.

Definition ToChar (t : object_type) : ascii :=
  match t with File => "f" | Executable => "x" | Tree => "t" | Symlink => "l" end%char.

(** [IsTreeObject], object_type.hpp:67-70. *)
Definition IsTreeObject (t : object_type) : bool := match t with Tree => true | _ => false end.

(** ** Object infos, artifact.hpp:42-115 *)
Record object_info := mkInfo { i_digest : digest; i_type : object_type; i_failed : bool }.

(** [std::to_string(std::size_t)]. *)
Definition N_text (n : N) : string := NilZero.string_of_uint (N.to_uint n).

(** [ObjectInfo::ToString], artifact.hpp:59-68. *)
Definition info_ToString (size_unknown : bool) (i : object_info) : string :=
  "[" ++ d_hash (i_digest i) ++ ":" ++
  (if size_unknown then "" else N_text (d_size (i_digest i))) ++ ":" ++
  String (ToChar (i_type i)) "" ++ "]" ++
  (if i_failed i then " FAILED" else "").

(** [std::getline(stream, token, delim)]: [None] is the failed state of the stream, [Some s] a stream
    with [s] left to read. A token is read up to the delimiter, which is consumed, or up to the end
    of the input, after which the stream is in a state in which each further read fails; without any
    character left, reading fails. *)
Fixpoint getline_go (delim : ascii) (s : string) : string * option string :=
  match s with
  | "" => ("", None)
  | String c r =>
      if Ascii.eqb c delim then ("", Some r)
      else let '(tok, rest) := getline_go delim r in (String c tok, rest)
  end.
Definition getline (delim : ascii) (st : option string) : option (string * option string) :=
  match st with
  | None | Some "" => None
  | Some s => Some (getline_go delim s)
  end.

(** Value of a decimal digit. *)
Definition ddigit (c : ascii) : option N :=
  let n := N_of_ascii c in
  if ((48 <=? n) && (n <=? 57))%N then Some (n - 48)%N else None.

(** The digit loop of [strtoul] for base 10. *)
Fixpoint digits10 (s : string) (acc : N) (seen : bool) : option N :=
  match s with
  | String c r =>
      match ddigit c with
      | Some d => digits10 r (acc * 10 + d)%N true
      | None => if seen then Some acc else None
      end
  | EmptyString => if seen then Some acc else None
  end.

(** [std::stoul(s)] with base 10 and 64-bit [unsigned long] (C17 7.22.1.4): white space, a sign,
    digits; [None] for the exceptions [std::invalid_argument] (no digit) and [std::out_of_range]. A
    minus sign negates modulo 2^64; text after the digits is ignored. *)
Definition stoul10 (s : string) : option N :=
  let s1 := skip_space s in
  let '(neg, s2) :=
    match s1 with
    | String c r =>
        if Ascii.eqb c "+" then (false, r) else if Ascii.eqb c "-" then (true, r) else (false, s1)
    | EmptyString => (false, s1)
    end in
  match digits10 s2 0 false with
  | Some n =>
      if (n <? 2 ^ 64)%N then Some (if neg then ((2 ^ 64 - n) mod 2 ^ 64)%N else n) else None
  | None => None
  end.

(** First character of a C string ([*s.c_str()]): the terminating NUL for the empty string. *)
Definition first_char (s : string) : ascii := match s with "" => zero | String c _ => c end.

(** [ObjectInfo::FromString], artifact.hpp:78-114. *)
Definition info_FromString (t : hash_type) (s : string) : option object_info :=
  match s with
  | String c rest =>
      if Ascii.eqb c "[" then
        match getline ":" (Some rest) with
        | None => None
        | Some (id, st1) =>
            match getline ":" st1 with
            | None => None
            | Some (size_str, st2) =>
                match getline "]" st2 with
                | None => None
                | Some (type, _) =>
                    match stoul10 size_str with
                    | None => None
                    | Some size =>
                        let ot := FromChar (first_char type) in
                        match create_digest t id size (IsTreeObject ot) with
                        | Some d => Some (mkInfo d ot false)
                        | None => None
                        end
                    end
                end
            end
        end
      else None
  | "" => None
  end.

(** [ObjectInfo::ToJson], artifact.hpp:72-76. *)
Definition info_ToJson (i : object_info) : json :=
  JObj [("file_type", JStr (String (ToChar (i_type i)) ""));
        ("id", JStr (d_hash (i_digest i)));
        ("size", JInt (Z.of_N (d_size (i_digest i))))].

(** ** Reading JSON values *)

(** [json.find(key)]. *)
Definition jfind (j : json) (key : string) : option json :=
  match j with JObj m => alookup key m | _ => None end.

(** [ExtractValueAs<T>], src/utils/cpp/json.hpp:30-51, for the types used here: nothing if the key is
    absent or the value is not of the type. *)
Definition as_string (j : json) : option string := match j with JStr s => Some s | _ => None end.

Definition extract_string (j : json) (key : string) : option string :=
  match jfind j key with Some v => as_string v | None => None end.

Fixpoint all_some {A} (l : list (option A)) : option (list A) :=
  match l with
  | [] => Some []
  | None :: _ => None
  | Some x :: r => match all_some r with Some l' => Some (x :: l') | None => None end
  end.

(** [get<std::vector<std::string>>]. *)
Definition as_strings (j : json) : option (list string) :=
  match j with JArr l => all_some (map as_string l) | _ => None end.

Definition extract_strings (j : json) (key : string) : option (list string) :=
  match jfind j key with Some v => as_strings v | None => None end.

(** [get<std::map<std::string, std::string>>]. *)
Definition as_string_map (j : json) : option (list (string * string)) :=
  match j with
  | JObj m =>
      all_some (map (fun p => match p with (k, v) => option_map (fun s => (k, s)) (as_string v) end) m)
  | _ => None
  end.

(** [get<std::size_t>]: any number, converted. Conversion of a double that does not fit is undefined
    in C++; the conversion of doubles is the parameter [u64_of_num]. *)
Definition as_size (u64_of_num : num -> N) (j : json) : option N :=
  match j with
  | JInt z => Some (Z.to_N (z mod 2 ^ 64))
  | JNum n => Some (u64_of_num n)
  | _ => None
  end.

Definition extract_size (u64_of_num : num -> N) (j : json) (key : string) : option N :=
  match jfind j key with Some v => as_size u64_of_num v | None => None end.

(** [get<double>]: any number, integers are rounded to nearest. *)
Definition as_double (j : json) : option num :=
  match j with
  | JInt z => Some (binary_normalize prec emax z 0 false)
  | JNum n => Some n
  | _ => None
  end.

(** ** Artifact descriptions, artifact_description.hpp:31-143 *)
Inductive artifact :=
| ALocal (path repository : string)
| AKnown (d : digest) (type : object_type) (repo : option string)
| AAction (action_id path : string)
| ATree (tree_id : string)
| ATreeOverlay (overlay_id : string).

(** [ArtifactDescription::ToJson], artifact_description.cpp:150-178 with the functions
    [Describe...Artifact], 229-264. *)
Definition art_ToJson (a : artifact) : json :=
  match a with
  | ALocal path repo =>
      JObj [("data", JObj [("path", JStr path); ("repository", JStr repo)]); ("type", JStr "LOCAL")]
  | AKnown d t _ =>
      JObj [("data", JObj [("file_type", JStr (String (ToChar t) "")); ("id", JStr (d_hash d));
                           ("size", JInt (Z.of_N (d_size d)))]);
            ("type", JStr "KNOWN")]
  | AAction id path =>
      JObj [("data", JObj [("id", JStr id); ("path", JStr path)]); ("type", JStr "ACTION")]
  | ATree id => JObj [("data", JObj [("id", JStr id)]); ("type", JStr "TREE")]
  | ATreeOverlay id => JObj [("data", JObj [("id", JStr id)]); ("type", JStr "TREE_OVERLAY")]
  end.

Section Read.
Variable u64_of_num : num -> N.

(** [CreateLocalArtifactDescription], artifact_description.cpp:266-289. *)
Definition create_local (data : json) : option artifact :=
  match extract_string data "path", extract_string data "repository" with
  | Some path, Some repo => Some (ALocal path repo)
  | _, _ => None
  end.

(** [CreateKnownArtifactDescription], artifact_description.cpp:291-328. *)
Definition create_known (t : hash_type) (data : json) : option artifact :=
  match extract_string data "id", extract_size u64_of_num data "size", extract_string data "file_type" with
  | Some id, Some size, Some (String c "") =>
      let ot := FromChar c in
      match create_digest t id size (IsTreeObject ot) with
      | Some d => Some (AKnown d ot None)
      | None => None
      end
  | _, _, _ => None
  end.

(** [CreateActionArtifactDescription], artifact_description.cpp:330-353. *)
Definition create_action (data : json) : option artifact :=
  match extract_string data "id", extract_string data "path" with
  | Some id, Some path => Some (AAction id path)
  | _, _ => None
  end.

(** [CreateTreeArtifactDescription], artifact_description.cpp:355-369. *)
Definition create_tree (data : json) : option artifact :=
  match extract_string data "id" with Some id => Some (ATree id) | None => None end.

(** [CreateTreeOverlayArtifactDescription], artifact_description.cpp:371-386. *)
Definition create_tree_overlay (data : json) : option artifact :=
  match extract_string data "id" with Some id => Some (ATreeOverlay id) | None => None end.

(** [ArtifactDescription::FromJson], artifact_description.cpp:98-148. *)
Definition art_FromJson (t : hash_type) (j : json) : option artifact :=
  match extract_string j "type", jfind j "data" with
  | Some type, Some data =>
      if String.eqb type "LOCAL" then create_local data
      else if String.eqb type "KNOWN" then create_known t data
      else if String.eqb type "ACTION" then create_action data
      else if String.eqb type "TREE" then create_tree data
      else if String.eqb type "TREE_OVERLAY" then create_tree_overlay data
      else None
  | _, _ => None
  end.

(** ** Actions, action.hpp:27-115 and action_description.hpp:38-276 *)

(** [ActionDescription] with its [Action]; environment and execution properties are [std::map]s,
    inputs an [unordered_map], both as association lists sorted by key. Tree actions and tree overlay
    actions ([CreateTreeAction], [CreateTreeOverlayAction]) are constructed by other means and have an
    empty command. *)
Record action := mkAction {
  a_id : string;
  a_output : list string;
  a_output_dirs : list string;
  a_command : list string;
  a_cwd : string;
  a_env : list (string * string);
  a_may_fail : option string;
  a_no_cache : bool;
  a_timeout : num;
  a_properties : list (string * string);
  a_inputs : list (string * artifact)
}.

(** The double 1.0. *)
Definition one : num := S754_finite false 4503599627370496 (-52).

Definition is_nil {A} (l : list A) : bool := match l with [] => true | _ => false end.

(** [optional_key_value_reader], action_description.hpp:97-106. *)
Definition optional_object (j : json) (key : string) : json :=
  match jfind j key with Some v => v | None => JObj [] end.

Definition obind {A B} (x : option A) (f : A -> option B) : option B :=
  match x with Some a => f a | None => None end.

(** The list of outputs, action_description.hpp:57-60, 85-90: absent or wrong values count as none. *)
Definition or_empty (x : option (list string)) : list string := match x with Some l => l | None => [] end.

(** [ActionDescription::FromJson], action_description.hpp:51-195. *)
Definition action_FromJson (t : hash_type) (id : string) (desc : json) : option action :=
  let outputs := or_empty (extract_strings desc "output") in
  let output_dirs := or_empty (extract_strings desc "output_dirs") in
  let command := or_empty (extract_strings desc "command") in
  if is_nil outputs && is_nil output_dirs then None
  else if is_nil command then None
  else
    obind (match jfind desc "cwd" with
           | None => Some ""
           | Some v => as_string v
           end) (fun cwd =>
    match optional_object desc "input", optional_object desc "env" with
    | JObj input, JObj env =>
        obind (all_some (map (fun p => match p with (path, d) =>
                                option_map (fun a => (path, a)) (art_FromJson t d) end) input)) (fun inputs =>
        obind (match jfind desc "may_fail" with
               | None | Some JNull => Some None
               | Some (JStr s) => Some (Some s)
               | Some _ => None
               end) (fun may_fail =>
        obind (match jfind desc "no_cache" with
               | None => Some false
               | Some (JBool b) => Some b
               | Some _ => None
               end) (fun no_cache =>
        obind (match jfind desc "timeout scaling" with
               | None => Some one
               | Some v => as_double v
               end) (fun timeout =>
        match optional_object desc "execution properties" with
        | JObj props =>
            obind (as_string_map (JObj env)) (fun env' =>
            obind (as_string_map (JObj props)) (fun props' =>
            Some (mkAction id outputs output_dirs command cwd env' may_fail no_cache timeout props' inputs)))
        | _ => None
        end))))
    | _, _ => None
    end).

Definition strings_json (l : list string) : json := JArr (map JStr l).
Definition string_map_json (l : list (string * string)) : json :=
  JObj (map (fun p => match p with (k, v) => (k, JStr v) end) l).
Definition inputs_json (l : list (string * artifact)) : json :=
  JObj (map (fun p => match p with (k, v) => (k, art_ToJson v) end) l).

(** [double != double]. *)
Definition num_neqb (a b : num) : bool := negb (SFeqb a b).

(** [json[key] = value] on an object if the condition holds. *)
Definition set_if (c : bool) (key : string) (v : json) (m : list (string * json)) : list (string * json) :=
  if c then ainsert key v m else m.

(** [ActionDescription::ToJson], action_description.hpp:201-238. *)
Definition action_ToJson (a : action) : json :=
  JObj
    (set_if (negb (is_nil (a_properties a))) "execution properties" (string_map_json (a_properties a))
    (set_if (negb (String.eqb (a_cwd a) "")) "cwd" (JStr (a_cwd a))
    (set_if (num_neqb (a_timeout a) one) "timeout scaling" (JNum (a_timeout a))
    (set_if (a_no_cache a) "no_cache" (JBool true)
    (set_if (match a_may_fail a with Some _ => true | None => false end) "may_fail"
       (match a_may_fail a with Some s => JStr s | None => JNull end)
    (set_if (negb (is_nil (a_env a))) "env" (string_map_json (a_env a))
    (set_if (negb (is_nil (a_inputs a))) "input" (inputs_json (a_inputs a))
    (set_if (negb (is_nil (a_output_dirs a))) "output_dirs" (strings_json (a_output_dirs a))
    (set_if (negb (is_nil (a_output a))) "output" (strings_json (a_output a))
       [("command", strings_json (a_command a))]))))))))).
End Read.

(** ** Artifact identifiers *)
Section Id.
Variable ndump : num -> string.
Variable H : string -> string.
(** [ArtifactDescription::ComputeId], artifact_description.cpp:212-226; equality of descriptions is
    equality of identifiers (artifact_description.hpp, [operator==]). *)
Definition art_id (a : artifact) : string := H (dump ndump (art_ToJson a)).
Definition art_eqb (a b : artifact) : bool := String.eqb (art_id a) (art_id b).
End Id.
