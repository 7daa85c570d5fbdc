(** Model of src/utils/cpp/path.hpp and of the module-name functions in
    src/buildtool/build_engine/base_maps/entity_name.hpp:156-187 and entity_name_data.hpp:80-86.

    [std::filesystem::path] itself is a library class outside /repo. The operations used by the code are
    modelled after the C++ standard (fs.path.generic, fs.path.gen, fs.path.member) in the form
    implemented by libstdc++ on POSIX: a path is its native string, the only separator is the slash,
    there are no root names. *)
From Coq Require Import String Ascii List Bool ZArith.
Import ListNotations.
Local Open Scope string_scope.

Definition slash : ascii := "/"%char.

(** The maximal slash-free pieces of a string: "a//b/" gives ["a"; ""; "b"; ""]. *)
Fixpoint split_slash (s : string) : list string :=
  match s with
  | EmptyString => [""]
  | String c r =>
      match split_slash r with
      | p :: ps => if Ascii.eqb c slash then "" :: p :: ps else String c p :: ps
      | [] => []
      end
  end.

Fixpoint join_slash (ps : list string) : string :=
  match ps with
  | [] => ""
  | [p] => p
  | p :: r => p ++ "/" ++ join_slash r
  end.

Definition is_absolute (s : string) : bool :=
  match s with String c _ => Ascii.eqb c slash | _ => false end.

Definition nonempty (s : string) : bool := match s with "" => false | _ => true end.

(** path::filename: what follows the last slash. *)
Definition filename (s : string) : string := last (split_slash s) "".
Definition has_filename (s : string) : bool := nonempty (filename s).
Definition has_relative_path (s : string) : bool := existsb nonempty (split_slash s).

(** The elements after the root directory in iteration order; a trailing slash after a name yields a
    final empty element. *)
Definition rel_elements (s : string) : list string :=
  let names := filter nonempty (split_slash s) in
  if has_relative_path s && negb (has_filename s) then names ++ [""] else names.

(** The elements of [for (auto const& e : path)]. *)
Definition elements (s : string) : list string :=
  (if is_absolute s then ["/"] else []) ++ rel_elements s.

(** operator/ (fs.path.append). *)
Definition append (p q : string) : string :=
  if is_absolute q then q
  else if has_filename p then p ++ "/" ++ q
  else p ++ q.

Fixpoint drop_empty (ps : list string) : list string :=
  match ps with
  | "" :: r => drop_empty r
  | _ => ps
  end.

(** path::parent_path *)
Definition parent_path (s : string) : string :=
  if has_relative_path s then
    let u := join_slash (rev (drop_empty (rev (removelast (split_slash s))))) in
    match u with
    | "" => if is_absolute s then "/" else ""
    | _ => u
    end
  else s.

(** One step of lexically_normal over the elements after the root: [st] is the reversed list of names
    kept so far, [tr] tells whether the result so far ends in a separator. *)
Definition normal_step (abs : bool) (acc : list string * bool) (e : string) : list string * bool :=
  let '(st, tr) := acc in
  if String.eqb e "" || String.eqb e "." then (st, true)
  else if String.eqb e ".." then
    match st with
    | [] => if abs then ([], true) else ([".."], false)
    | t :: r => if String.eqb t ".." then (".." :: st, false) else (r, true)
    end
  else (e :: st, false).

(** path::lexically_normal (fs.path.gen) *)
Definition lexically_normal (s : string) : string :=
  match s with
  | "" => ""
  | _ =>
      let abs := is_absolute s in
      let '(st, tr) := fold_left (normal_step abs) (rel_elements s) ([], false) in
      match st with
      | [] => if abs then "/" else "."
      | t :: _ =>
          (if abs then "/" else "") ++ join_slash (rev st)
          ++ (if tr && negb (String.eqb t "..") then "/" else "")
      end
  end.

(** path::stem: the filename without its last extension. *)
Fixpoint rfind_dot (s : string) : option nat :=
  match s with
  | EmptyString => None
  | String c r =>
      match rfind_dot r with
      | Some n => Some (S n)
      | None => if Ascii.eqb c "."%char then Some 0 else None
      end
  end.
Definition stem (s : string) : string :=
  let fn := filename s in
  if String.eqb fn "." || String.eqb fn ".." then fn
  else match rfind_dot fn with
       | None | Some 0 => fn
       | Some n => substring 0 n fn
       end.

(** path::lexically_relative (fs.path.gen) *)
Fixpoint mismatch (a b : list string) : list string * list string :=
  match a, b with
  | x :: a', y :: b' => if String.eqb x y then mismatch a' b' else (a, b)
  | _, _ => (a, b)
  end.
Fixpoint count_up (b : list string) (n : Z) : Z :=
  match b with
  | [] => n
  | e :: r =>
      if String.eqb e ".." then count_up r (n - 1)
      else if nonempty e && negb (String.eqb e ".") then count_up r (n + 1)
      else count_up r n
  end.
Definition lexically_relative (p base : string) : string :=
  if negb (Bool.eqb (is_absolute p) (is_absolute base)) then ""
  else
    let '(a, b) := mismatch (elements p) (elements base) in
    match a, b with
    | [], [] => "."
    | _, _ =>
        let n := count_up b 0 in
        if Z.eqb n 0 && (match a with [] => true | e :: _ => negb (nonempty e) end) then "."
        else if Z.leb 0 n then
          fold_left append (repeat ".." (Z.to_nat n) ++ a) ""
        else ""
    end.

(** ** src/utils/cpp/path.hpp *)

(** [ToNormalPath], path.hpp:21-31. *)
Definition ToNormalPath (p : string) : string :=
  let n := lexically_normal p in
  let n := if has_filename n then n else parent_path n in
  match n with "" => "." | _ => n end.

(** [PathIsNonUpwards], path.hpp:36-43. For the empty path [begin()] is the end iterator; libstdc++
    then yields the path itself, i.e. an element different from dot-dot. *)
Definition PathIsNonUpwards (p : string) : bool :=
  if is_absolute p then false
  else match elements (lexically_normal p) with
       | [] => true
       | e :: _ => negb (String.eqb e "..")
       end.

(** [PathIsConfined], path.hpp:51-60. *)
Definition PathIsConfined (p applied_to : string) : bool :=
  if is_absolute p then false
  else PathIsNonUpwards (append (parent_path applied_to) p).

(** [s.find_first_of("/\0")]: the literal is passed as a C string, so the character set is just the
    slash. *)
Fixpoint contains_slash (s : string) : bool :=
  match s with
  | EmptyString => false
  | String c r => Ascii.eqb c slash || contains_slash r
  end.

(** [IsValidFileName], path.hpp:63-71. *)
Definition IsValidFileName (s : string) : bool :=
  if contains_slash s then false
  else if negb (nonempty s) || String.eqb s "." || String.eqb s ".." then false
  else true.

(** ** Module names *)

(** [NamedTarget::normal_module_name], entity_name_data.hpp:80-86. *)
Definition normal_module_name (m : string) : string :=
  parent_path (lexically_relative (lexically_normal ("/" ++ m ++ "/")) "/").

(** [module.compare(0, 3, "../") != 0], i.e. the string does not start with dot-dot-slash. *)
Definition starts_updir (s : string) : bool := String.eqb (substring 0 3 s) "../".

(** The module part of [ParseEntityNameRelative], entity_name.hpp:167-178: [None] is the rejection as
    outside of the workspace; the accepted module is normalised by the constructor of [NamedTarget]. *)
Definition relative_module (current rel : string) : option string :=
  let m := lexically_normal (append current rel) in
  if starts_updir m then None else Some (normal_module_name m).
