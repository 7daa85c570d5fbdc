(** Model of git trees in src/buildtool/file_system/git_repo.cpp and object_type.hpp, with the tagged
    hashes of src/buildtool/crypto/hash_function.cpp. Strings are byte strings. *)
From Coq Require Import String Ascii List Bool NArith Arith.
From Verif Require Import Common.Strs Hex.Model Expr.Eval.
Import ListNotations.
Local Open Scope string_scope.
Local Open Scope list_scope.
Local Infix "^^" := String.append (at level 60, right associativity).

(** [ObjectType], object_type.hpp:21-26; [IsTreeObject] 71-73, [IsSymlinkObject] 76-78. *)
Inductive otype := File | Executable | Tree | Symlink.
Definition otype_eqb (a b : otype) : bool :=
  match a, b with
  | File, File | Executable, Executable | Tree, Tree | Symlink, Symlink => true
  | _, _ => false
  end.
Definition IsTreeObject (t : otype) : bool := otype_eqb t Tree.
Definition IsSymlinkObject (t : otype) : bool := otype_eqb t Symlink.
Definition IsExecutableObject (t : otype) : bool := otype_eqb t Executable.

(** [TreeEntry] and [tree_entries_t], git_repo.hpp:51-65: names and types by raw id. The list is in the
    iteration order of the hash map; nothing is assumed about that order. *)
Definition entry : Type := (string * otype).
Definition tree_entries : Type := list (string * list entry).

Definition NUL : string := String (ascii_of_N 0) "".

(** [ObjectTypeToPerm], git_repo.cpp:118-130. *)
Definition ObjectTypeToPerm (t : otype) : string :=
  match t with File => "100644" | Executable => "100755" | Tree => "40000" | Symlink => "120000" end.

(** The sorting map of [CreateTree], git_repo.cpp:1979-1987. *)
Definition sort_key (name : string) (t : otype) : string := name ^^ (if IsTreeObject t then "/" else "").
Definition sorted_entries (es : tree_entries) : list (string * (string * otype)) :=
  fold_left (fun m g => fold_left (fun m e => aemplace (sort_key (fst e) (snd e)) (fst g, snd e) m) (snd g) m) es [].

(** The tree content built by [CreateTree], git_repo.cpp:1989-2002. *)
Definition entry_text (p : string * (string * otype)) : string :=
  match p with
  | (name, (raw, t)) =>
      let filename := substring 0 (String.length name - (if IsTreeObject t then 1 else 0)) name in
      ObjectTypeToPerm t ^^ " " ^^ filename ^^ NUL ^^ raw
  end.
Definition tree_content (es : tree_entries) : string := String.concat "" (map entry_text (sorted_entries es)).

Section Hash.
(** SHA1 as raw bytes. *)
Variable H : string -> string.

(** [HashBlobData], [HashTreeData] with [CreateGitBlobTag], [CreateGitTreeTag],
    hash_function.cpp:26-60; also the object ids computed by [git_odb_write]. *)
Definition blob_id (data : string) : string := H ("blob " ^^ dec (N.of_nat (String.length data)) ^^ NUL ^^ data).
Definition tree_id (data : string) : string := H ("tree " ^^ dec (N.of_nat (String.length data)) ^^ NUL ^^ data).

(** [CreateTree] and [CreateShallowTree], git_repo.cpp:1961-2023 and 2062-2088, in an object database
    accepting the tree: raw id and content. *)
Definition CreateShallowTree (es : tree_entries) : string * string := (tree_id (tree_content es), tree_content es).

(** ** Reading

    Parsing of tree objects is done by libgit2 ([git_tree__parse_raw], [git_tree_entry_filemode],
    [git_tree_walk]), outside /repo; the functions up to [normalize_mode] follow its documented format:
    octal mode of at most 16 bits, blank, nonempty name of at most 65535 bytes, NUL, 20 bytes of id. *)
Fixpoint take_until (c : ascii) (s : string) : option (string * string) :=
  match s with
  | "" => None
  | String d r =>
      if Ascii.eqb c d then Some ("", r)
      else match take_until c r with Some (a, b) => Some (String d a, b) | None => None end
  end.
Fixpoint take (n : nat) (s : string) : option (string * string) :=
  match n, s with
  | O, _ => Some ("", s)
  | S k, String d r => match take k r with Some (a, b) => Some (String d a, b) | None => None end
  | S _, "" => None
  end.
Fixpoint octal (acc : N) (s : string) : option N :=
  match s with
  | "" => Some acc
  | String c r =>
      let n := N_of_ascii c in
      if (N.leb 48 n && N.leb n 55)%bool then octal (acc * 8 + (n - 48)) r else None
  end.
Definition mode_of (s : string) : option N :=
  match s with
  | "" => None
  | _ => match octal 0 s with Some m => if N.leb m 65535 then Some m else None | None => None end
  end.
Definition parse_entry (s : string) : option (N * string * string * string) :=
  match take_until " " s with
  | Some (m, r1) =>
      match mode_of m, take_until (ascii_of_N 0) r1 with
      | Some mode, Some (name, r2) =>
          if (Nat.eqb (String.length name) 0 || N.ltb 65535 (N.of_nat (String.length name)))%bool then None
          else match take 20 r2 with
               | Some (raw, rest) => Some (mode, name, raw, rest)
               | None => None
               end
      | _, _ => None
      end
  | None => None
  end.
Fixpoint parse_tree (fuel : nat) (s : string) : option (list (N * string * string)) :=
  match s, fuel with
  | "", _ => Some []
  | _, O => None
  | _, S f =>
      match parse_entry s with
      | Some (m, n, i, rest) =>
          match parse_tree f rest with Some l => Some ((m, n, i) :: l) | None => None end
      | None => None
      end
  end.

(** [git_filemode_t] values and the normalisation done by [git_tree_entry_filemode]. *)
Definition MODE_TREE : N := 16384. (* 0040000 *)
Definition MODE_BLOB : N := 33188. (* 0100644 *)
Definition MODE_EXEC : N := 33261. (* 0100755 *)
Definition MODE_LINK : N := 40960. (* 0120000 *)
Definition MODE_COMMIT : N := 57344. (* 0160000 *)
Definition normalize_mode (m : N) : N :=
  let ty := N.land m 61440 in
  if N.eqb ty MODE_TREE then MODE_TREE
  else if N.testbit m 6 then MODE_EXEC
  else if N.eqb ty MODE_COMMIT then MODE_COMMIT
  else if N.eqb ty MODE_LINK then MODE_LINK
  else MODE_BLOB.

(** [GitFileModeIsNonSpecial] 76-79 with [kNonSpecialGitFileModes] 53-56, [GitFileModeToObjectType]
    81-101. *)
Definition GitFileModeIsNonSpecial (m : N) : bool := (N.eqb m MODE_BLOB || N.eqb m MODE_EXEC || N.eqb m MODE_TREE)%bool.
Definition GitFileModeToObjectType (m : N) : option otype :=
  if N.eqb m MODE_BLOB then Some File
  else if N.eqb m MODE_EXEC then Some Executable
  else if N.eqb m MODE_TREE then Some Tree
  else if N.eqb m MODE_LINK then Some Symlink
  else None.

(** [entries[raw_id].emplace_back(name, type)]. *)
Fixpoint emplace_back (raw : string) (e : entry) (es : tree_entries) : tree_entries :=
  match es with
  | [] => [(raw, [e])]
  | (r, l) :: rest => if String.eqb r raw then (r, l ++ [e]) :: rest else (r, l) :: emplace_back raw e rest
  end.

(** [ToRawString], git_repo.cpp:67-73. *)
Definition ToRawString (oid : string) : option string := FromHexString (ToHexString oid).

(** [flat_tree_walker_ignore_special] and [flat_tree_walker], git_repo.cpp:155-198. *)
Definition walk_entry (ignore_special : bool) (acc : option tree_entries) (x : N * string * string)
  : option tree_entries :=
  match acc, x with
  | Some es, (m, name, oid) =>
      match ToRawString oid with
      | Some raw =>
          if (ignore_special && negb (GitFileModeIsNonSpecial (normalize_mode m)))%bool then Some es
          else match GitFileModeToObjectType (normalize_mode m) with
               | Some t => Some (emplace_back raw (name, t) es)
               | None => None
               end
      | None => None
      end
  | None, _ => None
  end.

(** [ReadDirectTree], git_repo.cpp:1846-1898, on the content of the tree. *)
Definition ReadDirectTree (ignore_special : bool) (data : string) : option tree_entries :=
  match parse_tree (S (String.length data)) data with
  | Some l => fold_left (walk_entry ignore_special) l (Some [])
  | None => None
  end.

(** [ReadTree], git_repo.cpp:1900-1959; [check_symlinks] gets the hex ids of the links. *)
Definition symlink_ids (es : tree_entries) : list string :=
  map (fun g => ToHexString (fst g))
      (filter (fun g => existsb (fun e => IsSymlinkObject (snd e)) (snd g)) es).
Definition ReadTree (check_symlinks : list string -> bool) (ignore_special : bool) (data : string)
  : option tree_entries :=
  match ReadDirectTree ignore_special data with
  | Some es =>
      if ignore_special then Some es
      else match symlink_ids es with
           | [] => Some es
           | l => if check_symlinks l then Some es else None
           end
  | None => None
  end.

(** [ReadTreeData] with a hexadecimal id, git_repo.cpp:2025-2060. Looking the tree up in the in-memory
    database, libgit2 verifies that the content hashes to the id (its default setting). *)
Definition ReadTreeData (check_symlinks : list string -> bool) (data id : string) : option tree_entries :=
  match FromHexString id with
  | Some raw => if String.eqb (tree_id data) raw then ReadTree check_symlinks false data else None
  | None => None
  end.

End Hash.
