(** Model of reading directories of the file system into the storage: [CreateGitTreeDigestFromLocalTree] and
    [CreateDirectoryDigestFromLocalTree] of src/buildtool/execution_api/bazel_msg/bazel_msg_factory.cpp (output
    directories of actions), and [GitRepo::CreateTreeFromDirectory] of src/buildtool/file_system/git_repo.cpp (importing a
    directory into a repository).

    Entries that are no files, directories or symbolic links (sockets, devices) are not modelled; all three functions
    fail if there is one. *)
From Coq Require Import String Ascii List Bool NArith Arith.
From Verif Require Import Common.Strs Hex.Model Describe.Model Executor.Wire Rehash.Directory.
From Verif Require Import GitTree.Model Path.Model Rehash.Model Rehash.Spec.
Import ListNotations.
Local Open Scope string_scope.
Local Open Scope list_scope.

Section Read.
(** SHA1 and SHA256; which objects the storage takes; the order of traversal of directories. *)
Variable H : string -> string.
Variable H2 : string -> string.
Variable accepts : bool -> string -> bool.
Variable order : list (string * fnode) -> list (string * fnode).

(** The storage: everything stored, with its kind. *)
Definition stored : Type := list (bool * string).
Definition store (d : bool -> string -> digest) (tree : bool) (data : string) (E : stored) : option digest * stored :=
  if accepts tree data then (Some (d tree data), (tree, data) :: E) else (None, E).

(** ** Git trees *)

(** [dir_reader], bazel_msg_factory.cpp:838-896 with [check] (links must not point upwards), and
    [dir_read_and_store], git_repo.cpp:2132-2172 without. *)
Fixpoint git_entries (check : bool) (rec : fnode -> stored -> option digest * stored) (l : list (string * fnode))
  (es : tree_entries) (E : stored) : option tree_entries * stored :=
  match l with
  | [] => (Some es, E)
  | (name, c) :: r =>
      let (d, E') :=
        match c with
        | FDir _ => rec c E
        | FLink target => if (check && negb (PathIsNonUpwards target))%bool then (None, E)
                          else store (nat_digest H) false target E
        | FFile _ data => store (nat_digest H) false data E
        end in
      match d with
      | None => (None, E')
      | Some d =>
          match FromHexString (d_hash d) with
          | None => (None, E')
          | Some raw => git_entries check rec r (emplace_back raw (name, ftype c) es) E'
          end
      end
  end.
(** [CreateGitTreeDigestFromLocalTree], bazel_msg_factory.cpp:832-914 ([check]), and
    [GitRepo::CreateTreeFromDirectory], git_repo.cpp:2122-2190. *)
Fixpoint git_from_local (check : bool) (fuel : nat) (n : fnode) (E : stored) : option digest * stored :=
  match fuel with
  | O => (None, E)
  | S f =>
      match n with
      | FDir es =>
          match git_entries check (git_from_local check f) (order es) [] E with
          | (None, E') => (None, E')
          | (Some entries, E') => store (nat_digest H) true (snd (CreateShallowTree H entries)) E'
          end
      | _ => (None, E)
      end
  end.
Definition CreateGitTreeDigestFromLocalTree : nat -> fnode -> stored -> option digest * stored := git_from_local true.
Definition CreateTreeFromDirectory : nat -> fnode -> stored -> option digest * stored := git_from_local false.

(** ** [Directory] messages *)

(** [dir_reader], bazel_msg_factory.cpp:762-810. *)
Fixpoint directory_entries (rec : fnode -> stored -> option digest * stored) (l : list (string * fnode)) (a : nodes)
  (E : stored) : option nodes * stored :=
  match l with
  | [] => (Some a, E)
  | (name, c) :: r =>
      match c with
      | FDir _ =>
          match rec c E with
          | (None, E') => (None, E')
          | (Some d, E') => directory_entries rec r (add_dir a name d) E'
          end
      | FLink target =>
          match store (fun _ => comp_digest H2) false target E with
          | (None, E') => (None, E')
          | (Some _, E') => directory_entries rec r (add_link a name target) E'
          end
      | FFile x data =>
          match store (fun _ => comp_digest H2) false data E with
          | (None, E') => (None, E')
          | (Some d, E') => directory_entries rec r (add_file a name x d) E'
          end
      end
  end.
(** [CreateDirectoryDigestFromLocalTree], bazel_msg_factory.cpp:752-830. *)
Fixpoint CreateDirectoryDigestFromLocalTree (fuel : nat) (n : fnode) (E : stored) : option digest * stored :=
  match fuel with
  | O => (None, E)
  | S f =>
      match n with
      | FDir es =>
          match directory_entries (CreateDirectoryDigestFromLocalTree f) (order es) ([], [], []) E with
          | (None, E') => (None, E')
          | (Some (files, dirs, links), E') =>
              match SerializeMessage (directory_text (CreateDirectory files dirs links)) with
              | None => (None, E')
              | Some bytes => store (fun _ => comp_digest H2) true bytes E'
              end
          end
      | _ => (None, E)
      end
  end.
End Read.
