(** A directory of the file system and the operations of src/buildtool/file_system/file_system_manager.hpp that put files
    there.

    The directory is a tree of files (executable or not), symbolic links and directories ([fnode]); paths are lists of
    components below it. Modification times, owners and other permissions are not modelled (times and write permission are
    set to fixed values by the code). Operations fail for the reasons modelled here only. *)
From Coq Require Import String Ascii List Bool NArith Arith.
From Verif Require Import Common.Strs Hex.Model Describe.Model Executor.Wire Rehash.Directory Rehash.DirectoryProofs.
From Verif Require Import GitTree.Model Path.Model Rehash.Model Rehash.Spec.
Import ListNotations.
Local Open Scope string_scope.
Local Open Scope list_scope.

Definition path : Type := list string.

(** What an operation or a sequence of operations did: all of it; a part of it, with an error; or the path left the
    directory, following a symbolic link on the way or a name that is none of an entry (["."], [".."], or a name with a
    slash): what happens then is not modelled. *)
Inductive result := Done (d : fnode) | Fails (d : fnode) | Elsewhere.
Definition andthen (r : result) (f : fnode -> result) : result := match r with Done d => f d | _ => r end.

Fixpoint contains_nul (s : string) : bool :=
  match s with "" => false | String c r => (Ascii.eqb c (ascii_of_N 0) || contains_nul r)%bool end.
Definition plainb (x : string) : bool :=
  negb (String.eqb x "" || String.eqb x "." || String.eqb x ".." || contains_slash x || contains_nul x).

(** [std::filesystem::create_directories], as used by [CreateDirectory] and [CreateDirectoryImpl],
    file_system_manager.hpp:136-141, 1001-1030: creates what is missing; an existing directory is kept, everything else in
    its place is an error. *)
Fixpoint mkdirs (p : path) (d : fnode) : result :=
  match p with
  | [] => match d with FDir _ => Done d | _ => Fails d end
  | x :: q =>
      match d with
      | FFile _ _ => Fails d
      | FLink _ => Elsewhere
      | FDir es =>
          if plainb x then
            match mkdirs q (match alookup x es with Some c => c | None => FDir [] end) with
            | Done c => Done (FDir (ainsert x c es))
            | Fails _ => Fails d
            | Elsewhere => Elsewhere
            end
          else Elsewhere
      end
  end.
Definition CreateDirectory (p : path) (d : fnode) : result := mkdirs p d.

(** A system call on the entry at a path, given what is there. If its directory is missing the call fails
    (the code always creates it before). *)
Inductive effect := Put (n : fnode) | Gone | Kept | Refused.
Definition adel {V} (x : string) (l : list (string * V)) : list (string * V) :=
  filter (fun p => negb (String.eqb x (fst p))) l.
Fixpoint act (f : option fnode -> effect) (p : path) (d : fnode) : result :=
  match p with
  | [] => Elsewhere
  | x :: q =>
      match d with
      | FFile _ _ => Fails d
      | FLink _ => Elsewhere
      | FDir es =>
          if plainb x then
            match q with
            | [] =>
                match f (alookup x es) with
                | Put n => Done (FDir (ainsert x n es))
                | Gone => Done (FDir (adel x es))
                | Kept => Done d
                | Refused => Fails d
                end
            | _ :: _ =>
                match alookup x es with
                | None => Fails d
                | Some c =>
                    match act f q c with
                    | Done c' => Done (FDir (ainsert x c' es))
                    | Fails _ => Fails d
                    | Elsewhere => Elsewhere
                    end
                end
            end
          else Elsewhere
      end
  end.

(** [RemoveFile], file_system_manager.hpp:492-511. *)
Definition RemoveFile (p : path) : fnode -> result :=
  act (fun o => match o with None => Kept | Some (FDir _) => Refused | Some _ => Gone end) p.
(** [if (Exists(dst) and not std::filesystem::remove(dst))], file_system_manager.hpp:464-470: this also removes empty
    directories, for others it throws. *)
Definition remove_existing (p : path) : fnode -> result :=
  act (fun o => match o with None => Kept | Some (FDir (_ :: _)) => Refused | Some _ => Gone end) p.
(** [std::filesystem::copy_file] with [overwrite_existing], from a file in the storage with the given content. *)
Definition copy_file (x : bool) (data : string) (p : path) : fnode -> result :=
  act (fun o => match o with None | Some (FFile _ _) => Put (FFile x data) | Some _ => Refused end) p.
(** [SetFilePermissions], file_system_manager.hpp:1119-1150. *)
Definition SetFilePermissions (p : path) (x : bool) : fnode -> result :=
  act (fun o => match o with Some (FFile _ data) => Put (FFile x data) | _ => Refused end) p.
(** [std::filesystem::create_hard_link]. *)
Definition hard_link (x : bool) (data : string) (p : path) : fnode -> result :=
  act (fun o => match o with None => Put (FFile x data) | Some _ => Refused end) p.
(** [std::filesystem::create_directory_symlink]: the target is passed as a C string; an empty one is an error. *)
Fixpoint c_string (s : string) : string :=
  match s with "" => "" | String c r => if Ascii.eqb c (ascii_of_N 0) then "" else String c (c_string r) end.
Definition make_link (target : string) (p : path) : fnode -> result :=
  act (fun o => match o with
                | None => if String.eqb (c_string target) "" then Refused else Put (FLink (c_string target))
                | Some _ => Refused
                end) p.

Definition parent (p : path) : path := removelast p.

(** [CreateSymlink], file_system_manager.hpp:181-216. *)
Definition CreateSymlink (target : string) (p : path) (d : fnode) : result :=
  andthen (CreateDirectory (parent p) d) (fun d => andthen (RemoveFile p d) (make_link target p)).
(** [CopySymlinkAs], file_system_manager.hpp:456-490, from a file in the storage. *)
Definition CopySymlinkAs (target : string) (p : path) (d : fnode) : result :=
  andthen (remove_existing p d) (CreateSymlink target p).
(** [CopyFileImpl], file_system_manager.hpp:1057-1088. Simplification: the destination is not the file in the storage. *)
Definition CopyFile (x : bool) (data : string) (p : path) (d : fnode) : result :=
  andthen (RemoveFile p d) (copy_file x data p).
(** [CopyFileAs], file_system_manager.hpp:364-414. [x] is the permission of the file in the storage. *)
Definition CopyFileAs (t : otype) (x : bool) (data : string) (p : path) (d : fnode) : result :=
  match t with
  | File => andthen (CopyFile x data p d) (SetFilePermissions p false)
  | Executable => andthen (CopyFile x data p d) (SetFilePermissions p true)
  | Symlink => CopySymlinkAs data p d
  | Tree => Fails d
  end.
(** [WriteFile] and [WriteFileImpl], file_system_manager.hpp:887-938, 1090-1117: a new file has no execute permission. *)
Definition WriteFile (data : string) (p : path) (d : fnode) : result :=
  andthen (CreateDirectory (parent p) d) (fun d => andthen (RemoveFile p d) (copy_file false data p)).
(** [WriteFileAs], file_system_manager.hpp:940-979. *)
Definition WriteFileAs (t : otype) (data : string) (p : path) (d : fnode) : result :=
  match t with
  | File => andthen (WriteFile data p d) (SetFilePermissions p false)
  | Executable => andthen (WriteFile data p d) (SetFilePermissions p true)
  | Symlink => CreateSymlink data p d
  | Tree => Fails d
  end.
