(** Model of putting objects of the storage into directories: [TreeReader] of
    src/buildtool/execution_api/common/tree_reader.hpp, [LocalCasReader::StageBlobTo], [LocalApi::RetrieveToPaths],
    [GitApi::RetrieveToPaths] and [LocalAction::CreateDirectoryStructure]. *)
From Coq Require Import String Ascii List Bool NArith Arith.
From Verif Require Import Common.Strs Hex.Model Describe.Model Executor.Wire Rehash.Directory Rehash.DirectoryProofs.
From Verif Require Import GitTree.Model Path.Model Rehash.Model Rehash.Spec Staging.FileSystem.
Import ListNotations.
Local Open Scope string_scope.
Local Open Scope list_scope.

(** Type and hash of an object ([Artifact::ObjectInfo]). *)
Definition oinfo : Type := (otype * string).

(** One after the other, until something fails. *)
Fixpoint stage_all (f : oinfo -> path -> fnode -> result) (l : list (path * oinfo)) (d : fnode) : result :=
  match l with
  | [] => Done d
  | (p, i) :: r => andthen (f i p d) (stage_all f r)
  end.

Section Storage.
(** The direct entries of a tree, in the order of traversal ([ReadGitTree] or [ReadDirectory] with [ReadObjectInfos],
    tree_reader_utils.cpp:89-150); the content of a blob in the storage for executables or other files ([BlobPath]). *)
Variable read : string -> option (list (string * oinfo)).
Variable blob : string -> bool -> option string.

(** [ReadObjectInfosRecursively] and [RecursivelyReadTreeLeafs], tree_reader.hpp:80-108, 146-189. *)
Definition leaf_entries (rec : path -> string -> option (list (path * oinfo))) (parent : path)
  : list (string * oinfo) -> option (list (path * oinfo)) :=
  fix go es :=
    match es with
    | [] => Some []
    | (x, (t, h)) :: r =>
        match (if IsTreeObject t then rec (parent ++ [x]) h else Some [(parent ++ [x], (t, h))]) with
        | None => None
        | Some l => match go r with Some l' => Some (l ++ l') | None => None end
        end
    end.
Fixpoint leafs (trees : bool) (fuel : nat) (parent : path) (h : string) : option (list (path * oinfo)) :=
  match fuel with
  | O => None
  | S f =>
      match read h with
      | None => None
      | Some es =>
          let own := if (trees && match es with [] => true | _ => false end)%bool then [(parent, (Tree, h))] else [] in
          match leaf_entries (leafs trees f) parent es with Some l => Some (own ++ l) | None => None end
      end
  end.

(** [LocalCasReader::StageBlobTo], local_cas_reader.cpp:147-162. *)
Definition StageBlobTo (i : oinfo) (p : path) (d : fnode) : result :=
  if IsTreeObject (fst i) then Fails d
  else match blob (snd i) (IsExecutableObject (fst i)) with
       | None => Fails d
       | Some data =>
           andthen (CreateDirectory (parent p) d) (CopyFileAs (fst i) (IsExecutableObject (fst i)) data p)
       end.

(** [TreeReader::StageTo], tree_reader.hpp:110-136. The equal lengths of the two lists are built in. *)
Fixpoint StageTo (fuel : nat) (l : list (path * oinfo)) (d : fnode) : result :=
  match fuel with
  | O => Fails d
  | S f =>
      stage_all (fun i p d =>
        if IsTreeObject (fst i) then
          match leafs false f p (snd i) with
          | None => Fails d
          | Some l' => StageTo f l' d
          end
        else StageBlobTo i p d) l d
  end.

(** The git repository that is asked if the storage does not have an object. *)
Variable git_read : string -> option (list (string * oinfo)).
Variable git_blob : string -> bool -> option string.

(** [GitApi::RetrieveToPaths], git_api.cpp:55-102, for one object. *)
Fixpoint GitRetrieve (fuel : nat) (i : oinfo) (p : path) (d : fnode) : result :=
  match fuel with
  | O => Fails d
  | S f =>
      if IsTreeObject (fst i) then
        match git_read (snd i) with
        | None => Fails d
        | Some es => stage_all (GitRetrieve f) (map (fun e => (p ++ [fst e], snd e)) es) d
        end
      else
        match git_blob (snd i) (IsSymlinkObject (fst i)) with
        | None => Fails d
        | Some data => andthen (CreateDirectory (parent p) d) (WriteFileAs (fst i) data p)
        end
  end.

(** [LocalApi::RetrieveToPaths], local_api.cpp:104-129; [has_git]: there is a [git_api_]. The two lists must have the
    same length. *)
Definition retrieve_one (has_git : bool) (fuel : nat) (i : oinfo) (p : path) (d : fnode) : result :=
  match StageTo fuel [(p, i)] d with
  | Fails d' => if has_git then GitRetrieve fuel i p d' else Fails d'
  | r => r
  end.
Definition RetrieveToPaths (has_git : bool) (fuel : nat) (infos : list oinfo) (outputs : list path) (d : fnode) : result :=
  if Nat.eqb (List.length infos) (List.length outputs)
  then stage_all (retrieve_one has_git fuel) (combine outputs infos) d
  else Fails d.

(** ** The directory in which an action is run *)

(** Copies made when files have too many links, [FileCopies]. *)
Definition copies : Type := list (oinfo * string).
Definition oinfo_eqb (a b : oinfo) : bool := (otype_eqb (fst a) (fst b) && String.eqb (snd a) (snd b))%bool.
Fixpoint find_copy (i : oinfo) (c : copies) : option string :=
  match c with [] => None | (j, s) :: r => if oinfo_eqb i j then Some s else find_copy i r end.

(** When the file system refuses another link. *)
Variable too_many : copies -> path -> bool.

(** [LocalAction::StageInput], local_action.cpp:244-328. Files are linked; as the storage has different files for
    executables and others, so are the permissions. *)
Definition StageInput (p : path) (i : oinfo) (c : copies) (d : fnode) : result * copies :=
  if IsTreeObject (fst i) then (CreateDirectory p d, c)
  else
    match (match find_copy i c with Some s => Some s | None => blob (snd i) (IsExecutableObject (fst i)) end) with
    | None => (Fails d, c)
    | Some data =>
        if IsSymlinkObject (fst i) then (CreateSymlink data p d, c)
        else
          match CreateDirectory (parent p) d with
          | Done d' =>
              if too_many c p then
                match hard_link (IsExecutableObject (fst i)) data p d' with
                | Done d'' => (Done d'', (i, data) :: c)
                | r => (r, c)
                end
              else (hard_link (IsExecutableObject (fst i)) data p d', c)
          | r => (r, c)
          end
    end.

(** [LocalAction::StageInputs], local_action.cpp:330-349. *)
Fixpoint stage_inputs (l : list (path * oinfo)) (c : copies) (d : fnode) : result :=
  match l with
  | [] => Done d
  | (p, i) :: r => let (s, c') := StageInput p i c d in andthen s (stage_inputs r c')
  end.
Definition StageInputs (fuel : nat) (root : string) (d : fnode) : result :=
  match leafs true fuel [] root with
  | None => Fails d
  | Some l => stage_inputs l [] d
  end.

(** [LocalAction::CreateDirectoryStructure], local_action.cpp:351-405. The directory is removed and created before;
    [paths] are the output paths of the request (protocol version 2.1), otherwise there are output files and output
    directories. *)
Inductive outputs_of_request := Paths (paths : list path) | FilesAndDirs (files dirs : list path).
Fixpoint create_all (l : list path) (d : fnode) : result :=
  match l with [] => Done d | p :: r => andthen (CreateDirectory p d) (create_all r) end.
Definition output_dirs (cwd : path) (o : outputs_of_request) : list path :=
  match o with
  | Paths ps => map (fun p => parent (cwd ++ p)) ps
  | FilesAndDirs fs ds => map (fun p => parent (cwd ++ p)) fs ++ map (fun p => cwd ++ p) ds
  end.
Definition CreateDirectoryStructure (fuel : nat) (root : string) (cwd : path) (o : outputs_of_request) : result :=
  andthen (StageInputs fuel root (FDir [])) (create_all (output_dirs cwd o)).
End Storage.
