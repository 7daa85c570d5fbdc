(** Model of workspace roots and of the targets that refer to files of a workspace:
    src/buildtool/file_system/file_root.hpp, git_tree.{hpp,cpp}, git_tree_utils.cpp, git_repo.cpp:1846-1959
    (reading of trees), file_system_manager.hpp:536-803 (queries of the file system),
    src/buildtool/build_engine/base_maps/directory_map.cpp, source_map.cpp and
    src/buildtool/build_engine/target_map/target_map.cpp:1712-1915 (tree and glob references).

    Simplifications. Git objects are given by their values; identifiers of blobs and trees are computed from
    the values by unknown functions. The repository contains all objects of the tree, so that reading an
    existing object does not fail; sizes of objects are left out of digests. The content of the file system
    does not change while it is read. A precomputed root or an absent root can not be read and answers all
    questions in the negative; only roots in the file system and in a Git repository are modelled. *)
From Coq Require Import String Ascii List Bool.
From Verif Require Import Common.Strs Path.Model.
Import ListNotations.
Local Open Scope string_scope.
Local Open Scope list_scope.

(** What is found at a place: a regular file with its executable bit and content, a symbolic link with the
    path it contains, anything else that is neither (a submodule in a Git tree, a socket in a file system), or
    a directory. *)
Inductive item : Type :=
| Regular (executable : bool) (content : string)
| SymLink (target : string)
| Special
| Directory (entries : list (string * item)).

Notation dir := (list (string * item)) (only parsing).

(** [ObjectType], object_type.hpp:22-27. *)
Inductive object_type := File | Executable | Tree | Symlink.

(** [GitFileModeToObjectType], git_repo.cpp:81-100; [FileSystemManager::Type], file_system_manager.hpp:646-681,
    where upwards symlinks are allowed. *)
Definition type_of (n : item) : option object_type :=
  match n with
  | Regular false _ => Some File
  | Regular true _ => Some Executable
  | SymLink _ => Some Symlink
  | Special => None
  | Directory _ => Some Tree
  end.

(** [IsFileObject], [IsSymlinkObject], [IsTreeObject], [IsBlobObject], [IsNonSpecialObject],
    object_type.hpp:57-92. *)
Definition IsFileObject (t : object_type) : bool := match t with File | Executable => true | _ => false end.
Definition IsSymlinkObject (t : object_type) : bool := match t with Symlink => true | _ => false end.
Definition IsTreeObject (t : object_type) : bool := match t with Tree => true | _ => false end.
Definition IsBlobObject (t : object_type) : bool := (IsFileObject t || IsSymlinkObject t)%bool.
Definition IsNonSpecialObject (t : object_type) : bool := (IsFileObject t || IsTreeObject t)%bool.
Definition has_type (f : object_type -> bool) (n : item) : bool :=
  match type_of n with Some t => f t | None => false end.

(** ** Git trees *)

(** [GitRepo::ReadDirectTree], git_repo.cpp:1846-1898, with [flat_tree_walker_ignore_special] (155-178) and
    [flat_tree_walker] (180-198). *)
Definition ReadDirectTree (es : dir) (ignore_special : bool) : option dir :=
  if ignore_special then Some (filter (fun e => has_type IsNonSpecialObject (snd e)) es)
  else if forallb (fun e => match type_of (snd e) with Some _ => true | None => false end) es then Some es
  else None.

(** [SymlinksChecker], git_tree.cpp:54-73, with [GitCAS::ReadObject], git_cas.cpp:176-186: the content of the
    link must not lead upwards. *)
Definition link_ok (n : item) : bool := match n with SymLink c => PathIsNonUpwards c | _ => true end.

(** [GitRepo::ReadTree], git_repo.cpp:1900-1959. *)
Definition ReadTree (es : dir) (ignore_special : bool) : option dir :=
  match ReadDirectTree es ignore_special with
  | None => None
  | Some es' => if (ignore_special || forallb (fun e => link_ok (snd e)) es')%bool then Some es' else None
  end.

(** The trees that were read so far below the tree of a root, each with the flag it was read with:
    [GitTreeEntry::tree_cached_], git_tree.hpp:166, is set once ([AtomicValue::SetOnceAndGet],
    multithreading/atomic_value.hpp:42-55), by whoever asks first. Entries are identified by their path. *)
Definition flags : Type := list (list string * bool).

Definition path_eqb (p q : list string) : bool := if list_eq_dec string_dec p q then true else false.

Definition flag_of (st : flags) (p : list string) : option bool :=
  match find (fun e => path_eqb (fst e) p) st with Some e => Some (snd e) | None => None end.

(** [GitTreeEntry::Tree], git_tree.cpp:154-176: the entries, and the flag of the tree that is returned. *)
Definition EntryTree (st : flags) (p : list string) (n : item) (ignore_special : bool)
  : flags * option (dir * bool) :=
  match n with
  | Directory es =>
      let f := match flag_of st p with Some f => f | None => ignore_special end in
      ((p, f) :: st, match ReadTree es f with Some es' => Some (es', f) | None => None end)
  | _ => (st, None)
  end.

(** [LookupEntryPyPath], git_tree.cpp:34-52, below the tree with entries [es] at path [here]. The recursive
    call leaves out the last argument, whose default is false. *)
Fixpoint LookupEntryPyPath (st : flags) (here : list string) (es : dir) (segments : list string)
  (ignore_special : bool) : flags * option (list string * item) :=
  match segments with
  | [] => (st, None)
  | s :: r =>
      match alookup s es with
      | None => (st, None)
      | Some n =>
          match r with
          | [] => (st, Some (here ++ [s], n))
          | _ :: _ =>
              match EntryTree st (here ++ [s]) n ignore_special with
              | (st', Some (es', _)) => LookupEntryPyPath st' (here ++ [s]) es' r false
              | (st', None) => (st', None)
              end
          end
      end
  end.

(** [ResolveRelativePath], git_tree.cpp:29-32. *)
Definition ResolveRelativePath (p : string) : string := parent_path (append (lexically_normal p) "").

(** A root in a Git repository ([RootGit], file_root.hpp:113-117): the entries of its tree in the repository,
    and whether special entries are ignored. *)
Record git_root := mkGit { g_tree : dir; g_ignore : bool }.

(** [FileRoot::FromGit], file_root.hpp:366-398: the entries of the root as they are kept; without a value the
    root can not be used. *)
Definition root_entries (g : git_root) : option dir := ReadDirectTree (g_tree g) (g_ignore g).

(** [GitTree::LookupEntryByPath], git_tree.cpp:126-131. For the empty path the first element is the
    path itself, which is no entry of a tree. *)
Definition LookupEntryByPath (g : git_root) (st : flags) (path : string) : flags * option (list string * item) :=
  match root_entries g with
  | None => (st, None)
  | Some es =>
      let segments := match elements (ResolveRelativePath path) with [] => [""] | l => l end in
      LookupEntryPyPath st [] es segments (g_ignore g)
  end.

(** ** Markers of valid trees *)

Section Ids.
(** The identifiers of trees and blobs in a Git repository; the identifier of blobs in compatible mode. *)
Variable tree_id : dir -> string.
Variable blob_id : string -> string.
Variable plain_id : string -> string.

(** The marker files of all generations of the storage, the current one first; and the failures of the file
    system to come: for each attempt to create a marker whether it succeeds (all further ones do). *)
Record markers := mkMarkers { m_gens : list (list string); m_fail : list bool }.

(** [MarkTreeValid], git_tree_utils.cpp:33-39. *)
Definition MarkTreeValid (m : markers) (id : string) : markers * bool :=
  match m_fail m with
  | false :: f => (mkMarkers (m_gens m) f, false)
  | fail =>
      (mkMarkers (match m_gens m with g :: r => (id :: g) :: r | [] => [[id]] end) (tl fail), true)
  end.

Definition mem (id : string) (l : list string) : bool := existsb (String.eqb id) l.

(** [IsTreeValid], git_tree_utils.cpp:44-58. *)
Definition IsTreeValid (m : markers) (id : string) : markers * bool :=
  match m_gens m with
  | [] => (m, false)
  | g :: older =>
      if mem id g then (m, true)
      else if existsb (mem id) older then MarkTreeValid m id
      else (m, false)
  end.

(** The check of one tree: [ValidateGitSubtrees] for an entry, git_tree_utils.cpp:62-79, and
    [IsGitTreeValid], 104-121, do the same for a tree. Other entries need no check. The trees that are read on
    the way are the cached ones ([entry->Tree()], read with special entries): checks are made only for roots
    that do not ignore special entries, where all trees are read in that way (file_root.hpp:586, 600). *)
Fixpoint check_tree (n : item) (m : markers) : markers * bool :=
  match n with
  | Directory es =>
      match IsTreeValid m (tree_id es) with
      | (m, true) => (m, true)
      | (m, false) =>
          match ReadTree es false with
          | None => (m, false)
          | Some _ =>
              match (fix subtrees (l : list (string * item)) (m : markers) : markers * bool :=
                       match l with
                       | [] => (m, true)
                       | (_, x) :: r => match check_tree x m with
                                        | (m, true) => subtrees r m
                                        | (m, false) => (m, false)
                                        end
                       end) es m with
              | (m, true) => MarkTreeValid m (tree_id es)
              | (m, false) => (m, false)
              end
          end
      end
  | _ => (m, true)
  end.

Definition IsGitTreeValid (n : item) (m : markers) : markers * bool :=
  match n with Directory _ => check_tree n m | _ => (m, false) end.

(** [ValidateGitSubtrees], git_tree_utils.cpp:62-79. *)
Fixpoint ValidateGitSubtrees (l : list (string * item)) (m : markers) : markers * bool :=
  match l with
  | [] => (m, true)
  | (_, x) :: r => match check_tree x m with
                   | (m, true) => ValidateGitSubtrees r m
                   | (m, false) => (m, false)
                   end
  end.

(** [ReadValidGitCASTree], git_tree_utils.cpp:85-102, for a tree of the repository, used by
    [FileRoot::ReadTree], file_root.hpp:685-700. *)
Definition ReadValidGitCASTree (es : dir) (m : markers) : markers * option dir :=
  match IsTreeValid m (tree_id es) with
  | (m, true) => (m, ReadDirectTree es false)
  | (m, false) =>
      match ReadTree es false with
      | None => (m, None)
      | Some es' =>
          match ValidateGitSubtrees es' m with
          | (m, false) => (m, None)
          | (m, true) => match MarkTreeValid m (tree_id es) with
                         | (m, true) => (m, Some es')
                         | (m, false) => (m, None)
                         end
          end
      end
  end.

(** Garbage collection makes a new generation the current one and drops the oldest. *)
Definition rotate (m : markers) : markers := mkMarkers ([] :: removelast (m_gens m)) (m_fail m).

(** ** The file system *)

Fixpoint at_path (n : item) (p : list string) : option item :=
  match p with
  | [] => Some n
  | c :: r => match n with
              | Directory es => match alookup c es with Some m => at_path m r | None => None end
              | _ => None
              end
  end.

(** How the operating system finds the place of a path below the directory [cur] of the file system [fs]:
    symbolic links are followed if something comes after them, at most [k] times. *)
Fixpoint os_walk (k : nat) (fs : item) : list string -> list string -> option (list string) :=
  match k with
  | O => fun _ _ => None
  | S k' =>
      fix go (cur segs : list string) {struct segs} : option (list string) :=
        match segs with
        | [] => Some cur
        | s :: r =>
            if (String.eqb s "" || String.eqb s ".")%bool then go cur r
            else if String.eqb s ".." then go (removelast cur) r
            else match r with
                 | [] => Some (cur ++ [s])
                 | _ :: _ =>
                     match at_path fs (cur ++ [s]) with
                     | Some (Directory _) => go (cur ++ [s]) r
                     | Some (SymLink c) =>
                         os_walk k' fs (if is_absolute c then [] else cur) (split_slash c ++ r)
                     | _ => None
                     end
                 end
        end
  end.

(** [std::filesystem::symlink_status] and [read_symlink] of an absolute path. *)
Definition lstat (fs : item) (p : string) : option item :=
  match os_walk 40 fs [] (split_slash p) with
  | Some q => at_path fs q
  | None => None
  end.

(** ** Roots *)

Inductive root := GitRoot (g : git_root) | FsRoot (path : string) (ignore_special : bool).
Definition ignoring (r : root) : bool := match r with GitRoot g => g_ignore g | FsRoot _ i => i end.

(** What changes while a root is used. *)
Record state := mkState { s_flags : flags; s_marks : markers }.

Variable fs : item.

Definition lookup (g : git_root) (st : state) (p : string) : state * option (list string * item) :=
  let '(f, r) := LookupEntryByPath g (s_flags st) p in (mkState f (s_marks st), r).

Definition test (f : item -> bool) (x : option item) : bool := match x with Some n => f n | None => false end.

(** [FileRoot::Exists], file_root.hpp:460-484. *)
Definition Exists (r : root) (st : state) (p : string) : state * bool :=
  match r with
  | GitRoot g =>
      if String.eqb p "." then (st, true)
      else let '(st, e) := lookup g st p in
           (st, match e with
                | Some (_, n) => (has_type IsNonSpecialObject n
                                  || (negb (g_ignore g) && has_type IsSymlinkObject n && link_ok n))%bool
                | None => false
                end)
  | FsRoot d ign =>
      (st, test (fun n => (negb ign || has_type IsNonSpecialObject n)%bool) (lstat fs (append d p)))
  end.

(** [FileRoot::IsFile], file_root.hpp:487-500. *)
Definition IsFile (r : root) (st : state) (p : string) : state * bool :=
  match r with
  | GitRoot g => let '(st, e) := lookup g st p in
                 (st, match e with Some (_, n) => has_type IsFileObject n | None => false end)
  | FsRoot d _ => (st, test (has_type IsFileObject) (lstat fs (append d p)))
  end.

(** [FileRoot::IsSymlink], file_root.hpp:504-522. *)
Definition IsSymlink (r : root) (st : state) (p : string) : state * bool :=
  if ignoring r then (st, false)
  else match r with
  | GitRoot g => let '(st, e) := lookup g st p in
                 (st, match e with Some (_, n) => (has_type IsSymlinkObject n && link_ok n)%bool | None => false end)
  | FsRoot d _ => (st, test (fun n => (has_type IsSymlinkObject n && link_ok n)%bool) (lstat fs (append d p)))
  end.

(** [FileRoot::IsBlob], file_root.hpp:526-529. *)
Definition IsBlob (r : root) (st : state) (p : string) : state * bool :=
  match IsFile r st p with
  | (st, true) => (st, true)
  | (st, false) => IsSymlink r st p
  end.

(** [FileRoot::IsDirectory], file_root.hpp:533-549. *)
Definition IsDirectory (r : root) (st : state) (p : string) : state * bool :=
  match r with
  | GitRoot g =>
      if String.eqb p "." then (st, true)
      else let '(st, e) := lookup g st p in
           (st, match e with Some (_, n) => has_type IsTreeObject n | None => false end)
  | FsRoot d _ => (st, test (has_type IsTreeObject) (lstat fs (append d p)))
  end.

(** [FileRoot::ReadContent], file_root.hpp:553-575. *)
Definition blob_content (n : item) : option string :=
  match n with
  | Regular _ c => Some c
  | SymLink c => if PathIsNonUpwards c then Some c else None
  | _ => None
  end.
Definition ReadContent (r : root) (st : state) (p : string) : state * option string :=
  match r with
  | GitRoot g => let '(st, e) := lookup g st p in
                 (st, match e with Some (_, n) => blob_content n | None => None end)
  | FsRoot d _ => (st, match lstat fs (append d p) with Some n => blob_content n | None => None end)
  end.

(** [FileRoot::BlobType], file_root.hpp:648-667. *)
Definition blob_type (n : item) : option object_type :=
  match type_of n with Some t => if IsBlobObject t then Some t else None | None => None end.
Definition BlobType (r : root) (st : state) (p : string) : state * option object_type :=
  match r with
  | GitRoot g => let '(st, e) := lookup g st p in
                 (st, match e with Some (_, n) => blob_type n | None => None end)
  | FsRoot d _ => (st, match lstat fs (append d p) with Some n => blob_type n | None => None end)
  end.

(** [DirectoryEntries], file_root.hpp:131-332: a tree of the repository, with the flag it was read with, or
    pairs of names and types. *)
Inductive entries := TreeEntries (es : dir) (raw : dir) (modified : bool) | Pairs (es : list (string * object_type)).

(** The names and types listed. *)
Definition typed (es : dir) : list (string * object_type) :=
  flat_map (fun e => match type_of (snd e) with Some t => [(fst e, t)] | None => [] end) es.
Definition listing (e : entries) : list (string * object_type) :=
  match e with TreeEntries es _ _ => typed es | Pairs l => l end.

(** [DirectoryEntries::ContainsBlob], file_root.hpp:217-228. *)
Definition ContainsBlob (e : entries) (name : string) : bool :=
  match alookup name (listing e) with Some t => IsBlobObject t | None => false end.

(** [FileSystemManager::ReadDirectory] without upwards symlinks, file_system_manager.hpp:742-803. *)
Definition fs_entries (es : dir) (ignore_special : bool) : option (list (string * object_type)) :=
  if ignore_special then Some (typed (filter (fun e => has_type IsNonSpecialObject (snd e)) es))
  else if forallb (fun e => match type_of (snd e) with Some _ => link_ok (snd e) | None => false end) es
       then Some (typed es) else None.

(** [FileRoot::ReadDirectory], file_root.hpp:579-644. *)
Definition ReadDirectory (r : root) (st : state) (p : string) : state * option entries :=
  match r with
  | GitRoot g =>
      let valid n st :=
        if g_ignore g then (st, true)
        else let '(m, b) := IsGitTreeValid n (s_marks st) in (mkState (s_flags st) m, b) in
      if String.eqb p "." then
        match root_entries g with
        | None => (st, None)
        | Some es => match valid (Directory (g_tree g)) st with
                     | (st, true) => (st, Some (TreeEntries es (g_tree g) (g_ignore g)))
                     | (st, false) => (st, None)
                     end
        end
      else
        match lookup g st p with
        | (st, None) => (st, Some (Pairs []))
        | (st, Some (q, n)) =>
            match valid n st with
            | (st, true) =>
                let '(f, t) := EntryTree (s_flags st) q n (g_ignore g) in
                (mkState f (s_marks st),
                 match t, n with
                 | Some (es, flag), Directory raw => Some (TreeEntries es raw flag)
                 | _, _ => None
                 end)
            | (st, false) => (st, None)
            end
        end
  | FsRoot d ign =>
      (st, match lstat fs (append d p) with
           | Some (Directory es) => match fs_entries es ign with Some l => Some (Pairs l) | None => None end
           | _ => None
           end)
  end.

(** Artifacts of a workspace: a file of the workspace of a repository by its path, an object given by its
    identifier and type, perhaps with the repository to find it in, or a tree of such artifacts. Trees of
    artifacts are represented by their content, which their identifier determines (C63). *)
Inductive artifact :=
| Local (path repository : string)
| Known (id : string) (type : object_type) (repository : option string)
| TreeOf (content : list (string * artifact)).

(** Whether the storage uses Git identifiers. *)
Variable native : bool.

(** [FileRoot::ToArtifactDescription], file_root.hpp:704-761. *)
Definition ToArtifactDescription (r : root) (st : state) (p repository : string) : state * option artifact :=
  match r with
  | GitRoot g =>
      let '(st, e) := lookup g st p in
      (st, match e with
           | Some (_, n) =>
               match blob_type n, blob_content n with
               | Some t, Some c =>
                   Some (if native then Known (blob_id c) t (Some repository) else Known (plain_id c) t None)
               | _, _ => None
               end
           | None => None
           end)
  | FsRoot _ _ => (st, Some (Local p repository))
  end.

(** [DirectoryEntries::AsKnownTree], file_root.hpp:247-279, with [GitTree::Hash], git_tree.hpp:78-81. *)
Definition AsKnownTree (e : entries) (repository : string) : option artifact :=
  match e with
  | TreeEntries _ raw false => if native then Some (Known (tree_id raw) Tree (Some repository)) else None
  | _ => None
  end.

(** ** Targets that refer to the workspace *)

(** [CreateDirectoryEntriesMap], directory_map.cpp:26-67. *)
Definition DirectoryEntriesOf (r : root) (st : state) (module : string) : state * option entries :=
  let p := match module with "" => "." | _ => module end in
  match IsDirectory r st p with
  | (st, false) => (st, Some (Pairs []))
  | (st, true) => ReadDirectory r st p
  end.

(** [src_target_reader], source_map.cpp:67-131: the artifact staged at the name of the target, if there is
    one. For the empty name [*name.begin()] is the empty path in libstdc++. *)
Definition outside (n : string) : bool :=
  (is_absolute n || match elements n with e :: _ => String.eqb e ".." | [] => false end)%bool.
Definition SourceTarget (r : root) (st : state) (repository module name : string)
  : state * option (string * artifact) :=
  let n := lexically_normal name in
  if outside n then (st, None)
  else
    let read st (exists_ : bool) :=
      if exists_ then
        let '(st, a) := ToArtifactDescription r st (append module n) repository in
        (st, match a with Some a => Some (name, a) | None => None end)
      else (st, None) in
    match r with
    | GitRoot _ => let '(st, b) := IsBlob r st (append module n) in read st b
    | FsRoot _ _ =>
        match DirectoryEntriesOf r st (parent_path (append module n)) with
        | (st, Some e) => read st (ContainsBlob e (filename name))
        | (st, None) => (st, None)
        end
    end.

(** The targets referred to by a list of keys, all of which have to be there. *)
Fixpoint all_of {K V} (f : state -> K -> state * option V) (st : state) (ks : list K) : state * option (list V) :=
  match ks with
  | [] => (st, Some [])
  | k :: r =>
      match f st k with
      | (st, None) => (st, None)
      | (st, Some v) => match all_of f st r with
                        | (st, Some vs) => (st, Some (v :: vs))
                        | (st, None) => (st, None)
                        end
      end
  end.

(** [TreeTarget], target_map.cpp:1712-1854, up to a depth of [k]. The entries of the directory become targets of
    the module that is the directory ([EntityName], which normalises the module); the entries of their stages
    are collected with [unordered_map::emplace]. *)
Definition emplace_all (l : list (string * artifact)) : list (string * artifact) :=
  fold_left (fun acc e => aemplace (ToNormalPath (fst e)) (snd e) acc) l [].
Fixpoint TreeTarget (k : nat) (r : root) (st : state) (repository module name : string)
  : state * option (string * artifact) :=
  match k with
  | O => (st, None)
  | S k' =>
      let dir_name := append module name in
      match DirectoryEntriesOf r st dir_name with
      | (st, None) => (st, None)
      | (st, Some e) =>
          match AsKnownTree e repository with
          | Some a => (st, Some (name, a))
          | None =>
              let m := normal_module_name dir_name in
              let of (f : object_type -> bool) := map fst (filter (fun x => f (snd x)) (listing e)) in
              let child st (x : bool * string) :=
                if fst x then TreeTarget k' r st repository m (snd x)
                else SourceTarget r st repository m (snd x) in
              let keys := map (pair false) (of IsFileObject) ++ map (pair false) (of IsSymlinkObject)
                          ++ map (pair true) (of IsTreeObject) in
              match all_of child st keys with
              | (st, Some vs) => (st, Some (name, TreeOf (emplace_all vs)))
              | (st, None) => (st, None)
              end
          end
      end
  end.

(** [GlobTargetWithDirEntry] and [GlobResult], target_map.cpp:1856-1915; [fnmatch] of the C library tells
    whether a name matches a pattern. The result is a map. *)
Variable fnmatch : string -> string -> bool.
Definition GlobTarget (r : root) (st : state) (repository module pattern : string)
  : state * option (list (string * artifact)) :=
  match DirectoryEntriesOf r st module with
  | (st, None) => (st, None)
  | (st, Some e) =>
      let of (f : object_type -> bool) :=
        filter (fnmatch pattern) (map fst (filter (fun x => f (snd x)) (listing e))) in
      match all_of (fun st x => SourceTarget r st repository module x) st (of IsFileObject ++ of IsSymlinkObject) with
      | (st, None) => (st, None)
      | (st, Some vs) => (st, Some (fold_left (fun acc e => ainsert (fst e) (snd e) acc) vs []))
      end
  end.
End Ids.
