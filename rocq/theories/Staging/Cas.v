(** Model of reading trees from the local storage: [LocalCasReader::ReadGitTree] and [ReadDirectory] of
    src/buildtool/execution_api/local/local_cas_reader.cpp, and [TreeReaderUtils::ReadObjectInfos] of
    src/buildtool/execution_api/common/tree_reader_utils.cpp. *)
From Coq Require Import String Ascii List Bool NArith Arith.
From Verif Require Import Common.Strs Hex.Model Describe.Model Executor.Wire Rehash.Directory.
From Verif Require Import GitTree.Model Path.Model Rehash.Model Rehash.Spec Staging.Collect.
Import ListNotations.
Local Open Scope string_scope.
Local Open Scope list_scope.

Section Native.
Variable H : string -> string.
(** The storage: the objects in it, each under its hash; blobs and trees apart ([BlobPath], [TreePath]; a blob is found
    whether it was stored as executable or not, see C26). *)
Variable S : stored.
Definition held (k : bool) (h : string) : option string :=
  match find (fun o => (Bool.eqb (fst o) k && String.eqb (d_hash (nat_digest H k (snd o))) h)%bool) S with
  | Some o => Some (snd o)
  | None => None
  end.
Definition BlobPath (h : string) (x : bool) : option string := held false h.

(** [check_symlinks], local_cas_reader.cpp:105-121. *)
Definition check_symlinks (ids : list string) : bool :=
  forallb (fun id => match BlobPath id false with Some target => PathIsNonUpwards target | None => false end) ids.

(** [ReadObjectInfos] for git trees, tree_reader_utils.cpp:122-150. Raw ids have 20 bytes, so that their digests can be
    created. *)
Definition ReadObjectInfos (g : tree_entries) : list (string * (otype * string)) :=
  concat (map (fun p => map (fun e => (fst e, (snd e, ToHexString (fst p)))) (snd p)) g).
(** [ReadGitTree], local_cas_reader.cpp:101-132. *)
Definition ReadGitTree (h : string) : option (list (string * (otype * string))) :=
  match held true h with
  | Some data =>
      match ReadTreeData H check_symlinks data h with Some g => Some (ReadObjectInfos g) | None => None end
  | None => None
  end.
End Native.

Section Compatible.
Variable H2 : string -> string.
Variable utf8 : string -> bool.
Variable S : stored.
(** In compatible mode trees are stored like blobs, [LocalCAS::CreateLocation], local_cas.hpp:291-301. *)
Definition CBlobPath (h : string) (x : bool) : option string :=
  match find (fun o => String.eqb (H2 (snd o)) h) S with Some o => Some (snd o) | None => None end.

(** [CreateObjectInfo], tree_reader_utils.cpp:34-67. *)
Definition digest_info (t : otype) (d : digest) : option (otype * string) :=
  match create_digest PlainSHA256 (d_hash d) (d_size d) false with
  | Some d' => Some (t, d_hash d')
  | None => None
  end.
Fixpoint infos {D} (f : D -> option (otype * string)) (l : list (string * D)) : option (list (string * (otype * string))) :=
  match l with
  | [] => Some []
  | (x, d) :: r =>
      match f d with
      | Some i => match infos f r with Some l' => Some ((x, i) :: l') | None => None end
      | None => None
      end
  end.
(** [ReadObjectInfos] for messages, tree_reader_utils.cpp:89-120. *)
Definition ReadDirectoryInfos (m : directory) : option (list (string * (otype * string))) :=
  match infos (fun fd : bool * digest => digest_info (if fst fd then Executable else File) (snd fd)) (dm_files m),
        infos (fun target => Some (Symlink, d_hash (comp_digest H2 target))) (dm_links m),
        infos (digest_info Tree) (dm_dirs m) with
  | Some f, Some l, Some d => Some (f ++ l ++ d)
  | _, _, _ => None
  end.
(** [ReadDirectory], local_cas_reader.cpp:50-61, and [ReadObjectInfos]. *)
Definition ReadCompatible (h : string) : option (list (string * (otype * string))) :=
  match CBlobPath h false with
  | Some data => match ParseDirectory utf8 data with Some m => ReadDirectoryInfos m | None => None end
  | None => None
  end.
End Compatible.
