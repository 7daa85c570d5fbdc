(** Model of writing a tree as archive (just install-cas --archive),
    src/buildtool/main/archive.cpp. *)
From Coq Require Import String Ascii NArith List Bool.
From Verif Require Import Common.Strs.
Import ListNotations.
Open Scope string_scope.
Open Scope list_scope.

(** object_type.hpp:20-25 [ObjectType]. *)
Inductive otype := File | Executable | Symlink | Tree.

Definition IsTreeObject (t : otype) : bool :=
  match t with Tree => true | _ => false end.

(** What is handed to libarchive: archive_entry_set_pathname, _set_filetype,
    _set_perm; and the data, for links their target.  Link targets with NUL
    bytes, which c_str() would cut, are not considered. *)
Inductive ftype := AE_IFREG | AE_IFLNK | AE_IFDIR.

Record entry := mkEntry {
  e_path : string;
  e_type : ftype;
  e_perm : N;
  e_data : string
}.

(** archive.cpp:65-67. *)
Definition kExecutablePerm : N := 365.  (* 0555 *)
Definition kFilePerm : N := 292.        (* 0444 *)
Definition kDefaultPerm : N := 4095.    (* 07777 *)

(** std::filesystem::path::operator/ on unix. *)
Definition starts_with_slash (s : string) : bool :=
  match s with String c _ => Ascii.eqb c "/" | EmptyString => false end.

Fixpoint ends_with_slash (s : string) : bool :=
  match s with
  | EmptyString => false
  | String c EmptyString => Ascii.eqb c "/"
  | String _ s' => ends_with_slash s'
  end.

Definition path_join (location name : string) : string :=
  if starts_with_slash name then name
  else match location with
       | EmptyString => name
       | _ => if ends_with_slash location then (location ++ name)%string
              else (location ++ "/" ++ name)%string
       end.

Section Archive.
(** Digests, and raw hashes as they occur in trees. *)
Variables digest raw : Type.
(** api.RetrieveToMemory. *)
Variable retrieve : digest * otype -> option string.
(** GitRepo::ReadTreeData: an unordered map from hashes to the entries with this
    hash, in the order of iteration. *)
Variable ReadTreeData : string -> digest -> option (list (raw * list (string * otype))).
(** ArtifactDigestFactory::Create of ToHexString of the hash. *)
Variable create : raw -> bool -> option digest.

(** archive.cpp:124-142: the entries with their digests; no result if one of the
    digests cannot be created. *)
Fixpoint objects_of (h : raw) (es : list (string * otype))
  : option (list (string * (digest * otype))) :=
  match es with
  | [] => Some []
  | (name, t) :: es' =>
      match create h (IsTreeObject t) with
      | None => None
      | Some d =>
          match objects_of h es' with
          | Some r => Some ((name, (d, t)) :: r)
          | None => None
          end
      end
  end.

Fixpoint flatten (g : list (raw * list (string * otype)))
  : option (list (string * (digest * otype))) :=
  match g with
  | [] => Some []
  | (h, es) :: g' =>
      match objects_of h es with
      | None => None
      | Some l => match flatten g' with Some r => Some (l ++ r) | None => None end
      end
  end.

(** [tree[entry.name] = …] into a std::map. *)
Definition by_name (l : list (string * (digest * otype))) : list (string * (digest * otype)) :=
  fold_left (fun m '(k, v) => ainsert k v m) l [].

(** archive.cpp:143-147: stops at the first failure; the entries written so far
    remain. *)
Fixpoint add_all (add : digest * otype -> string -> option (list entry * bool))
    (location : string) (l : list (string * (digest * otype))) : option (list entry * bool) :=
  match l with
  | [] => Some ([], true)
  | (name, obj) :: l' =>
      match add obj (path_join location name) with
      | None => None
      | Some (es, false) => Some (es, false)
      | Some (es, true) =>
          match add_all add location l' with
          | None => None
          | Some (es', b) => Some (es ++ es', b)
          end
      end
  end.

(** archive.cpp:61-152 [add_to_archive]: what is written, in this order, and the
    result.  The fuel bounds the depth; None if it is used up. *)
Fixpoint add_to_archive (fuel : nat) (artifact : digest * otype) (location : string)
  : option (list entry * bool) :=
  match fuel with
  | O => None
  | S n =>
      match retrieve artifact with
      | None => Some ([], false)
      | Some payload =>
          match snd artifact with
          | File => Some ([mkEntry location AE_IFREG kFilePerm payload], true)
          | Executable => Some ([mkEntry location AE_IFREG kExecutablePerm payload], true)
          | Symlink => Some ([mkEntry location AE_IFLNK kDefaultPerm payload], true)
          | Tree =>
              let dir := match location with
                         | EmptyString => []
                         | _ => [mkEntry location AE_IFDIR kDefaultPerm ""]
                         end in
              match ReadTreeData payload (fst artifact) with
              | None => Some (dir, false)
              | Some g =>
                  match flatten g with
                  | None => Some (dir, false)
                  | Some l =>
                      match add_all (add_to_archive n) location (by_name l) with
                      | None => None
                      | Some (es, b) => Some (dir ++ es, b)
                      end
                  end
              end
          end
      end
  end.

(** The entries of which writing works.  [writes i] says whether the calls of
    archive_write_header and archive_write_data for the i-th entry work. *)
Fixpoint written (writes : nat -> bool) (i : nat) (es : list entry) : list entry :=
  match es with
  | [] => []
  | e :: es' => if writes i then e :: written writes (S i) es' else written writes (S i) es'
  end.

(** archive.cpp:156-217 [GenerateArchive], after the archive was opened: the
    content of the archive and the result.  The results of writing and closing
    are not looked at. *)
Definition GenerateArchive (writes : nat -> bool) (fuel : nat) (artifact : digest * otype)
  : option (list entry * bool) :=
  match add_to_archive fuel artifact "" with
  | None => None
  | Some (es, b) => Some (written writes 0 es, b)
  end.
End Archive.
