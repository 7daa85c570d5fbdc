(** What the roots set up by just-mr stand for. *)
From Coq Require Import String Ascii List Bool NArith Arith.
From Verif Require Import Common.Strs Hex.Model Describe.Model Executor.Wire Rehash.Directory Rehash.DirectoryProofs.
From Verif Require Import GitTree.Model GitTree.Spec GitTree.Ids TreeOps.Spec Rehash.Model Rehash.Spec Fetch.World Fetch.Model.
Import ListNotations.
Local Open Scope string_scope.
Local Open Scope list_scope.
Local Open Scope nat_scope.

Section S.
Variable H : string -> string.
Variable extract : string -> string -> option fnode.
Variable resolve : pragma -> fnode -> option fnode.
Variable serve_says : query -> string -> Prop.

(** No two different directories in the object database have the same id, and no directory has the id of a file. *)
Definition unambiguous (o : odb) : Prop :=
  forall n n', has_node o n -> has_node o n' -> git_hash H n = git_hash H n' -> is_dir n = true -> n' = n.

(** The directory described by an archive: the bytes with the pinned hash are extracted, the subdirectory is taken,
    and links are resolved as requested. *)
Definition with_links (p : option pragma) (m m' : fnode) : Prop :=
  match p with None => m' = m | Some p => resolve p m = Some m' end.
Definition archive_describes (r : archive_repo) (data : string) (m' : fnode) : Prop :=
  blob_hash H data = a_content (r_archive r) /\
  exists n m, extract (r_type r) data = Some n /\ at_path n (r_subdir r) = Some m /\ with_links (r_pragma r) m m'.

(** The directory described by a commit. *)
Definition commit_describes (c : string) (subdir : list string) (m : fnode) : Prop :=
  exists bytes n, commit_id H bytes = c /\ commit_tree bytes = Some (git_hash H n) /\ is_dir n = true /\ at_path n subdir = Some m.

(** A directory that has exactly these files. *)
Definition has_files (es : list (string * (string * bool))) (n : fnode) : Prop :=
  exists fs, n = FDir fs /\ sorted_keys fs /\
  (forall x h e, In (x, (h, e)) es -> exists data, blob_hash H data = h /\ alookup x fs = Some (FFile e data)) /\
  (forall x m, alookup x fs = Some m -> exists h e, In (x, (h, e)) es).

(** The files a distdir, or a repository with a single file, consists of: names, hashes, and whether they are
    executable. *)
Definition files_of (t : task) (k : list (string * (string * bool))) : Prop :=
  match t with
  | TDistdir d => k = map (fun p => match p with (x, h) => (x, (h, false)) end) (d_entries d)
  | TForeign f => k = [(f_name f, (a_content (f_archive f), f_exec f))]
  | _ => False
  end.

(** All that can happen when just-mr sets up roots. *)
Definition happens : world -> list ((config * task) * program) -> Prop :=
  reach H extract resolve serve_says (config * task) outcome (setup H).
Definition git_cache (w : world) : odb := odb_at w (Gen 0).
End S.
