(** Questions asked of a root, one after the other. *)
From Coq Require Import String Ascii List.
From Verif Require Import Common.Strs Path.Model Roots.Model.
Import ListNotations.
Local Open Scope string_scope.
Local Open Scope list_scope.

(** What is asked for during a build: by the names of the functions of the model. *)
Inductive question :=
| Q_exists (path : string) | Q_is_file (path : string) | Q_is_symlink (path : string) | Q_is_blob (path : string)
| Q_is_directory (path : string) | Q_content (path : string) | Q_type (path : string) | Q_directory (path : string)
| Q_source (repository module name : string)
| Q_tree (depth : nat) (repository module name : string)
| Q_glob (repository module pattern : string).

Inductive answer :=
| A_bool (b : bool) | A_content (c : option string) | A_type (t : option object_type) | A_directory (e : option entries)
| A_artifact (a : option (string * artifact)) | A_artifacts (l : option (list (string * artifact))).

Definition map_snd {A B C} (f : B -> C) (x : A * B) : A * C := (fst x, f (snd x)).

Section Questions.
Variable tree_id : list (string * item) -> string.
Variables blob_id plain_id : string -> string.
Variable fs : item.
Variable native : bool.
Variable fnmatch : string -> string -> bool.

Definition ask (r : root) (st : state) (q : question) : state * answer :=
  match q with
  | Q_exists p => map_snd A_bool (Exists fs r st p)
  | Q_is_file p => map_snd A_bool (IsFile fs r st p)
  | Q_is_symlink p => map_snd A_bool (IsSymlink fs r st p)
  | Q_is_blob p => map_snd A_bool (IsBlob fs r st p)
  | Q_is_directory p => map_snd A_bool (IsDirectory fs r st p)
  | Q_content p => map_snd A_content (ReadContent fs r st p)
  | Q_type p => map_snd A_type (BlobType fs r st p)
  | Q_directory p => map_snd A_directory (ReadDirectory tree_id fs r st p)
  | Q_source rep m n => map_snd A_artifact (SourceTarget tree_id blob_id plain_id fs native r st rep m n)
  | Q_tree k rep m n => map_snd A_artifact (TreeTarget tree_id blob_id plain_id fs native k r st rep m n)
  | Q_glob rep m p => map_snd A_artifacts (GlobTarget tree_id blob_id plain_id fs native fnmatch r st rep m p)
  end.

(** The state after some questions. *)
Definition after (r : root) (st : state) (qs : list question) : state := fold_left (fun st q => fst (ask r st q)) qs st.
End Questions.
