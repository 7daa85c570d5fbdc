(** Files and directories, and what represents them in the native and in the compatible storage. *)
From Coq Require Import String Ascii List Bool NArith Arith.
From Verif Require Import Common.Strs Hex.Model Describe.Model Executor.Wire Rehash.Directory Rehash.DirectoryProofs.
From Verif Require Import GitTree.Model GitTree.Spec GitTree.Ids TreeOps.Spec Rehash.Model.
Import ListNotations.
Local Open Scope string_scope.
Local Open Scope list_scope.

(** A file (executable or not) with its content, a symbolic link with its target, or a directory. *)
Inductive fnode :=
| FFile (x : bool) (data : string)
| FLink (target : string)
| FDir (es : list (string * fnode)).

Definition ftype (n : fnode) : otype :=
  match n with FFile true _ => Executable | FFile false _ => File | FLink _ => Symlink | FDir _ => Tree end.
Definition is_dir (n : fnode) : bool := match n with FDir _ => true | _ => false end.

(** Everything in a directory, at any depth, and the directory itself. *)
Fixpoint parts (n : fnode) : list fnode :=
  n :: match n with FDir es => concat (map (fun p => match p with (_, c) => parts c end) es) | _ => [] end.
Fixpoint depth (n : fnode) : nat :=
  match n with
  | FDir es => S (fold_right (fun p m => Nat.max (match p with (_, c) => depth c end) m) 0 es)
  | _ => 0
  end.

Section H.
Variable H : string -> string.
Variable H2 : string -> string.
Variable utf8 : string -> bool.

(** ** Native: git objects *)

Fixpoint git_node (n : fnode) : node :=
  match n with
  | FFile x data => Blob (if x then Executable else File) (blob_id H data)
  | FLink target => Blob Symlink (blob_id H target)
  | FDir es => Dir (map (fun p => match p with (x, c) => (x, git_node c) end) es)
  end.
(** The content of the object, and its id in hexadecimal. *)
Definition git_data (n : fnode) : string :=
  match n with
  | FFile _ data => data
  | FLink target => target
  | FDir es => content H (map (fun p => match p with (x, c) => (x, git_node c) end) es)
  end.
Definition git_hash (n : fnode) : string := ToHexString (nid H (git_node n)).

(** ** Compatible: blobs and [Directory] messages, which list files, directories and links by name *)

Fixpoint comp_data (n : fnode) : string :=
  match n with
  | FFile _ data => data
  | FLink target => target
  | FDir es =>
      directory_text (mkDirectory
        (flat_map (fun p => match p with (x, c) => match c with FFile e _ => [(x, (e, comp_digest H2 (comp_data c)))] | _ => [] end end) es)
        (flat_map (fun p => match p with (x, c) => match c with FDir _ => [(x, comp_digest H2 (comp_data c))] | _ => [] end end) es)
        (flat_map (fun p => match p with (x, c) => match c with FLink t => [(x, t)] | _ => [] end end) es))
  end.
Definition comp_hash (n : fnode) : string := H2 (comp_data n).

(** ** What has to hold of directories *)

(** Entries are sorted by name, names are file names. *)
Fixpoint named (n : fnode) : Prop :=
  match n with
  | FDir es => sorted_keys es /\ fold_right (fun p P => (match p with (x, c) => valid_name x /\ named c end) /\ P) True es
  | _ => True
  end.
(** Names and targets of links are valid UTF-8, sizes fit 64 bits, messages are smaller than 2 GiB. *)
Fixpoint expressible (n : fnode) : Prop :=
  match n with
  | FFile _ data => (strlen data < 2 ^ 64)%N
  | FLink target => (strlen target < 2 ^ 64)%N /\ utf8 target = true
  | FDir es => (strlen (comp_data n) < 2 ^ 31)%N /\
      fold_right (fun p P => (match p with (x, c) => utf8 x = true /\ expressible c end) /\ P) True es
  end.

(** The two representations in a storage: the objects for a node and everything below it. *)
Definition git_objects (n : fnode) : objects := map (fun m => (is_dir m, git_data m)) (parts n).
Definition comp_objects (n : fnode) : objects := map (fun m => (is_dir m, comp_data m)) (parts n).

(** An info names a node, in either storage. *)
Definition native_info (i : info) (n : fnode) : Prop := d_hash (fst i) = git_hash n /\ snd i = ftype n.
Definition compatible_info (i : info) (n : fnode) : Prop := d_hash (fst i) = comp_hash n /\ snd i = ftype n.

(** A hash function without collisions on some texts. *)
Definition collision_free (f : string -> string) (T : string -> Prop) : Prop :=
  forall x y, T x -> T y -> f x = f y -> x = y.
(** What is hashed in git: the content with a header. *)
Definition object_text (tree : bool) (data : string) : string := if tree then tree_text data else blob_text data.
Definition git_texts (U : fnode -> Prop) (source : objects) (s : string) : Prop :=
  (exists n, U n /\ s = object_text (is_dir n) (git_data n)) \/ (exists k d, In (k, d) source /\ s = object_text k d).
Definition comp_texts (U : fnode -> Prop) (source : objects) (s : string) : Prop :=
  (exists n, U n /\ s = comp_data n) \/ (exists k, In (k, s) source).

(** The result of [SHA256], printed. *)
Definition hex_digests : Prop :=
  forall s, String.length (H2 s) = 64 /\ IsHexString (H2 s) = true /\ utf8 (H2 s) = true.
End H.

(** Everything in a directory of the set is in the set. *)
Definition closed (U : fnode -> Prop) : Prop := forall es x c, U (FDir es) -> In (x, c) es -> U c.
