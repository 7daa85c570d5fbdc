(** Directories, as trees of named objects. *)
From Coq Require Import String Ascii List Bool NArith Arith Sorted.
From Verif Require Import Common.Strs Hex.Model GitTree.Model GitTree.Spec TreeOps.Model.
Import ListNotations.
Local Open Scope string_scope.
Local Open Scope list_scope.

(** A file, executable or symlink, given by the id of its content; or a directory. *)
Inductive node :=
| Blob (t : otype) (id : string)
| Dir (es : list (string * node)).

Definition ntype (n : node) : otype := match n with Blob t _ => t | Dir _ => Tree end.

(** Directories are sorted by name, names are file names, ids have 20 bytes. *)
Fixpoint wf (n : node) : Prop :=
  match n with
  | Blob t id => t <> Tree /\ String.length id = 20
  | Dir es => sorted_keys es /\
      fold_right (fun p P => (match p with (x, c) => valid_name x /\ wf c end) /\ P) True es
  end.

(** What is found at a path below a node: a blob of some type and content, or a directory. *)
Inductive object := Content (t : otype) (id : string) | Folder.
Fixpoint view (n : node) (path : list string) {struct path} : option object :=
  match path, n with
  | [], Blob t id => Some (Content t id)
  | [], Dir _ => Some Folder
  | x :: p, Dir es => match alookup x es with Some c => view c p | None => None end
  | _ :: _, Blob _ _ => None
  end.

(** The content at a path of the overlay of two directories. *)
Definition shadowed (b : list string -> option object) (p : list string) : Prop :=
  exists q r t id, p = q ++ r /\ r <> [] /\ b q = Some (Content t id).
Definition overlay_view (a b r : list string -> option object) : Prop :=
  forall p,
    (forall o, b p = Some o -> r p = Some o) /\
    (b p = None -> shadowed b p -> r p = None) /\
    (b p = None -> ~ shadowed b p -> r p = a p).
(** Both have something at the same path, but not the same. *)
Definition conflict (a b : list string -> option object) : Prop :=
  exists p x y, a p = Some x /\ b p = Some y /\ x <> y.

(** What can be said about a path without looking into files. *)
Definition kind (n : node) (p : list string) : option otype :=
  match view n p with Some (Content t _) => Some t | Some Folder => Some Tree | None => None end.

Section H.
Variable H : string -> string.

(** Raw id of a node, and the content of the tree object of a directory. *)
Fixpoint nid (n : node) : string :=
  match n with
  | Blob _ id => id
  | Dir es => tree_id H (tree_content (map (fun p => match p with (x, c) => (nid c, [(x, ntype c)]) end) es))
  end.
Definition content (es : list (string * node)) : string :=
  tree_content (map (fun p => match p with (x, c) => (nid c, [(x, ntype c)]) end) es).
Definition node_info (n : node) : info := (ToHexString (nid n), ntype n).

(** All trees of the directory are in the store. *)
Fixpoint stored (st : store) (n : node) : Prop :=
  match n with
  | Blob _ _ => True
  | Dir es => In (content es) st /\ fold_right (fun p P => (match p with (_, c) => stored st c end) /\ P) True es
  end.

(** No two objects of the same directory have the same id but different types. *)
Fixpoint uniform (n : node) : Prop :=
  match n with
  | Blob _ _ => True
  | Dir es =>
      (forall x c y d, In (x, c) es -> In (y, d) es -> nid c = nid d -> ntype c = ntype d) /\
      fold_right (fun p P => (match p with (_, c) => uniform c end) /\ P) True es
  end.

(** The contents of all tree objects of a directory. *)
Fixpoint subs (n : node) : list string :=
  match n with
  | Blob _ _ => []
  | Dir es => content es :: concat (map (fun p => match p with (_, c) => subs c end) es)
  end.

(** The hash function does not collide on the objects of the store. *)
Definition no_collision (st : store) : Prop :=
  forall x y, In x st -> In y st -> tree_id H x = tree_id H y -> x = y.

Definition raw_ids : Prop := forall s, String.length (H s) = 20.

End H.
