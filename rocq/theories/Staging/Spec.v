(** What directories contain after objects have been put there. *)
From Coq Require Import String Ascii List Bool NArith Arith.
From Verif Require Import Common.Strs Hex.Model Describe.Model Executor.Wire Rehash.Directory Rehash.DirectoryProofs.
From Verif Require Import GitTree.Model Path.Model Rehash.Model Rehash.Spec Staging.FileSystem.
Import ListNotations.
Local Open Scope string_scope.
Local Open Scope list_scope.

(** What is found at a path below a directory. *)
Inductive object := AFile (x : bool) (data : string) | ALink (target : string) | ADirectory.
Definition object_of (n : fnode) : object :=
  match n with FFile x data => AFile x data | FLink t => ALink t | FDir _ => ADirectory end.
Fixpoint look (n : fnode) (p : path) {struct p} : option object :=
  match p, n with
  | [], _ => Some (object_of n)
  | x :: q, FDir es => match alookup x es with Some c => look c q | None => None end
  | _ :: _, _ => None
  end.

(** Something is wanted at some paths: files and links, and directories that have to exist. *)
Definition wish : Type := path -> object -> Prop.

(** [d'] has everything wanted, and the directories leading there; otherwise it is like [d]. *)
Definition on_the_way (W : wish) (q : path) : Prop := exists r o, r <> [] /\ W (q ++ r) o.
Definition concerns (W : wish) (q : path) : Prop :=
  (exists r o, W (q ++ r) o) \/ (exists p r o, q = p ++ r /\ W p o /\ o <> ADirectory).
Record installed (W : wish) (d d' : fnode) : Prop := {
  i_wanted : forall q o, W q o -> look d' q = Some o;
  i_way : forall q, on_the_way W q -> look d' q = Some ADirectory;
  i_rest : forall q, ~ concerns W q -> look d' q = look d q
}.
(** Nothing that is not concerned has changed; on the way, directories may have been created where nothing was. *)
Record unharmed (W : wish) (d d' : fnode) : Prop := {
  u_way : forall q, on_the_way W q -> look d' q = look d q \/ (look d q = None /\ look d' q = Some ADirectory);
  u_self : forall q o, W q o -> o <> ADirectory -> look d' q = Some ADirectory -> look d q = Some ADirectory;
  u_rest : forall q, ~ concerns W q -> look d' q = look d q
}.

(** The files and links of a node that is put at a path; with its empty directories. *)
Definition files_of (p : path) (f : fnode) : wish := fun q o => exists r, q = p ++ r /\ look f r = Some o /\ o <> ADirectory.
Definition empty_dir (f : fnode) (r : path) : Prop := look f r = Some ADirectory /\ forall x, look f (r ++ [x]) = None.
Definition leafs_of (p : path) (f : fnode) : wish :=
  fun q o => files_of p f q o \/ (exists r, q = p ++ r /\ empty_dir f r /\ o = ADirectory).

(** Several nodes, each at its path. *)
Definition all_files (l : list (path * fnode)) : wish := fun q o => exists p f, In (p, f) l /\ files_of p f q o.
Definition prefix (p q : path) : Prop := exists r, q = p ++ r.
(** No path lies below another one. *)
Definition apart (ps : list path) : Prop :=
  forall i j p q, nth_error ps i = Some p -> nth_error ps j = Some q -> i <> j -> ~ prefix p q.

(** All directories are sorted by name, so that the entries determine the list. *)
Fixpoint ordered (n : fnode) : Prop :=
  match n with
  | FDir es => sorted_keys es /\ fold_right (fun p P => (match p with (_, c) => ordered c end) /\ P) True es
  | _ => True
  end.
(** All names are names of directory entries. *)
Definition plain_path (p : path) : Prop := Forall (fun x => plainb x = true) p.
Fixpoint plain (n : fnode) : Prop :=
  match n with
  | FDir es => fold_right (fun p P => (match p with (x, c) => plainb x = true /\ plain c end) /\ P) True es
  | _ => True
  end.
(** Targets of links can be targets of links. *)
Fixpoint linkable (n : fnode) : Prop :=
  match n with
  | FFile _ _ => True
  | FLink t => t <> "" /\ contains_nul t = false
  | FDir es => fold_right (fun p P => (match p with (_, c) => linkable c end) /\ P) True es
  end.
(** Where something is wanted there is no directory in the way, and nothing else than directories on the way. *)
Definition room (W : wish) (d : fnode) : Prop :=
  forall q o, W q o -> q <> [] /\ plain_path q /\ look d q <> Some ADirectory /\
    forall q', prefix q' q -> q' <> q -> look d q' = None \/ look d q' = Some ADirectory.
(** There are no links on the way. *)
Definition inside (W : wish) (d : fnode) : Prop :=
  forall q o, W q o -> q <> [] /\ plain_path q /\ forall q', prefix q' q -> q' <> q -> forall t, look d q' <> Some (ALink t).
(** No directory, at any depth, is empty. *)
Definition no_empty_dir (f : fnode) : Prop := forall r, ~ empty_dir f r.

Section Storage.
Variable read : string -> option (list (string * (otype * string))).
Variable blob : otype -> string -> option string.

(** An object of the storage stands for a node: whatever the storage says about it is right ... *)
Fixpoint says (n : fnode) (i : otype * string) : Prop :=
  fst i = ftype n /\
  match n with
  | FFile _ data => forall s, blob (fst i) (snd i) = Some s -> s = data
  | FLink t => forall s, blob (fst i) (snd i) = Some s -> s = t
  | FDir es =>
      forall l, read (snd i) = Some l ->
        NoDup (map fst l) /\ (forall x j, In (x, j) l -> In x (map fst es)) /\
        fold_right (fun p P => (match p with (x, c) => exists j, In (x, j) l /\ says c j end) /\ P) True es
  end.
(** ... and it is there. *)
Fixpoint there (n : fnode) (i : otype * string) : Prop :=
  match n with
  | FFile _ _ | FLink _ => blob (fst i) (snd i) <> None
  | FDir es =>
      exists l, read (snd i) = Some l /\
        fold_right (fun p P => (match p with (x, c) => forall j, In (x, j) l -> there c j end) /\ P) True es
  end.
End Storage.

(** The directories an action finds for its outputs, if not among its inputs: those leading to output files, or paths, and
    the output directories, all below the working directory. *)
Definition leads_to (p q : path) : Prop := exists r, r <> [] /\ p = q ++ r.
Definition for_paths (cwd : path) (ps : list path) (q : path) : Prop := exists p, In p ps /\ leads_to (cwd ++ p) q.
Definition for_files_and_dirs (cwd : path) (files dirs : list path) (q : path) : Prop :=
  for_paths cwd files q \/ exists p, In p dirs /\ prefix q (cwd ++ p).
