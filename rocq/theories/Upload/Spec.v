(** Directories given by paths, stores in which trees are complete, and runs of programs in them. *)
From Coq Require Import String Ascii List Bool NArith Arith.
From Verif Require Import Common.Strs Hex.Model GitTree.Model GitTree.Spec GitTree.Ids TreeOps.Spec Path.Model Path.Spec
  Upload.Model.
Import ListNotations.
Local Open Scope string_scope.
Local Open Scope list_scope.

(** ** Input roots *)

(** The names on the way to a path, outermost first. *)
Definition segments (path : string) : list string := rev (down (place_of path)).
(** A path to something in the working directory, or below. *)
Definition inside (path : string) : Prop :=
  is_absolute path = false /\ never_above (split_slash path) /\ segments path <> [].
(** The path ends in a name, or is in normal form. *)
Definition tidy (path : string) : Prop := plain (last (split_slash path) "") \/ ToNormalPath path = path.
(** Components are possible file names: without NUL, and of bounded length. *)
Definition nameable (path : string) : Prop :=
  Forall (fun c => free_of (ascii_of_N 0) c /\ (N.of_nat (String.length c) <= 65535)%N) (split_slash path).

(** An input: path, and type and raw id of the object if known. *)
Definition input : Type := (string * option (otype * string)).
Definition good_input (i : input) : Prop :=
  tidy (fst i) /\ nameable (fst i) /\ (forall t id, snd i = Some (t, id) -> String.length id = 20).
Definition art (i : input) : string * option TreeOps.Model.info :=
  (fst i, match snd i with Some (t, id) => Some (ToHexString id, t) | None => None end).

Definition prefix (p q : list string) : Prop := exists r, q = p ++ r.
(** No input is placed at, or below, another one. *)
Definition conflict_free (l : list input) : Prop :=
  forall i j a b, nth_error l i = Some a -> nth_error l j = Some b -> i <> j ->
    ~ prefix (segments (fst a)) (segments (fst b)).

(** Directories whose leaves may also be known trees. *)
Fixpoint proper (n : node) : Prop :=
  match n with
  | Blob t id => String.length id = 20
  | Dir es => sorted_keys es /\
      fold_right (fun p P => (match p with (x, c) => valid_name x /\ proper c end) /\ P) True es
  end.

(** A directory contains exactly the inputs, and the directories leading there. *)
Definition root_of (l : list input) (n : node) : Prop :=
  (forall q t id, view n q = Some (Content t id) <->
     exists p, In (p, Some (t, id)) l /\ q = segments p) /\
  (forall q, view n q = Some Folder <->
     q = [] \/ exists i r, In i l /\ segments (fst i) = q ++ r /\ r <> []).

(** The node at a path. *)
Fixpoint at_path (n : node) (path : list string) {struct path} : option node :=
  match path, n with
  | [], _ => Some n
  | x :: p, Dir es => match alookup x es with Some c => at_path c p | None => None end
  | _ :: _, Blob _ _ => None
  end.

(** ** Stores *)

Section H.
Variable H : string -> string.

(** A store: objects with their kind (true for trees). *)
Definition cas : Type := list (bool * string).
(** An object is found by kind and id. *)
Definition has (s : cas) (d : digest) : Prop := exists data, In (fst d, data) s /\ oid H (fst d) data = snd d.

(** The objects named in a tree. *)
Definition named (data : string) (d : digest) : Prop :=
  exists l i, valid_items l /\ git_tree_object l data /\ In i l /\ d = (IsTreeObject (fst (snd i)), snd (snd i)).
(** Whenever a tree is in the store, so is everything named in it. *)
Definition complete (s : cas) : Prop := forall data d, In (true, data) s -> named data d -> has s d.

(** ** Runs

    Others may add objects at any time, keeping the store complete. [src] is the content of the source; reading may
    fail, for trees only if [fails]. *)
Variable src : digest -> option string.
Variable fails : digest -> Prop.
Inductive step {A} : prog A * cas -> prog A * cas -> Prop :=
| step_env p s s' : incl s s' -> (complete s -> complete s') -> step (p, s) (p, s')
| step_missing ds k s ms :
    incl ms ds -> (forall d, In d ds -> ~ has s d -> In d ms) -> step (GetMissing ds k, s) (k ms, s)
| step_available d k s b : (b = true -> has s d) -> step (Available d k, s) (k b, s)
| step_store bs k s b : In b bs -> step (Upload bs k, s) (Upload bs k, (b_tree b, b_data b) :: s)
| step_uploaded bs k s ok :
    (ok = true -> forall b, In b bs -> has s (b_digest H b)) -> step (Upload bs k, s) (k ok, s)
| step_read_tree d k s r : ((fails d /\ r = None) \/ r = src d) -> step (ReadTree d k, s) (k r, s)
| step_read_data d k s r : (r = None \/ r = src d) -> step (ReadData d k, s) (k r, s).
Inductive steps {A} : prog A * cas -> prog A * cas -> Prop :=
| steps_refl x : steps x x
| steps_step x y z : step x y -> steps y z -> steps x z.

(** The outcome of all runs in which uploads and reading succeed. *)
Fixpoint outcome {A} (P : A -> Prop) (p : prog A) : Prop :=
  match p with
  | Ret a => P a
  | GetMissing ds k => forall ms, incl ms ds -> outcome P (k ms)
  | Available _ k => forall b, outcome P (k b)
  | Upload _ k => outcome P (k true)
  | ReadTree d k | ReadData d k => outcome P (k (src d))
  end.

(** Ids are those of the contents. *)
Definition consistent : Prop := forall d data, src d = Some data -> oid H (fst d) data = snd d.

(** The source has the object and everything named in it, in a depth less than [n]. *)
Fixpoint holds (n : nat) (d : digest) : Prop :=
  match n with
  | O => False
  | S m => exists data, src d = Some data /\
      (fst d = true -> exists l, valid_items l /\ git_tree_object l data /\
         forall i, In i l -> holds m (IsTreeObject (fst (snd i)), snd (snd i)))
  end.

(** The objects of the source that are named, directly or not, by an object. *)
Inductive reaches : digest -> digest -> Prop :=
| reaches_refl d : reaches d d
| reaches_step d data d' d'' : fst d = true -> src d = Some data -> named data d' -> reaches d' d'' -> reaches d d''.

(** A collision of the hash function between a tree in the store and another tree. *)
Definition collision (s : cas) (other : string -> Prop) : Prop :=
  exists x y, In (true, x) s /\ other y /\ tree_text x <> tree_text y /\ H (tree_text x) = H (tree_text y).

(** All calls of Upload a program may ever make. *)
Fixpoint calls {A} (P : list blob -> Prop) (p : prog A) : Prop :=
  match p with
  | Ret _ => True
  | GetMissing _ k => forall ms, calls P (k ms)
  | Available _ k => forall b, calls P (k b)
  | Upload bs k => P bs /\ forall b, calls P (k b)
  | ReadTree _ k | ReadData _ k => forall r, calls P (k r)
  end.
(** A single object, or at most 3 MiB in total. *)
Definition size_ok (bs : list blob) : Prop :=
  length bs <= 1 \/ (fold_right (fun b n => N.of_nat (String.length (b_data b)) + n) 0 bs <= 3 * 1024 * 1024)%N.

End H.
