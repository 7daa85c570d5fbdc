(** What the archive of a tree has to contain. *)
From Coq Require Import String Ascii NArith List Bool.
From Verif Require Import Common.Strs Archive.Model.
Import ListNotations.
Open Scope string_scope.
Open Scope list_scope.

(** Names as in proper trees. *)
Definition good_name (s : string) : Prop :=
  s <> "" /\ forall i, String.get i s <> Some "/"%char.

(** The order of paths as lists of names: name by name, a directory before what
    is in it. *)
Fixpoint before (a b : list string) : Prop :=
  match a, b with
  | [], _ :: _ => True
  | x :: a', y :: b' => str_lt x y \/ x = y /\ before a' b'
  | _, [] => False
  end.

Section Spec.
Variables digest raw : Type.
Variable retrieve : digest * otype -> option string.
Variable ReadTreeData : string -> digest -> option (list (raw * list (string * otype))).
Variable create : raw -> bool -> option digest.

(** The object is a tree with this entry. *)
Definition has (o : digest * otype) (name : string) (h : raw) (t : otype) : Prop :=
  exists d p g es, o = (d, Tree) /\ retrieve o = Some p /\ ReadTreeData p d = Some g /\
    In (h, es) g /\ In (name, t) es.

(** Following the names from the first object leads to the second one. *)
Inductive leads : digest * otype -> list string -> digest * otype -> Prop :=
| leads_nil o : leads o [] o
| leads_cons o name h t d names o' :
    has o name h t ->
    create h (match t with Tree => true | _ => false end) = Some d ->
    leads (d, t) names o' -> leads o (name :: names) o'.

(** The object is available, and for trees also all that is said in them. *)
Definition usable (o : digest * otype) : Prop :=
  exists p, retrieve o = Some p /\
    (snd o = Tree ->
     exists g, ReadTreeData p (fst o) = Some g /\
       forall h es name t, In (h, es) g -> In (name, t) es ->
         create h (match t with Tree => true | _ => false end) <> None).

(** Names in trees are proper and occur only once. *)
Definition proper_trees : Prop :=
  forall p d g, ReadTreeData p d = Some g ->
    NoDup (flat_map (fun e => map fst (snd e)) g) /\
    forall h es name t, In (h, es) g -> In (name, t) es -> good_name name.

(** The entry for the object at this path. *)
Definition entry_for (o : digest * otype) (names : list string) (e : entry) : Prop :=
  exists o' p, leads o names o' /\ retrieve o' = Some p /\
    e_path e = String.concat "/" names /\
    match snd o' with
    | File => e_type e = AE_IFREG /\ e_perm e = 292%N /\ e_data e = p
    | Executable => e_type e = AE_IFREG /\ e_perm e = 365%N /\ e_data e = p
    | Symlink => e_type e = AE_IFLNK /\ e_perm e = 4095%N /\ e_data e = p
    | Tree => e_type e = AE_IFDIR /\ e_perm e = 4095%N /\ e_data e = ""
    end.
End Spec.
