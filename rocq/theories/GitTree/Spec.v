(** What git prescribes for tree objects. *)
From Coq Require Import String Ascii List Bool NArith Arith Sorted.
From Verif Require Import GitTree.Model.
Import ListNotations.
Local Open Scope string_scope.
Local Open Scope list_scope.
Local Infix "^^" := String.append (at level 60, right associativity).

(** A directory entry: name, type, raw id of the object. *)
Definition item : Type := (string * (otype * string)).

(** The entries of a collection sharded by id. *)
Definition items (es : tree_entries) : list item :=
  concat (map (fun g => map (fun e => (fst e, (snd e, fst g))) (snd g)) es).

Definition free_of (c : ascii) (s : string) : Prop := ~ In c (list_ascii_of_string s).
(** File names: nonempty, without slash and NUL, at most 65535 bytes. *)
Definition valid_name (n : string) : Prop :=
  n <> "" /\ free_of "/" n /\ free_of (ascii_of_N 0) n /\ (N.of_nat (String.length n) <= 65535)%N.
Definition valid_item (i : item) : Prop := valid_name (fst i) /\ String.length (snd (snd i)) = 20.
Definition valid_items (l : list item) : Prop := NoDup (map fst l) /\ Forall valid_item l.

(** Order of entries: git's [base_name_compare]. Names are compared bytewise; the end of a name counts as
    NUL, or as slash if the entry is a directory. *)
Definition name_end (t : otype) : N := match t with Tree => 47 | _ => 0 end.
Fixpoint git_cmp (n1 : string) (t1 : otype) (n2 : string) (t2 : otype) : comparison :=
  match n1, n2 with
  | "", "" => N.compare (name_end t1) (name_end t2)
  | "", String c _ => N.compare (name_end t1) (N_of_ascii c)
  | String c _, "" => N.compare (N_of_ascii c) (name_end t2)
  | String c r, String d s =>
      match N.compare (N_of_ascii c) (N_of_ascii d) with Eq => git_cmp r t1 s t2 | o => o end
  end.
Definition git_lt (a b : item) : Prop := git_cmp (fst a) (fst (snd a)) (fst b) (fst (snd b)) = Lt.

(** Text of an entry in a tree object. *)
Definition git_mode (t : otype) : string :=
  match t with File => "100644" | Executable => "100755" | Symlink => "120000" | Tree => "40000" end.
Definition git_text (i : item) : string :=
  git_mode (fst (snd i)) ^^ " " ^^ fst i ^^ String (ascii_of_N 0) (snd (snd i)).

(** The tree object for a set of entries. *)
Definition git_tree_object (l : list item) (data : string) : Prop :=
  exists l', (forall i, In i l' <-> In i l) /\ StronglySorted git_lt l' /\ data = String.concat "" (map git_text l').
