(** What a path means: a walk through directories, component by component. *)
From Coq Require Import String Ascii List ZArith.
From Verif Require Import Path.Model.
Import ListNotations.
Local Open Scope string_scope.

(** A place relative to an unknown working directory: [up] levels up, then down along [down]
    (innermost first). For absolute paths the walk starts at the root, where dot-dot stays. *)
Record place := mkPlace { up : nat; down : list string }.

Definition step (abs : bool) (l : place) (c : string) : place :=
  if String.eqb c "" then l
  else if String.eqb c "." then l
  else if String.eqb c ".." then
    match down l with
    | _ :: d => mkPlace (up l) d
    | [] => if abs then l else mkPlace (S (up l)) []
    end
  else mkPlace (up l) (c :: down l).

Definition walk (abs : bool) (cs : list string) : place := fold_left (step abs) cs (mkPlace 0 []).

(** The place a path string denotes. *)
Definition place_of (s : string) : place := walk (is_absolute s) (split_slash s).

(** How many levels below the start a relative walk is after the given components. *)
Definition level (c : string) : Z :=
  if String.eqb c "" then 0 else if String.eqb c "." then 0 else if String.eqb c ".." then -1 else 1.
Definition depth (cs : list string) : Z := fold_right (fun c z => (level c + z)%Z) 0%Z cs.

(** Following the components one by one never leads above the start. *)
Definition never_above (cs : list string) : Prop := forall n, (0 <= depth (firstn n cs))%Z.

(** A single path component: a name that is neither special nor contains a separator. *)
Definition plain (c : string) : Prop :=
  c <> "" /\ c <> "." /\ c <> ".." /\ ~ In "/"%char (list_ascii_of_string c).

(** Shape of normal forms: dot-dots first (only for relative paths), then plain names, joined by single
    slashes. *)
Definition normal_shape (s : string) : Prop :=
  s = "." \/ s = "/" \/
  exists (abs : bool) (n : nat) (names : list string),
    Forall plain names /\ (abs = true -> n = 0) /\ (n > 0 \/ names <> []) /\
    s = (if abs then "/" else "") ++ join_slash (repeat ".." n ++ names).
