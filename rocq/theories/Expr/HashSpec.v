(** Vocabulary for equality of values by hash. *)
From Coq Require Import String Ascii List Bool NArith ZArith SpecFloat.
From Verif Require Import Expr.Json Expr.JsonSpec Expr.Model.
Import ListNotations.
Local Open Scope string_scope.
Local Open Scope list_scope.

(** The hash function returns a fixed number of bytes. *)
Definition fixed_length (H : string -> string) : Prop := exists n, 0 < n /\ forall s, String.length (H s) = n.

Section S.
Variable ndump : num -> string.
Variable H : string -> string.

(** Values all of whose numbers are finite. *)
Fixpoint finite (e : expr) : Prop :=
  match e with
  | ENum n => num_ok n
  | EName j | EArt j | ENode j _ => json_ok j
  | EResult _ _ _ _ => json_ok (ToJson ndump H SerializeAll e)
  | EList l => fold_right (fun x P => finite x /\ P) True l
  | EMap m => fold_right (fun p P => (match p with (_, v) => finite v end) /\ P) True m
  | _ => True
  end.

(** Values built from null, booleans, numbers, strings, names, artifacts, lists and maps. *)
Fixpoint plain (e : expr) : bool :=
  match e with
  | EResult _ _ _ _ | ENode _ _ => false
  | EList l => forallb plain l
  | EMap m => forallb (fun p => match p with (_, v) => plain v end) m
  | _ => true
  end.

(** Structural equality, where nodes are compared by their description and results by their JSON form. *)
Fixpoint same (a b : expr) {struct a} : Prop :=
  match a, b with
  | EList l, EList l' =>
      (fix go (l l' : list expr) : Prop :=
         match l, l' with
         | [], [] => True
         | x :: r, x' :: r' => same x x' /\ go r r'
         | _, _ => False
         end) l l'
  | EMap m, EMap m' =>
      (fix go (m m' : list (string * expr)) : Prop :=
         match m, m' with
         | [], [] => True
         | (k, x) :: r, (k', x') :: r' => k = k' /\ same x x' /\ go r r'
         | _, _ => False
         end) m m'
  | EResult _ _ _ _, EResult _ _ _ _ => ToJson ndump H SerializeAll a = ToJson ndump H SerializeAll b
  | ENode j _, ENode j' _ => j = j'
  | _, _ => a = b
  end.

(** The strings given to the hash function while computing the hash of a value. *)
Fixpoint preimages (e : expr) : list string :=
  match e with
  | EList l => ("[" ++ String.concat "" (map (ToHash ndump H) l))%string :: concat (map preimages l)
  | EMap m =>
      ("{" ++ String.concat "" (map (fun p => match p with (k, v) => H k ++ ToHash ndump H v end) m))%string
      :: concat (map (fun p => match p with (k, v) => k :: preimages v end) m)
  | EArt _ => [("@" ++ ToString ndump H e)%string]
  | EResult _ _ _ _ => [("=" ++ ToString ndump H e)%string]
  | ENode _ _ => [("#" ++ ToString ndump H e)%string]
  | EName _ => [("$" ++ ToString ndump H e)%string]
  | _ => [ToString ndump H e]
  end.

(** The hash function collides on strings that were hashed for [a] and for [b]. *)
Definition hash_collision (a b : expr) : Prop :=
  exists x y, In x (preimages a) /\ In y (preimages b) /\ x <> y /\ H x = H y.

End S.
