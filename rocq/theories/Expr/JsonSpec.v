(** What is assumed of the text of numbers, and which JSON values are considered. *)
From Coq Require Import String Ascii List Bool NArith ZArith SpecFloat.
From Verif Require Import Expr.Json.
Import ListNotations.
Local Open Scope string_scope.

Definition is_digit (c : ascii) : bool := let n := N_of_ascii c in N.leb 48 n && N.leb n 57.
(** Characters occurring in the text of a number. *)
Definition numchar (c : ascii) : bool :=
  is_digit c || Ascii.eqb c "-" || Ascii.eqb c "+" || Ascii.eqb c "." || Ascii.eqb c "e".
Fixpoint all_chars (p : ascii -> bool) (s : string) : bool :=
  match s with "" => true | String c r => p c && all_chars p r end.

(** Finite doubles. *)
Definition num_ok (n : num) : Prop := is_finite n = true /\ valid_binary prec emax n = true.

(** The text of a finite double is a nonempty word over the characters of numbers, recognisable as
    text of a double by a "." or an exponent, and determines the double. *)
Definition number_text (ndump : num -> string) : Prop :=
  (forall n, num_ok n -> all_chars numchar (ndump n) = true /\ ndump n <> "" /\
     all_chars (fun c => is_digit c || Ascii.eqb c "-") (ndump n) = false) /\
  (forall a b, num_ok a -> num_ok b -> ndump a = ndump b -> a = b).

(** JSON values all of whose numbers are finite. *)
Fixpoint json_ok (j : json) : Prop :=
  match j with
  | JNum n => num_ok n
  | JArr l => fold_right (fun x P => json_ok x /\ P) True l
  | JObj m => fold_right (fun p P => (match p with (_, v) => json_ok v end) /\ P) True m
  | _ => True
  end.
