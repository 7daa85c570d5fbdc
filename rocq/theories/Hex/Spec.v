(** Vocabulary for the statements about the hexadecimal codec. *)
From Coq Require Import String Ascii NArith List Bool.
Import ListNotations.
Local Open Scope string_scope.

Definition lower_digits : string := "0123456789abcdef".
Definition upper_digits : string := "0123456789ABCDEF".

(** [c] is the lower-case digit of value [n]. *)
Definition digit_value (c : ascii) (n : nat) : Prop :=
  String.get n lower_digits = Some c \/ String.get n upper_digits = Some c.

(** [s] spells the bytes [bs], two hexadecimal digits (of either case) per byte, high digit first. *)
Inductive spells : string -> string -> Prop :=
| spells_nil : spells "" ""
| spells_cons : forall h l hi lo s bs,
    digit_value h hi -> digit_value l lo -> spells s bs ->
    spells (String h (String l s)) (String (ascii_of_nat (16 * hi + lo)) bs).

Definition is_lower_hex (c : ascii) : Prop := exists n, String.get n lower_digits = Some c.
