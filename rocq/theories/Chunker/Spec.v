(** Vocabulary for the properties of file chunking, independent of the
    buffering in the model. *)
From Coq Require Import List Ascii NArith Arith Bool.
Import ListNotations.

Section Spec.

Variables min_size avg_size max_size : nat.
Variables maskS maskL : N.
Variable gear : ascii -> N.

(** The rolling fingerprint of a byte sequence, 64 bits wide. *)
Definition fingerprint (bs : list ascii) : N :=
  fold_left (fun fp b => (2 * fp + gear b) mod 2 ^ 64)%N bs 0%N.

(** The bytes of [w] at the positions [a, a+1, .., b-1]. *)
Definition bytes_from_to (a b : nat) (w : list ascii) : list ascii :=
  firstn (b - a) (skipn a w).

(** The data calls for a cut at position [i]: the fingerprint of everything
    between the minimal size and [i], inclusive, is zero on the mask. *)
Definition cut_point (w : list ascii) (i : nat) : Prop :=
  min_size <= i < length w /\
  N.land (fingerprint (bytes_from_to min_size (S i) w))
         (if i <? avg_size then maskS else maskL) = 0%N.

(** [k] is the length of the first chunk of the data [w]: the first cut point,
    but at most the maximal size and not beyond the end. *)
Definition first_chunk (w : list ascii) (k : nat) : Prop :=
  k <= Nat.min (length w) max_size /\
  (forall i, i < k -> ~ cut_point w i) /\
  (k = Nat.min (length w) max_size \/ cut_point w k).

(** The sequence of chunks of a file. *)
Inductive chunked : list ascii -> list (list ascii) -> Prop :=
| chunked_end : chunked [] []
| chunked_cons : forall w k cs,
    w <> [] -> first_chunk w k -> chunked (skipn k w) cs ->
    chunked w (firstn k w :: cs).

End Spec.

(** [p] is a beginning of [l]. *)
Definition prefix_of {A} (p l : list A) : Prop := exists t, l = p ++ t.
