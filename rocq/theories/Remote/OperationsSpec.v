(** Vocabulary for the statements about remembered operations. *)
From Coq Require Import String ZArith List Bool Arith Permutation Sorted.
From Verif Require Import Remote.Operations.
Import ListNotations.

(** What [std::sort] ensures. *)
Definition sorts (sorted : cache -> cache) : Prop :=
  forall c, Permutation c (sorted c) /\
    StronglySorted (fun a b => (o_seconds (snd a) <= o_seconds (snd b))%Z) (sorted c).

Definition event_name (e : event) : string :=
  match e with Begin x _ => x | Finish x _ _ => x | Fail x => x end.
(** What an event says about the operation of its action. *)
Definition says (e : event) : option operation :=
  match e with
  | Begin x s => Some (mkOperation x s false None)
  | Finish x r s => Some (mkOperation x s true (Some r))
  | Fail _ => None
  end.
(** The last that was said about the operation [x]; the last event is the first
    one of the list. *)
Fixpoint last_said (x : string) (es : list event) : option operation :=
  match es with
  | [] => None
  | e :: r =>
      if String.eqb (event_name e) x then match says e with Some o => Some o | None => last_said x r end
      else last_said x r
  end.

(** The contents of the cache at successive points in time. *)
Fixpoint prefixes (es : list event) : list (list event) :=
  match es with [] => [[]] | e :: r => [] :: map (cons e) (prefixes r) end.

(** Requests: an execution that began finishes or fails once, or still runs. *)
Inductive possible : list event -> list string -> Prop :=
| possible_none : possible [] []
| possible_begin es run x s : possible es run -> possible (es ++ [Begin x s]) (x :: run)
| possible_finish es run1 run2 x r s : possible es (run1 ++ x :: run2) ->
    possible (es ++ [Finish x r s]) (run1 ++ run2)
| possible_fail es run1 run2 x : possible es (run1 ++ x :: run2) -> possible (es ++ [Fail x]) (run1 ++ run2).

Definition running_entries (c : cache) : nat := length (filter (fun e => negb (o_done (snd e))) c).
