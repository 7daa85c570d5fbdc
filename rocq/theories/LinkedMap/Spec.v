(** Vocabulary for the statements about layered maps. *)
From Coq Require Import String List.
From Verif Require Import Common.Strs LinkedMap.Model.
Import ListNotations.

Section S.
Context {V : Type}.

(** The layers of a map in order of priority, highest first: the content shadows the next map. *)
Fixpoint layers (p : lmap V) : list (list (string * V)) :=
  match p with
  | Null => []
  | Link next content m =>
      (match content with Null => [m] | _ => layers content end) ++ layers next
  end.

(** The entry of the first layer having the key. *)
Fixpoint first_layer (k : string) (ls : list (list (string * V))) : option V :=
  match ls with
  | [] => None
  | l :: r => match alookup k l with Some v => Some v | None => first_layer k r end
  end.

(** All underlying [std::map]s are ordered with unique keys: the class invariant of [std::map]. *)
Definition std_maps (p : lmap V) : Prop := Forall sorted_keys (layers p).

(** The value at [k] in the last map of the list having [k]. *)
Definition last_wins (k : string) (ms : list (lmap V)) : option V :=
  fold_left (fun acc m => match Find m k with Some v => Some v | None => acc end) ms None.

(** Two maps agree on all common keys (up to the equality of values). *)
Definition agree (veq : V -> V -> bool) (a b : lmap V) : Prop :=
  forall k v w, Find a k = Some v -> Find b k = Some w -> veq v w = true.

End S.
