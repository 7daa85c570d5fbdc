(** * What it means for two states to behave alike

    This file does not mention the minimiser. *)

From Coq Require Import List Arith Sorted.
From Verif.Repo Require Import Minimizer.
Import ListNotations.

(** The automaton, as the list of (name, transitions, content) given to the
    minimiser.  Names are unique and each transition map is ordered by its
    symbols, as [std::map] guarantees. *)
Definition automaton := list (nat * transitions * nat).

Definition names (A : automaton) : list nat := map (fun s => fst (fst s)) A.

Definition well_formed (A : automaton) : Prop :=
  NoDup (names A) /\
  forall n t c, In (n, t, c) A -> StronglySorted lt (map fst t).

(** Equal content, the same symbols, and successors related by [R]. *)
Definition agree (A : automaton) (R : nat -> nat -> Prop) (a b : nat) : Prop :=
  exists ta tb c,
    In (a, ta, c) A /\ In (b, tb, c) A /\
    forall sym,
      match assoc sym ta, assoc sym tb with
      | Some r, Some s => R r s
      | None, None => True
      | _, _ => False
      end.

(** [R] is a bisimulation if it relates only equal names and states that agree
    up to [R].  (The first alternative matters only for names that are not
    states of the automaton.) *)
Definition bisimulation (A : automaton) (R : nat -> nat -> Prop) : Prop :=
  forall a b, R a b -> a = b \/ agree A R a b.

Definition bisimilar (A : automaton) (a b : nat) : Prop :=
  exists R, bisimulation A R /\ R a b.

(** Without the first alternative: for automata without dangling
    transitions. *)
Definition complete (A : automaton) : Prop :=
  forall n t c sym r, In (n, t, c) A -> assoc sym t = Some r -> In r (names A).

Definition strictly_bisimilar (A : automaton) (a b : nat) : Prop :=
  exists R : nat -> nat -> Prop, (forall x y, R x y -> agree A R x y) /\ R a b.
