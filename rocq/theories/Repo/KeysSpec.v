(** * Specification of repository keys; independent of the key computation. *)

From Coq Require Import List Arith Sorted.
From Verif.Repo Require Import Minimizer Keys.
Import ListNotations.

(** Repository names are unique and name mappings are ordered maps. *)
Definition config_ok (K : config) : Prop :=
  NoDup (map fst K) /\
  forall n b m, In (n, (b, m)) K -> StronglySorted lt (map fst m).

(** The hash distinguishes the base descriptions that occur. *)
Definition bases_ok (H : nat -> nat) (K : config) : Prop :=
  forall n m b n' m' b', In (n, (Some b, m)) K -> In (n', (Some b', m')) K ->
    H b = H b' -> b = b'.

(** A repository is fixed if it and everything reachable from it through
    bindings exists and is content-fixed. *)
Definition fixed (K : config) (r : nat) : Prop :=
  exists P : nat -> Prop, P r /\
    forall x, P x -> exists base m, assoc x K = Some (Some base, m) /\
      forall local y, assoc local m = Some y -> P y.

(** Two fixed repositories of two configurations are equivalent if one cannot
    tell them apart by following bindings and looking at base descriptions. *)
Definition equivalent (K1 K2 : config) (a b : nat) : Prop :=
  exists R : nat -> nat -> Prop, R a b /\
    forall x y, R x y ->
      exists base m1 m2,
        assoc x K1 = Some (Some base, m1) /\ assoc y K2 = Some (Some base, m2) /\
        forall local,
          match assoc local m1, assoc local m2 with
          | Some x', Some y' => R x' y'
          | None, None => True
          | _, _ => False
          end.

(** Two graphs are the same JSON object. *)
Definition same_graph (g g' : graph) : Prop := forall i, assoc i g = assoc i g'.
