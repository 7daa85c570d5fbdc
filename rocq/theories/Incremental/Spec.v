(** What is assumed of commands, and what builds on a cache should give. *)
From Coq Require Import String Ascii List Bool Arith NArith ZArith.
From Verif Require Import Common.Strs Describe.Model Executor.Wire Executor.Local Executor.LocalSpec Dag.Traverse Executor.Process Executor.Build
  Executor.BuildSpec Incremental.Model.
Import ListNotations.
Local Open Scope string_scope.
Local Open Scope list_scope.

(** Actions as the two constructors of local actions make them. *)
Definition constructed (a : local_action) : Prop :=
  (exists root command cwd files dirs env props timeout b, a = new_action root command cwd files dirs env props timeout b) \/
  (exists root command cwd paths env props timeout, a = new_action_paths root command cwd paths env props timeout).

(** A set of actions without collisions of ids, with values that fit their types. *)
Definition tame (hash : string -> string) (t : hash_type) (U : local_action -> Prop) : Prop :=
  (forall a, U a -> ok_action t a /\ constructed a) /\
  (forall a b, U a -> U b -> ~ ids_collide hash t a false b false).

(** All actions that play a role: those that are run by anybody, and those the build asks for. *)
Definition in_play (happens : local_action -> world -> Prop) (s : system) (U : local_action -> Prop) : Prop :=
  (forall a w, happens a w -> U a) /\ (forall c f a x, In (c, f, a, x) (y_asked s) -> U a).

(** Commands are deterministic: what running an action does depends on nothing but the action. *)
Definition deterministic (happens : local_action -> world -> Prop) (U : local_action -> Prop) (does : local_action -> world) : Prop :=
  (forall a w, happens a w -> w = does a) /\ (forall a b, U a -> U b -> same_action a b -> does a = does b).

(** Running [a] always works: it exits with zero and leaves its outputs, which can be stored, no directory being a symlink. *)
Definition reliable (t : hash_type) (happens : local_action -> world -> Prop) (a : local_action) : Prop :=
  forall b w, same_action a b -> happens b w -> w_exit w = Some 0%Z /\ plain_outputs t b w /\ w_store w = true.

(** Where the infos of a build come from, if commands need not be deterministic: from the sources, or from processing an
    action on inputs of this kind as if there was no cache, the command doing what it did in one of the executions that took place. *)
Section Made.
Variable hash : string -> string.
Variable t : hash_type.
Variable legacy : bool.
Variable valid : digest -> option bool.
Variable rest : api.
Variable X : context.
Variable happens : local_action -> world -> Prop.
Variable acts : nat -> act.
Variable source : nat -> option object_info.
Inductive made : nat -> object_info -> Prop :=
| m_source : forall a i, source a = Some i -> made a i
| m_built : forall a i c ins w ws,
    Forall2 (fun (x : string * nat) (y : string * object_info) => fst x = fst y /\ made (snd x) (snd y)) (n_inputs (acts c)) ins ->
    (forall f b, asked t legacy rest X (acts c) ins = Some (f, b) -> exists b', same_action b b' /\ happens b' w) ->
    Process X (local_api hash t legacy valid rest [] (fun _ => w)) (acts c) ins = (true, ws) -> In (a, i) ws ->
    made a i.
End Made.
