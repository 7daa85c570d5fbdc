(** What a definition of a rule says, and when it makes sense. *)
From Coq Require Import String List Bool.
From Verif Require Import Common.Strs Rules.Model.
Import ListNotations.
Open Scope string_scope.
Open Scope list_scope.

(** The value at [k] is [v]; [d] if there is no entry. *)
Definition value_at (m : list (string * json)) (k : string) (d v : json) : Prop :=
  In (k, v) m \/ (~ In k (map fst m) /\ v = d).

(** The entry at [k] is a list of the strings [l]; nothing stands for none. *)
Definition strings_at (m : list (string * json)) (k : string) (l : list string) : Prop :=
  value_at m k (JArr []) (JArr (map JStr l)).

(** Two objects with the same keys, and values related by [R]. *)
Definition entries {A} (R : json -> A -> Prop) : list (string * json) -> list (string * A) -> Prop :=
  Forall2 (fun x y => fst x = fst y /\ R (snd x) (snd y)).

(** The entry at [k] is an object with values that stand for those of [l]. *)
Definition object_at {A} (R : json -> A -> Prop) (m : list (string * json)) (k : string)
    (l : list (string * A)) : Prop :=
  exists o, value_at m k (JObj []) (JObj o) /\ entries R o l.

Section Spec.
Variable name : Type.
Variable parse : json -> option name.
Variable function : name -> bool.

Definition is_name (v : json) (n : name) : Prop := parse v = Some n.

Definition is_names (v : json) (l : list name) : Prop :=
  exists vs, v = JArr vs /\ Forall2 is_name vs l.

Definition is_anon (v : json) (a : anon name) : Prop :=
  exists d, v = JObj d /\
    In ("target", JStr (an_target _ a)) d /\
    In ("provider", JStr (an_provider _ a)) d /\
    exists o, In ("rule_map", JObj o) d /\ entries is_name o (an_rule_map _ a).

(** What a definition says. *)
Record says := mkSays {
  s_targets : list string;
  s_strings : list string;
  s_configs : list string;
  s_implicit : list (string * list name);
  s_anonymous : list (string * anon name);
  s_vars : list string;
  s_tainted : list string;
  s_transitions : list (string * json);
  s_expression : json;
  s_imports : list (string * name)
}.

Record describes (m : list (string * json)) (d : says) : Prop := {
  d_targets : strings_at m "target_fields" (s_targets d);
  d_strings : strings_at m "string_fields" (s_strings d);
  d_configs : strings_at m "config_fields" (s_configs d);
  d_implicit : object_at is_names m "implicit" (s_implicit d);
  d_anonymous : object_at is_anon m "anonymous" (s_anonymous d);
  d_vars : strings_at m "config_vars" (s_vars d);
  d_tainted : strings_at m "tainted" (s_tainted d);
  d_transitions : value_at m "config_transitions" (JObj []) (JObj (s_transitions d));
  d_expression : In ("expression", s_expression d) m;
  d_imports : object_at is_name m "imports" (s_imports d)
}.

(** The kinds of fields. *)
Definition kinds (d : says) : list (list string) :=
  [s_targets d; s_strings d; s_configs d; map fst (s_implicit d); map fst (s_anonymous d)].

(** No field has two kinds or a reserved name; transitions are for fields that
    are about targets; the imported expressions exist. *)
Record consistent (d : says) : Prop := {
  one_kind : forall i j f li lj,
      nth_error (kinds d) i = Some li -> nth_error (kinds d) j = Some lj ->
      In f li -> In f lj -> i = j;
  not_reserved : forall l f, In l (kinds d) -> In f l ->
      f <> "arguments_config" /\ f <> "tainted" /\ f <> "type";
  transitions_ok : forall f, In f (map fst (s_transitions d)) ->
      In f (s_targets d) \/ In f (map fst (s_implicit d)) \/ In f (map fst (s_anonymous d));
  imports_ok : forall k n, In (k, n) (s_imports d) -> function n = true
}.
End Spec.

(** Keys occur only once in objects, as in everything nlohmann::json parses. *)
Inductive unique_keys : json -> Prop :=
| uk_null : unique_keys JNull
| uk_scalar : unique_keys JScalar
| uk_str s : unique_keys (JStr s)
| uk_arr l : Forall unique_keys l -> unique_keys (JArr l)
| uk_obj m : NoDup (map fst m) -> Forall (fun e => unique_keys (snd e)) m ->
    unique_keys (JObj m).
