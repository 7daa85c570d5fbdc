(** Vocabulary for the statements about the analysis of configured targets. *)
From Coq Require Import String Ascii List Bool Arith.
From Verif Require Import Common.Strs LinkedMap.Model Path.Model Path.Spec Expr.Json Expr.Model Describe.Model.
From Verif Require Import Analysis.Stage Analysis.Model.
Import ListNotations.
Local Open Scope string_scope.
Local Open Scope list_scope.
Local Open Scope nat_scope.

(** Two configurations have the same values for the given variables (a missing variable is null). *)
Definition agree (vars : list string) (c1 c2 : env) : Prop :=
  forall x, In x vars -> env_get c1 x = env_get c2 x.

(** Equality of names, of expressions and of configurations is by hash (expression.hpp, C05): no two
    different values with the same hash. *)
Record faithful_equality (W : world) : Prop := {
  fe_target : forall a b, w_target_eqb W a b = true -> a = b;
  fe_expr : forall a b, w_expr_eqb W a b = true -> a = b;
  fe_config : forall a, w_same_config W a a = true;
  fe_same : forall a b, w_same_config W a b = true -> forall x, Find a x = Find b x
}.

(** The direct dependencies of a configured target with their results: what its program requests along
    the run that yields its result. *)
Inductive requested (W : world) : prog -> key -> analysed -> Prop :=
| req_now ks k vs d v : all_analyse W ks vs -> In (d, v) (combine ks vs) -> requested W (PRequest ks k) d v
| req_later ks k vs d v : all_analyse W ks vs -> requested W (k vs) d v -> requested W (PRequest ks k) d v.
Definition depends (W : world) (k d : key) (v : analysed) : Prop := requested W (program_of W k) d v.

(** Direct and indirect dependencies. *)
Inductive reaches (W : world) : key -> key -> analysed -> Prop :=
| reach_direct k d v : depends W k d v -> reaches W k d v
| reach_step k d v d' v' : depends W k d v -> reaches W d d' v' -> reaches W k d' v'.

(** Source trees consist of source files, symlinks and source trees: the reference types of the requested
    names, target_map.cpp:1766-1797. *)
Definition is_source (d : tdef) : Prop :=
  match d with DSource _ | DKnownTree _ _ | DSourceTree _ _ => True | _ => False end.
Definition source_children (W : world) : Prop :=
  forall t name children, w_definition W t = DSourceTree name children ->
  forall ch, In ch children -> is_source (w_definition W ch).

(** The entry of the target cache key of an export target, if it is eligible for caching. *)
Definition export_key (W : world) (k : key) : option string :=
  match w_definition W (fst k) with
  | DExport fl _ _ => w_cache_key W (fst k) (Prune (snd k) fl)
  | _ => None
  end.
(** An export target that is not eligible for caching. *)
Definition ineligible (W : world) (k : key) : Prop :=
  exists fl te fx, w_definition W (fst k) = DExport fl te fx /\ w_cache_key W (fst k) (Prune (snd k) fl) = None.
(** The result of an export target is not taken from the target cache or a serve endpoint. *)
Definition not_served (W : world) (k : key) : Prop :=
  match export_key W k with
  | Some key => match w_served W key with SEntry (Some _) => False | _ => True end
  | None => True
  end.

(** An action whose outputs may come from a failed run or are not to be taken from the cache. *)
Definition unreliable (a : raction) : Prop := ra_may_fail a <> None \/ ra_no_cache a = true.
