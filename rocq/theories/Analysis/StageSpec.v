(** When the entries of a stage can be installed together, said of the places the paths denote. *)
From Coq Require Import String Ascii List Bool Arith.
From Verif Require Import Common.Strs Path.Model Path.Spec Expr.Json Expr.Model Analysis.Stage Analysis.Model Analysis.HonestSpec.
Import ListNotations.
Local Open Scope string_scope.
Local Open Scope list_scope.
Local Open Scope nat_scope.

(** The path is relative and does not lead above where it starts. *)
Definition inside (s : string) : Prop := is_absolute s = false /\ up (place_of s) = 0.

(** [q] is the place [p] or one below it. *)
Definition at_or_below (p q : place) : Prop := up q = up p /\ exists l, down q = l ++ down p.
Definition unrelated (p q : place) : Prop := ~ at_or_below p q /\ ~ at_or_below q p.

(** All entries are inside, and no two are at the same place or one below the other. *)
Definition installable {V} (m : list (string * V)) : Prop :=
  (forall e, In e m -> inside (fst e)) /\
  (forall e e', In e m -> In e' m -> e <> e' -> unrelated (place_of (fst e)) (place_of (fst e'))).

(** Entries that are the same up to the spelling of the path. *)
Definition same_entry {V} (e e' : string * V) : Prop := place_of (fst e) = place_of (fst e') /\ snd e = snd e'.

(** The two stages say the same. *)
Definition same_stage {V} (m n : list (string * V)) : Prop :=
  (forall e, In e m -> exists e', In e' n /\ same_entry e e') /\
  (forall e', In e' n -> exists e, In e m /\ same_entry e e').

(** No entry is lost or contradicted if paths are spelt differently: entries at the same place are equal,
    all others are unrelated. *)
Definition consistent {V} (m : list (string * V)) : Prop :=
  (forall e, In e m -> inside (fst e)) /\
  (forall e e', In e m -> In e' m -> same_entry e e' \/ unrelated (place_of (fst e)) (place_of (fst e'))).

(** ** Worlds with properly spelt names *)

(** A property holds of all results (values of RESULT) inside a value. *)
Fixpoint all_results (P : expr -> Prop) (e : expr) : Prop :=
  match e with
  | EResult s p r _ => P e /\ all_results P s /\ all_results P p /\ all_results P r
  | EList l => (fix go l := match l with [] => True | x :: r => all_results P x /\ go r end) l
  | EMap m => (fix go m := match m with [] => True | (_, x) :: r => all_results P x /\ go r end) m
  | _ => True
  end.

(** The path is in normal form, and inside. *)
Definition proper_path (s : string) : Prop := ToNormalPath s = s /\ inside s.

(** A map from normal paths to artifacts that can be installed. *)
Definition tidy (m : items) : Prop :=
  sorted_keys m /\ all_artifacts m = true /\ (forall e, In e m -> ToNormalPath (fst e) = fst e) /\ installable m.
Definition tidy_value (e : expr) : Prop :=
  match e with EResult (EMap s) (EMap _) (EMap r) _ => tidy s /\ tidy r | _ => False end.
Definition tidy_result (r : tresult) : Prop :=
  tidy (t_stage r) /\ tidy (t_runfiles r) /\ all_results tidy_value (EMap (t_provides r)).

(** What has to be assumed of the rest of the world for the stages of all targets to be installable:
    results come from RESULT only (the evaluator makes up nothing, and descriptions of targets contain no
    results); source targets, value nodes and results taken from a cache are tidy;
    the name of a generated file, symlink or tree and the paths of installed files are proper. *)
Record properly_named (W : world) : Prop := {
  pn_honest : honest_evaluator W;
  pn_plain : plain_definitions W;
  pn_source : forall t st, w_definition W t = DSource st -> tidy st;
  pn_glob : forall t sts, w_definition W t = DGlob sts -> tidy (glob_stage sts);
  pn_known : forall t n j, w_definition W t = DKnownTree n j -> proper_path n;
  pn_tree : forall t n ch, w_definition W t = DSourceTree n ch -> proper_path n;
  pn_value : forall t r, w_definition W t = DValueNode r -> tidy_result r;
  pn_served : forall k r im, w_served W k = SEntry (Some (r, im)) \/ w_served_absent W k = SEntry (Some (r, im)) -> tidy_result r;
  pn_generated : forall t c a,
    match w_definition W t with DBlobGen _ _ _ _ _ _ | DTree _ _ _ _ _ => True | _ => False end ->
    analyses W (t, c) a -> forall e, In e (t_stage (an_result a)) -> proper_path (fst e);
  pn_installed : forall t vars deps fm dirs tn, w_definition W t = DInstall vars deps (EMap fm) dirs tn ->
    forall e, In e fm -> ToNormalPath (fst e) = fst e
}.
