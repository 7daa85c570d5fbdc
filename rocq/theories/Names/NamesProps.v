(** C75: names of targets. *)
From Coq Require Import String Ascii List.
From Verif Require Import Common.Strs Path.Spec Path.Model Expr.Json Expr.Model.
From Verif Require Import Names.Model Names.Spec Names.Proofs.
Import ListNotations.
Local Open Scope string_scope.
Local Open Scope list_scope.

(** What is written in a description is accepted exactly if it refers to something, and is then taken as
    what it refers to; missing: the lenient relative references. *)
Theorem C75_resolution_partial : forall bindings cur src e,
  in_normal_form (n_module cur) -> ~ lenient cur src ->
  (ParseEntityName bindings src (Named cur) = Some e <-> exists n, e = Named n /\ refers bindings cur src n).
Proof. exact parse_refers. Qed.
Print Assumptions C75_resolution_partial.

(** Without that restriction: a relative reference that leaves the workspace is accepted, and taken as a
    reference to the top-level module. *)
Theorem C75_resolution_refuted : exists bindings cur src n,
  in_normal_form (n_module cur) /\ ParseEntityName bindings src (Named cur) = Some (Named n) /\
  ~ refers bindings cur src n.
Proof.
  exists (fun _ => None), (mkNamed "main" "" "x" RTarget), (SList [XStr "./"; XStr ".."; XStr "t"]),
    (mkNamed "main" "" "t" RTarget).
  split; [exists []; split; [constructor|reflexivity]|]. split; [reflexivity|].
  intros R. inversion R as [| |rel t A N| |s k middle f F]; subst.
  - specialize (N 2). cbn in N. now apply N.
  - destruct F as [[]|[[]|[[]|[]]]]; discriminate.
Qed.
Print Assumptions C75_resolution_refuted.

(** Every name obtained is written with a normalised module: with equal modules for equal directories. *)
Theorem C75_modules_normal : forall bindings src cur e, ParseEntityName bindings src cur = Some e ->
  exists n, e = Named n /\ in_normal_form (n_module n).
Proof. exact parse_normal. Qed.
Print Assumptions C75_modules_normal.

(** It does not matter whether a name is read from a file or obtained as the value of an expression. *)
Theorem C75_json_or_expression : forall bindings j cur,
  ParseEntityNameFromExpression bindings (FromJson j) cur = ParseEntityNameFromJson bindings j cur.
Proof. exact parse_agree. Qed.
Print Assumptions C75_json_or_expression.

(** Different names are reported differently. *)
Theorem C75_reported_names : forall a b, Names.Model.ToJson a = Names.Model.ToJson b -> a = b.
Proof. exact ToJson_inj. Qed.
Print Assumptions C75_reported_names.

(** A reported name of a target, used in a description in the repository of [cur], is read as the target of
    this module and name in the repository that is bound there to the reported repository name; reported
    references to files are not read back. *)
Theorem C75_reported_names_read : forall bindings n cur, in_normal_form (n_module n) ->
  ParseEntityNameFromJson bindings (Names.Model.ToJson (Named n)) (Named cur) =
  match n_ref n, bindings (n_repo cur) with
  | RTarget, Some bs =>
      match alookup (n_repo n) bs with
      | Some r => Some (Named (mkNamed r (n_module n) (n_name n) RTarget))
      | None => None
      end
  | _, _ => None
  end.
Proof.
  intros bindings n cur NF. rewrite parse_printed, (normal_form_fixed _ NF). unfold GlobalName.
  destruct (n_ref n); [destruct (bindings (n_repo cur)); reflexivity|reflexivity..].
Qed.
Print Assumptions C75_reported_names_read.

(** Names are totally ordered, and the comparison for equality is equality. *)
Theorem C75_order :
  (forall a, entity_ltb a a = false) /\
  (forall a b c, entity_ltb a b = true -> entity_ltb b c = true -> entity_ltb a c = true) /\
  (forall a b, entity_ltb a b = true \/ entity_ltb b a = true \/ a = b) /\
  (forall a b, entity_eqb a b = true <-> a = b).
Proof. exact (conj entity_irrefl (conj entity_trans (conj entity_total entity_eqb_eq))). Qed.
Print Assumptions C75_order.

(** A description in module "lib/foo" of repository "main", where "base" is bound to "base-1.0". *)
Definition there : named := mkNamed "main" "lib/foo" "foo" RTarget.
Definition bound (r : string) : option (list (string * string)) :=
  if String.eqb r "main" then Some [("base", "base-1.0")] else None.
Example C75_nonvacuous :
  in_normal_form (n_module there) /\
  ParseEntityName bound (SList [XStr "./"; XStr "../bar"; XStr "bar"]) (Named there) =
    Some (Named (mkNamed "main" "lib/bar" "bar" RTarget)) /\
  ~ lenient there (SList [XStr "./"; XStr "../bar"; XStr "bar"]) /\
  ParseEntityName bound (SList [XStr "./"; XStr "../../../bar"; XStr "bar"]) (Named there) = None /\
  ParseEntityName bound (SList [XStr "@"; XStr "base"; XStr "x/../y//"; XStr "t"]) (Named there) =
    Some (Named (mkNamed "base-1.0" "y" "t" RTarget)) /\
  ParseEntityName bound (SList [XStr "FILE"; XNone; XStr "foo.c"]) (Named there) =
    Some (Named (mkNamed "main" "lib/foo" "foo.c" RFile)) /\
  ParseEntityName bound (SList [XStr "FILE"; XStr "lib"; XStr "foo.c"]) (Named there) = None.
Proof.
  split. { exists ["lib"; "foo"]. split; [|reflexivity].
    repeat (constructor; [repeat split; try discriminate; cbn; intuition discriminate|]). constructor. }
  split; [reflexivity|]. split; [|repeat split].
  intros (rel & t & E & [A|W]); injection E as <- <-; [discriminate A|discriminate W].
Qed.
