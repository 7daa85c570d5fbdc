(** What an evaluator may hand out, and where the artifacts of a target come from. *)
From Coq Require Import String Ascii List Bool Arith.
From Verif Require Import Common.Strs LinkedMap.Model Expr.Json Expr.Model Describe.Model.
From Verif Require Import Analysis.Stage Analysis.Model Analysis.Spec.
Import ListNotations.
Local Open Scope string_scope.
Local Open Scope list_scope.
Local Open Scope nat_scope.

(** ** Evaluators that make up nothing *)

(** [x], an artifact, a result (value of RESULT) or a node, occurs in the value [e]. *)
Fixpoint special_in (x e : expr) : Prop :=
  match e with
  | EArt _ | ENode _ _ => x = e
  | EResult s p r _ => x = e \/ special_in x s \/ special_in x p \/ special_in x r
  | EList l => (fix go l := match l with [] => False | y :: r => special_in x y \/ go r end) l
  | EMap m => (fix go m := match m with [] => False | (_, y) :: r => special_in x y \/ go r end) m
  | _ => False
  end.

(** Values without any of these, as read from a file or given on the command line. *)
Definition plain (e : expr) : Prop := forall x, ~ special_in x e.
Definition plain_env (c : env) : Prop := forall x v, Find c x = Some v -> plain v.

(** All of these in the arguments of a call satisfy [G]. *)
Definition call_within (G : expr -> Prop) (c : call) : Prop :=
  match c with
  | CAction g => forall x, special_in x (g_inputs g) -> G x
  | CTree v | COverlay _ v | CValueNode v => forall x, special_in x v -> G x
  | CAbstractNode _ sf tf => forall x, special_in x sf \/ special_in x tf -> G x
  | CResult a r p => forall x, special_in x a \/ special_in x r \/ special_in x p -> G x
  | _ => True
  end.

(** The evaluation makes up no artifact, result or node: those it passes to a function or returns were in
    the answer to an earlier call ([G] are those of the answers so far). *)
Fixpoint honest (G : expr -> Prop) (s : script) : Prop :=
  match s with
  | SRet v => forall x, special_in x v -> G x
  | SErr => True
  | SCall c k =>
      call_within G c /\
      forall a : option expr, honest (fun x => G x \/ match a with Some v => special_in x v | None => False end) (k a)
  end.

(** Evaluating a plain expression in a plain configuration is honest. *)
Definition honest_evaluator (W : world) : Prop :=
  forall e c, plain e -> plain_env c -> honest (fun _ => False) (w_eval W e c).

(** The expressions in the descriptions of targets and rules are plain. *)
Definition plain_definitions (W : world) : Prop := forall t,
  match w_definition W t with
  | DRule r _ => plain (r_expression r) /\ forall n, plain (r_transitions r n)
  | DConfigure _ _ config _ => plain config
  | DExport _ _ fixed => plain fixed
  | _ => True
  end.

(** ** What can be built *)

(** What the analysis hands over to be built. *)
Record recipes := mkRecipes {
  has_action : raction -> Prop;
  has_blob : string -> Prop;
  has_tree : list (string * json) -> Prop;
  has_overlay : list json * bool -> Prop
}.

(** The artifact can be obtained in finitely many steps from those given ([outside]): it is given, or the
    content of a known blob, or the output of an action whose inputs can be obtained, or a tree or overlay
    of artifacts that can be obtained. *)
Inductive buildable (W : world) (outside : json -> Prop) (R : recipes) : json -> Prop :=
| b_given j : outside j -> buildable W outside R j
| b_blob s type : has_blob R s -> buildable W outside R (art_ToJson (AKnown (w_blob W s) type None))
| b_action x o : has_action R x -> In o (ra_outs x) \/ In o (ra_out_dirs x) ->
    (forall e, In e (ra_inputs x) -> buildable W outside R (snd e)) ->
    buildable W outside R (art_ToJson (AAction (ra_id x) o))
| b_tree content : has_tree R content -> (forall e, In e content -> buildable W outside R (snd e)) ->
    buildable W outside R (art_ToJson (ATree (tree_id (w_ndump W) (w_hash W) content)))
| b_overlay parts disjoint : has_overlay R (parts, disjoint) -> (forall p, In p parts -> buildable W outside R p) ->
    buildable W outside R (art_ToJson (ATreeOverlay (overlay_id (w_ndump W) (w_hash W) parts disjoint))).

(** The recipes of a target and all targets it depends on, directly or indirectly. *)
Definition of_or_below (W : world) (k : key) (a v : analysed) : Prop := v = a \/ exists d, reaches W k d v.
Definition all_recipes (W : world) (k : key) (a : analysed) : recipes :=
  mkRecipes (fun x => exists v, of_or_below W k a v /\ In x (an_actions v))
            (fun s => exists v, of_or_below W k a v /\ In s (an_blobs v))
            (fun c => exists v, of_or_below W k a v /\ In c (an_trees v))
            (fun o => exists v, of_or_below W k a v /\ In o (an_overlays v)).

(** The stages of results are maps to artifacts, also in results inside the provided values. *)
Definition artifacts_only (m : items) : Prop := forall e, In e m -> exists j, snd e = EArt j.
Definition result_typed (x : expr) : Prop :=
  match x with
  | EResult s p r _ => exists s' p' r', s = EMap s' /\ p = EMap p' /\ r = EMap r' /\ artifacts_only s' /\ artifacts_only r'
  | _ => True
  end.
Definition typed (r : tresult) : Prop :=
  artifacts_only (t_stage r) /\ artifacts_only (t_runfiles r) /\ forall x, special_in x (EMap (t_provides r)) -> result_typed x.
Record typed_world (W : world) : Prop := {
  tw_source : forall t stage, w_definition W t = DSource stage -> artifacts_only stage;
  tw_glob : forall t stages, w_definition W t = DGlob stages -> forall st, In st stages -> artifacts_only st;
  tw_value : forall t r, w_definition W t = DValueNode r -> typed r;
  tw_served : forall k r im, w_served W k = SEntry (Some (r, im)) \/ w_served_absent W k = SEntry (Some (r, im)) -> typed r
}.

(** Artifacts that are there without building anything: source files and trees, those in results taken
    from the target cache or a serve endpoint, and those in the results inside value nodes. *)
Definition in_result (r : tresult) (j : json) : Prop :=
  special_in (EArt j) (EMap (t_stage r)) \/ special_in (EArt j) (EMap (t_runfiles r)) \/ special_in (EArt j) (EMap (t_provides r)).
Inductive given (W : world) : json -> Prop :=
| given_source t stage j : w_definition W t = DSource stage -> special_in (EArt j) (EMap stage) -> given W j
| given_glob t stages st j : w_definition W t = DGlob stages -> In st stages -> special_in (EArt j) (EMap st) -> given W j
| given_tree t name j : w_definition W t = DKnownTree name j -> given W j
| given_value t r j : w_definition W t = DValueNode r -> in_result r j -> given W j
| given_served key r implied j : w_served W key = SEntry (Some (r, implied)) -> in_result r j -> given W j
| given_absent key r implied j : w_served_absent W key = SEntry (Some (r, implied)) -> in_result r j -> given W j.
