(** Functions of the expression language: C138. *)
From Coq Require Import String List Bool Arith Lia SpecFloat.
From Verif Require Import Common.Strs LinkedMap.Model Expr.Json Expr.Model Expr.Eval Expr.Spec Expr.EvalProofs.
From Verif Require Import Expr.OpsProofs Expr.Witness Functions.Model.
Import ListNotations.
Local Open Scope string_scope.
Local Open Scope list_scope.

(** The value of a function depends only on the values of the variables it declares.  Nothing is asked
    of the body, the imported functions and what they mention. *)
Theorem C138_only_declared ndump H fuel functions vars imports body c1 c2 :
  (forall x, In x vars -> env_get c1 x = env_get c2 x) ->
  EvaluateFunction ndump H fuel functions (Fn vars imports body) c1 =
  EvaluateFunction ndump H fuel functions (Fn vars imports body) c2.
Proof.
  intros A. cbn [EvaluateFunction]. f_equal.
  apply (prune_agree (fun x => In x vars)); [|trivial]. intros x Hx. exact (A x Hx).
Qed.
Print Assumptions C138_only_declared.

Lemma imports_lookup ndump H fuel functions imports n :
  alookup n ((fix go (l : list (string * fn)) : list (string * (env -> res expr)) :=
                match l with
                | [] => []
                | (name, g) :: l' =>
                    (name, fun c' => EvaluateFunction ndump H fuel functions g c') :: go l'
                end) imports) =
  match alookup n imports with
  | Some g => Some (fun c' => EvaluateFunction ndump H fuel functions g c')
  | None => None
  end.
Proof.
  induction imports as [|[k g] l IH]; [reflexivity|]. cbn [alookup].
  destruct (String.eqb n k); [reflexivity|exact IH].
Qed.

(** A function whose body is a call of an import: it is the import of that name of this function,
    whatever the caller of the function imports; it sees the variables that are declared by both, all
    others are null. *)
Theorem C138_call ndump H fuel functions vars imports m name c :
  alookup "type" m = Some (EStr "CALL_EXPRESSION") -> alookup "name" m = Some (EStr name) ->
  EvaluateFunction ndump H (S fuel) functions (Fn vars imports (EMap m)) c =
  match alookup name imports with
  | Some g => EvaluateFunction ndump H (S fuel) functions g (Prune c vars)
  | None => Err
  end /\
  (forall x, env_get (Prune c vars) x = if in_dec string_dec x vars then env_get c x else ENone).
Proof.
  intros T N. split.
  - cbn [EvaluateFunction]. cbn [Evaluate].
    assert (FT : Field m "type" = Ok (EStr "CALL_EXPRESSION")) by (unfold Field; now rewrite T).
    assert (FN : Field m "name" = Ok (EStr name)) by (unfold Field; now rewrite N).
    rewrite FT. cbn [bind as_str]. unfold find_function.
    cbn [alookup]. change (String.eqb "CALL_EXPRESSION" "CALL_EXPRESSION") with true. cbv iota.
    unfold imports_caller. rewrite FN.
    cbn [bind as_str]. rewrite imports_lookup.
    destruct (alookup name imports); reflexivity.
  - intro x. unfold env_get at 1. rewrite prune_lookup.
    destruct (in_dec string_dec x vars); reflexivity.
Qed.
Print Assumptions C138_call.

(** Functions reached by imports. *)
Inductive reaches : fn -> fn -> Prop :=
| reaches_self f : reaches f f
| reaches_import vars imports body name g h :
    In (name, g) imports -> reaches g h -> reaches (Fn vars imports body) h.

Definition body_of (f : fn) : expr := match f with Fn _ _ body => body end.

Lemma eval_terminates_call ndump H (call : function) :
  (forall ev m c, call ev m c <> OutOfFuel) ->
  forall n e c, depth e <= n -> Evaluate ndump H [("CALL_EXPRESSION", call)] n e c <> OutOfFuel.
Proof.
  intros HC. induction n as [|n IH]; intros e c Hd. { pose proof (depth_pos e). lia. }
  assert (HEM : forall c, 1 <= n -> nf (Evaluate ndump H [("CALL_EXPRESSION", call)] n kEmptyMapExpr c)).
  { intros c' Hn. destruct n; [lia|]. cbn. discriminate. }
  destruct e; cbn [Evaluate]; try apply Ok_nf.
  - apply bind_nf; [|intros; apply Ok_nf]. apply mapM_nf. intros x Hx. apply IH. apply depth_elem in Hx. lia.
  - unfold Field. destruct (alookup "type" m) as [t|] eqn:Et; cbn [bind]; [|apply Err_nf].
    destruct t; cbn [bind as_str]; try apply Err_nf. unfold find_function. cbn [alookup].
    destruct (String.eqb s "CALL_EXPRESSION"); [apply HC|].
    destruct (alookup s (kBuiltInFunctions ndump H)) as [f|] eqn:Ef'; [|apply Err_nf].
    eapply builtin_nf with (n := n) (name := s); eauto.
Qed.

(** Evaluation of functions ends, if only their own imports are provided: a budget as large as the
    depth of the largest body suffices. *)
Theorem C138_terminates ndump H fuel f :
  (forall g, reaches f g -> depth (body_of g) <= fuel) ->
  forall c, EvaluateFunction ndump H fuel [] f c <> OutOfFuel.
Proof.
  revert f. fix IH 1. intros [vars imports body] R c. cbn [EvaluateFunction].
  apply eval_terminates_call.
  - intros ev m c'. unfold imports_caller.
    destruct (Field m "name") as [v| |] eqn:F; cbn [bind]; try discriminate.
    2:{ unfold Field in F. destruct (alookup "name" m); discriminate. }
    destruct v; cbn [as_str bind]; try discriminate.
    assert (R' : forall n g, In (n, g) imports -> forall h, reaches g h -> depth (body_of h) <= fuel).
    { intros n g Hin h Hh. apply R. exact (reaches_import vars imports body n g h Hin Hh). }
    clear R. induction imports as [|[k g] l IHl]; [discriminate|].
    cbn [alookup]. destruct (String.eqb s k).
    + apply IH. exact (R' k g (or_introl eq_refl)).
    + apply IHl. intros n g' Hin. exact (R' n g' (or_intror Hin)).
  - exact (R _ (reaches_self _)).
Qed.
Print Assumptions C138_terminates.

(** Fields without a transition: the configuration is not changed. *)
Theorem C138_empty_transition ndump H fuel c :
  EvaluateFunction ndump H (S (S fuel)) [] kEmptyTransition c = Ok (EList [EMap []]).
Proof. reflexivity. Qed.
Print Assumptions C138_empty_transition.

(** Declared, not mentioned, variables matter: the body of a caller need not mention what its value
    depends on. *)
Theorem C138_declared_not_mentioned :
  exists ndump H f c1 c2,
    (forall x, In x (mentions (body_of f)) -> env_get c1 x = env_get c2 x) /\
    EvaluateFunction ndump H 9 [] f c1 <> EvaluateFunction ndump H 9 [] f c2.
Proof.
  exists toy_ndump, toy_hash,
    (Fn ["x"] [("g", Fn ["x"] [] (EMap [("name", EStr "x"); ("type", EStr "var")]))]
        (EMap [("name", EStr "g"); ("type", EStr "CALL_EXPRESSION")])),
    (Link Null Null [("x", EStr "1")]), (Link Null Null [("x", EStr "2")]).
  split; [|vm_compute; discriminate].
  intros x Hx. vm_compute in Hx. intuition (subst; reflexivity).
Qed.
Print Assumptions C138_declared_not_mentioned.

Example C138_nonvacuous :
  let g := Fn ["x"; "y"] [] (EMap [("$1", EList [EMap [("name", EStr "x"); ("type", EStr "var")];
               EMap [("default", EStr "none"); ("name", EStr "y"); ("type", EStr "var")]]);
             ("type", EStr "join")]) in
  let f := Fn ["x"] [("g", g)] (EMap [("name", EStr "g"); ("type", EStr "CALL_EXPRESSION")]) in
  EvaluateFunction toy_ndump toy_hash 9 [] f (Link Null Null [("x", EStr "1"); ("y", EStr "2")]) =
    Ok (EStr "1none") /\
  EvaluateFunction toy_ndump toy_hash 9 [] g (Link Null Null [("x", EStr "1"); ("y", EStr "2")]) =
    Ok (EStr "12").
Proof. split; vm_compute; reflexivity. Qed.
