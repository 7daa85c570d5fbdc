(** Model of functions written in the expression language,
    src/buildtool/build_engine/base_maps/expression_function.hpp.

    Messages are not modelled.  As imports are resolved before a function exists, and cyclic ones are
    refused (see the analysis of cycles in Async), functions are finite trees. *)
From Coq Require Import String List Bool.
From Verif Require Import Common.Strs Expr.Json Expr.Model Expr.Eval.
Import ListNotations.
Local Open Scope string_scope.
Local Open Scope list_scope.

(** [ExpressionFunction], expression_function.hpp:41-52, 120-124. *)
Inductive fn := Fn (vars : list string) (imports : list (string * fn)) (body : expr).

Section Functions.
(** See Expr: text of numbers and hash function are parameters. *)
Variable ndump : num -> string.
Variable H : string -> string.
(** The budget for evaluating each of the bodies. *)
Variable fuel : nat.
(** [functions]: those given by the caller, as for rules. *)
Variable functions : list (string * function).

(** [imports_caller], expression_function.hpp:66-98: the import is evaluated in the environment of the
    call; errors in there are errors of the call. *)
Definition imports_caller (imports : list (string * (env -> res expr))) : function :=
  fun _ m c =>
    name_expr <- Field m "name" ;;
    name <- as_str name_expr ;;
    match alookup name imports with
    | Some call => call c
    | None => Err
    end.

(** [ExpressionFunction::Evaluate], expression_function.hpp:54-112.  The imports get the functions of
    the caller, without the imports of this function; own imports shadow others. *)
Fixpoint EvaluateFunction (f : fn) (c : env) : res expr :=
  match f with
  | Fn vars imports body =>
      Evaluate ndump H
        (("CALL_EXPRESSION",
          imports_caller
            ((fix go (l : list (string * fn)) : list (string * (env -> res expr)) :=
                match l with
                | [] => []
                | (name, g) :: l' => (name, fun c' => EvaluateFunction g c') :: go l'
                end) imports)) :: functions)
        fuel body (Prune c vars)
  end.

(** [kEmptyTransition], expression_function.hpp:114-118. *)
Definition kEmptyTransition : fn :=
  Fn [] [] (EList [EMap [("type", EStr "empty_map")]]).
End Functions.
