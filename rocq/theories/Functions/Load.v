(** Model of reading the definitions of expression functions,
    src/buildtool/build_engine/base_maps/expression_map.cpp.

    The files with definitions, the reading of names and that of expressions from JSON are parameters.
    Messages and the concurrency of the map are not modelled (for the latter see Async). *)
From Coq Require Import String List Bool.
From Verif Require Import Common.Strs Expr.Json Expr.Model Rules.Model Functions.Model.
Import ListNotations.
Local Open Scope string_scope.
Local Open Scope list_scope.

Section Load.
Variable name : Type.
(** [IsDefinitionName], entity_name_data.hpp. *)
Variable is_definition_name : name -> bool.
(** What is found for a name in the expressions file of its module; None also if the file cannot be
    read, see json_file_map.hpp. *)
Variable definition : name -> option Rules.Model.json.
(** [ParseEntityNameFromJson], relative to the name given first; see Names. *)
Variable parse : name -> Rules.Model.json -> option name.
(** [Expression::FromJson]. *)
Variable from_json : Rules.Model.json -> option expr.

(** The [subcaller] for the imports, expression_map.cpp:86-103: the first failure ends it. *)
Fixpoint load_all (load : name -> option fn) (l : list (string * name)) : option (list (string * fn)) :=
  match l with
  | [] => Some []
  | (alias, id) :: l' =>
      match load id with
      | None => None
      | Some f => match load_all load l' with Some r => Some ((alias, f) :: r) | None => None end
      end
  end.

(** [expr_func_creator], expression_map.cpp:29-103.  Imports that lead back to the function are never
    answered by the map, and reported as cycle: here the bound on the depth of imports is exceeded
    whatever it is. *)
Fixpoint LoadFunction (depth : nat) (id : name) : option fn :=
  match depth with
  | O => None
  | S n =>
      if is_definition_name id then
        match definition id with
        | Some (JObj m) =>
            match alookup "expression" m with
            | None => None
            | Some e =>
            match from_json e with
            | None => None
            | Some body =>
            match ReadStringList m "vars" with
            | None => None
            | Some vars =>
            match ReadEntityAliasesObject name (parse id) m "imports" with
            | None => None
            | Some aliases =>
            match load_all (LoadFunction n) aliases with
            | None => None
            | Some imports => Some (Fn vars imports body)
            end end end end end
        | _ => None
        end
      else None
  end.
End Load.
