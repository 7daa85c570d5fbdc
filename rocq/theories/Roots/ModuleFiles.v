(** Model of reading the files with the definitions of a module,
    src/buildtool/build_engine/base_maps/json_file_map.hpp.

    The root is given by the answers to the questions asked (see Model for these), the parser by a
    function.  Messages are not modelled. *)
From Coq Require Import String List Bool.
From Verif Require Import Path.Model Roots.Model.
Import ListNotations.
Local Open Scope string_scope.

Section ModuleFiles.
(** JSON values, those that are objects, and the empty object. *)
Variable value : Type.
Variable is_object : value -> bool.
Variable empty_object : value.
Variable parse : string -> option value.

(** What is asked of a [FileRoot]. *)
Record answers := mkAnswers {
  is_absent : bool;
  is_file : string -> bool;
  content : string -> option string
}.

(** [json_file_reader], json_file_map.hpp:44-122; None: a fatal error was reported.  [mandatory] is
    kMandatory.  For the empty module [*module.begin()] dereferences the end of the empty path, which is
    the empty path in libstdc++. *)
Definition ReadModuleFile (mandatory : bool) (root : option answers) (file_name : option string)
    (module : string) : option value :=
  match root, file_name with
  | Some r, Some f =>
      let m := lexically_normal module in
      if outside m then None
      else
        let p := append m f in
        if is_absent r then None
        else if is_file r p then
          match content r p with
          | None => None
          | Some c =>
              match parse c with
              | None => None
              | Some j => if is_object j then Some j else None
              end
          end
        else if mandatory then None
        else Some empty_object
  | _, _ => None
  end.
End ModuleFiles.
