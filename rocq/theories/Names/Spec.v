(** What a name written in a targets file refers to. *)
From Coq Require Import String Ascii List.
From Verif Require Import Common.Strs Path.Spec Path.Model Expr.Json Names.Model.
Import ListNotations.
Local Open Scope string_scope.
Local Open Scope list_scope.

(** The directory of the workspace a module string means: follow its components from the top of the
    workspace, where dot-dot stays. Modules are written as the names of that directory with slashes. *)
Definition directory_of (m : string) : list string := rev (down (walk true (split_slash m))).
Definition in_normal_form (m : string) : Prop := exists ds, Forall plain ds /\ m = join_slash ds.

Definition file_marker (s : string) (r : reference) : Prop :=
  (s = "FILE" /\ r = RFile) \/ (s = "TREE" /\ r = RTree) \/ (s = "GLOB" /\ r = RGlob) \/ (s = "SYMLINK" /\ r = RSymlink).

Section Refers.
Variable bindings : string -> option (list (string * string)).

(** What the source [src], written in a description of a target of the module and repository of [cur],
    refers to. *)
Inductive refers (cur : named) : source -> named -> Prop :=
| r_here : forall t,
    refers cur (SStr t) (mkNamed (n_repo cur) (n_module cur) t RTarget)
| r_module : forall m t,
    refers cur (SList [XStr m; XStr t]) (mkNamed (n_repo cur) (join_slash (directory_of m)) t RTarget)
| r_relative : forall rel t,
    is_absolute rel = false ->
    never_above (split_slash (n_module cur) ++ split_slash rel) ->
    refers cur (SList [XStr "./"; XStr rel; XStr t])
      (mkNamed (n_repo cur) (join_slash (rev (down (walk false (split_slash (n_module cur) ++ split_slash rel))))) t RTarget)
| r_repository : forall local bs r m t,
    bindings (n_repo cur) = Some bs -> alookup local bs = Some r ->
    refers cur (SList [XStr "@"; XStr local; XStr m; XStr t]) (mkNamed r (join_slash (directory_of m)) t RTarget)
| r_file : forall s k middle f,
    file_marker s k -> (middle = XNone \/ middle = XStr "." \/ middle = XStr (n_module cur)) ->
    refers cur (SList [XStr s; middle; XStr f]) (mkNamed (n_repo cur) (n_module cur) f k).
End Refers.

(** The relative references that are accepted although they do not lead to a directory of the workspace:
    absolute ones and those that lead one level above the workspace, to no named directory there. *)
Definition lenient (cur : named) (src : source) : Prop :=
  exists rel t, src = SList [XStr "./"; XStr rel; XStr t] /\
    (is_absolute rel = true \/ walk false (split_slash (n_module cur) ++ split_slash rel) = mkPlace 1 []).
