(** Model of names of targets, rules and expressions,
    src/buildtool/build_engine/base_maps/entity_name_data.hpp and entity_name.hpp.

    Simplification: an anonymous target is given by two expressions that the code compares and prints by
    their hash only (expression_ptr.cpp:52-58, expression.hpp:197); here it is given by these two hashes.
    [operator==] of the expressions also answers true for the very same object; equal objects have equal
    hashes. *)
From Coq Require Import String Ascii List Bool.
From Verif Require Import Common.Strs Path.Model Expr.Json Expr.Model.
Import ListNotations.
Local Open Scope string_scope.
Local Open Scope list_scope.

(** [ReferenceType], entity_name_data.hpp:57-63. *)
Inductive reference := RTarget | RFile | RTree | RGlob | RSymlink.

(** The order of the values of the enumeration. *)
Definition ref_nat (r : reference) : nat :=
  match r with RTarget => 0 | RFile => 1 | RTree => 2 | RGlob => 3 | RSymlink => 4 end.

(** [NamedTarget], entity_name_data.hpp:65-112; [EntityName], 114-232: a variant whose first alternative is
    the named target. *)
Record named := mkNamed { n_repo : string; n_module : string; n_name : string; n_ref : reference }.
Inductive entity :=
| Named (n : named)
| Anonymous (rule_map target_node : string).

(** The constructor of [NamedTarget], entity_name_data.hpp:71-78, normalises the module. *)
Definition NamedTarget (repo module name : string) (r : reference) : named :=
  mkNamed repo (normal_module_name module) name r.
Definition EntityName (repo module name : string) (r : reference) : entity :=
  Named (NamedTarget repo module name r).

(** [std::string::operator<=>]. *)
Definition cmp_str (a b : string) : comparison := String.compare a b.

(** [NamedTarget::operator<], entity_name_data.hpp:99-111. *)
Definition named_ltb (x y : named) : bool :=
  match cmp_str (n_repo x) (n_repo y) with
  | Lt => true | Gt => false
  | Eq => match cmp_str (n_module x) (n_module y) with
          | Lt => true | Gt => false
          | Eq => match cmp_str (n_name x) (n_name y) with
                  | Lt => true | Gt => false
                  | Eq => Nat.ltb (ref_nat (n_ref x)) (ref_nat (n_ref y))
                  end
          end
  end.

(** [NamedTarget::operator==], entity_name_data.hpp:88-93. *)
Definition named_eqb (x y : named) : bool :=
  String.eqb (n_repo x) (n_repo y) && String.eqb (n_module x) (n_module y)
  && String.eqb (n_name x) (n_name y) && Nat.eqb (ref_nat (n_ref x)) (ref_nat (n_ref y)).

Definition ltb_str (a b : string) : bool := match cmp_str a b with Lt => true | _ => false end.

(** [AnonymousTarget::operator<], entity_name_data.hpp:45-54. *)
Definition anonymous_ltb (r n r' n' : string) : bool :=
  if ltb_str r r' then true
  else if ltb_str r' r then false
  else ltb_str n n'.

(** [EntityName::operator<] and [operator==], entity_name_data.hpp:136-167: comparison of variants, first
    by the index of the alternative. *)
Definition entity_ltb (a b : entity) : bool :=
  match a, b with
  | Named x, Named y => named_ltb x y
  | Anonymous r n, Anonymous r' n' => anonymous_ltb r n r' n'
  | Named _, Anonymous _ _ => true
  | Anonymous _ _, Named _ => false
  end.
Definition entity_eqb (a b : entity) : bool :=
  match a, b with
  | Named x, Named y => named_eqb x y
  | Anonymous r n, Anonymous r' n' => String.eqb r r' && String.eqb n n'
  | _, _ => false
  end.

(** [EntityName::ToJson], entity_name_data.hpp:187-215. *)
Definition marker (r : reference) : list json :=
  match r with
  | RTarget => []
  | RFile => [JStr "FILE"]
  | RTree => [JStr "TREE"]
  | RGlob => [JStr "GLOB"]
  | RSymlink => [JStr "SYMLINK"]
  end.
Definition ToJson (e : entity) : json :=
  match e with
  | Anonymous r n => JArr [JStr "#"; JStr r; JStr n]
  | Named x => JArr ([JStr "@"; JStr (n_repo x)] ++ marker (n_ref x) ++ [JStr (n_module x); JStr (n_name x)])
  end.

(** What the functions [IsString], [IsNone], [GetString] tell about an element of a list,
    entity_name.hpp:35-89. *)
Inductive element := XStr (s : string) | XNone | XOther.
(** ... and what [IsString], [IsList], [GetList] tell about the source. *)
Inductive source := SStr (s : string) | SList (l : list element) | SOther.

(** The instances for JSON values and for expressions. *)
Definition element_of_json (j : json) : element :=
  match j with JStr s => XStr s | JNull => XNone | _ => XOther end.
Definition source_of_json (j : json) : source :=
  match j with JStr s => SStr s | JArr l => SList (map element_of_json l) | _ => SOther end.
Definition element_of_expr (e : expr) : element :=
  match e with EStr s => XStr s | ENone => XNone | _ => XOther end.
Definition source_of_expr (e : expr) : source :=
  match e with EStr s => SStr s | EList l => SList (map element_of_expr l) | _ => SOther end.

Section Parse.
(** [RepositoryConfig::GlobalName], repository_config.hpp:127-138: the name mapping of the repositories. *)
Variable bindings : string -> option (list (string * string)).
Definition GlobalName (repo local : string) : option string :=
  match bindings repo with Some m => alookup local m | None => None end.

(** The current entity is a named target: for an anonymous one [GetNamedTarget] throws and all the
    functions below return no value (see [ParseEntityName]). *)

(** [ParseEntityName_2], entity_name.hpp:93-106. *)
Definition ParseEntityName_2 (l : list element) (current : named) : option entity :=
  match l with
  | [XStr m; XStr n] => Some (EntityName (n_repo current) m n RTarget)
  | _ => None
  end.

(** [get_ref_type], entity_name.hpp:118-129. *)
Definition get_ref_type (s : string) : reference :=
  if String.eqb s "FILE" then RFile
  else if String.eqb s "GLOB" then RGlob
  else if String.eqb s "SYMLINK" then RSymlink
  else RTree.

(** [ParseEntityNameFSReference], entity_name.hpp:110-156. *)
Definition ParseEntityNameFSReference (s0 : string) (l : list element) (current : named) : option entity :=
  match l with
  | [_; middle; XStr name] =>
      let found := Some (EntityName (n_repo current) (n_module current) name (get_ref_type s0)) in
      match middle with
      | XNone => found
      | XStr m => if (String.eqb m "." || String.eqb m (n_module current))%bool then found else None
      | XOther => None
      end
  | _ => None
  end.

(** [ParseEntityNameRelative], entity_name.hpp:160-187; [relative_module] is modelled in Path/Model.v. *)
Definition ParseEntityNameRelative (l : list element) (current : named) : option entity :=
  match l with
  | [_; XStr rel; XStr name] =>
      match relative_module (n_module current) rel with
      | Some m => Some (EntityName (n_repo current) m name RTarget)
      | None => None
      end
  | _ => None
  end.

(** [ParseEntityNameLocation], entity_name.hpp:192-219. *)
Definition ParseEntityNameLocation (l : list element) (current : named) : option entity :=
  match l with
  | [_; XStr local; XStr m; XStr t] =>
      match GlobalName (n_repo current) local with
      | Some r => Some (EntityName r m t RTarget)
      | None => None
      end
  | _ => None
  end.

(** [ParseEntityName_3], entity_name.hpp:223-260. *)
Definition ParseEntityName_3 (l : list element) (current : named) : option entity :=
  match l with
  | XStr s0 :: _ =>
      if String.eqb s0 "./" then ParseEntityNameRelative l current
      else if String.eqb s0 "@" then ParseEntityNameLocation l current
      else if String.eqb s0 "#" then None
      else if (String.eqb s0 "FILE" || String.eqb s0 "TREE" || String.eqb s0 "GLOB" || String.eqb s0 "SYMLINK")%bool
      then ParseEntityNameFSReference s0 l current
      else None
  | _ => None
  end.

(** [ParseEntityName], entity_name.hpp:263-294. *)
Definition ParseEntityName (src : source) (current : entity) : option entity :=
  match current with
  | Anonymous _ _ => None
  | Named cur =>
      match src with
      | SStr s => Some (EntityName (n_repo cur) (n_module cur) s RTarget)
      | SList l =>
          if Nat.eqb (List.length l) 2 then ParseEntityName_2 l cur
          else if Nat.leb 3 (List.length l) then ParseEntityName_3 l cur
          else None
      | SOther => None
      end
  end.

(** [ParseEntityNameFromJson] and [ParseEntityNameFromExpression], entity_name.hpp:296-312. *)
Definition ParseEntityNameFromJson (j : json) (current : entity) : option entity :=
  ParseEntityName (source_of_json j) current.
Definition ParseEntityNameFromExpression (e : expr) (current : entity) : option entity :=
  ParseEntityName (source_of_expr e) current.

(** [ParseEntityNameFromJson]/[...FromExpression] are used for everything a targets file mentions. The names
    that occur in a run: the entry point and what is parsed relative to a name that occurs. *)
End Parse.
