(** Model of reading the definition of a user-defined rule:
    src/buildtool/build_engine/base_maps/rule_map.cpp,
    src/buildtool/build_engine/base_maps/user_rule.hpp and
    src/buildtool/build_engine/base_maps/field_reader.hpp.

    Messages are not modelled, except for the warning about unexpected keys.
    An object is the list of its entries; keys occur once (nlohmann::json). *)
From Coq Require Import String List Bool.
From Verif Require Import Common.Strs.
Import ListNotations.
Open Scope string_scope.
Open Scope list_scope.

Inductive json :=
| JNull
| JScalar                              (* a number or a boolean *)
| JStr (s : string)
| JArr (l : list json)
| JObj (m : list (string * json)).

(** rule_map.cpp:36-51 [kRuleFields]. *)
Definition kRuleFields : list string :=
  ["anonymous"; "artifacts_doc"; "config_doc"; "config_fields";
   "config_transitions"; "config_vars"; "doc"; "expression"; "field_doc";
   "implicit"; "imports"; "provides_doc"; "runfiles_doc"; "string_fields";
   "tainted"; "target_fields"].

(** user_rule.hpp:305-308 [kReservedKeywords]. *)
Definition kReservedKeywords : list string := ["arguments_config"; "tainted"; "type"].

(** field_reader.hpp:41-50 [GetOrDefault]. *)
Definition GetOrDefault (m : list (string * json)) (k : string) (d : json) : json :=
  match alookup k m with Some v => v | None => d end.

(** The strings of an array, field_reader.hpp:166-172. *)
Fixpoint get_strings (l : list json) : option (list string) :=
  match l with
  | [] => Some []
  | JStr s :: l' =>
      match get_strings l' with Some r => Some (s :: r) | None => None end
  | _ :: _ => None
  end.

(** field_reader.hpp:149-184 [ReadStringList]. *)
Definition ReadStringList (m : list (string * json)) (k : string) : option (list string) :=
  match GetOrDefault m k (JArr []) with
  | JArr l => get_strings l
  | _ => None
  end.

(** field_reader.hpp:223-238 [ExpectFields]: the unexpected keys; that there are
    some is not an error. *)
Definition unexpected (expected : list string) (m : list (string * json)) : list string :=
  filter (fun k => negb (existsb (String.eqb k) expected)) (map fst m).

(** std::sort on strings; as equal strings cannot be told apart, any way of
    sorting gives the same. *)
Fixpoint insert (x : string) (l : list string) : list string :=
  match l with
  | [] => [x]
  | y :: l' => if str_ltb y x then y :: insert x l' else x :: l
  end.

Definition sort (l : list string) : list string := fold_right insert [] l.

(** std::set_intersection of two sorted ranges. *)
Fixpoint inter (a : list string) : list string -> list string :=
  match a with
  | [] => fun _ => []
  | x :: a' =>
      fix go (b : list string) : list string :=
        match b with
        | [] => []
        | y :: b' =>
            match str_cmp x y with
            | Lt => inter a' b
            | Gt => go b'
            | Eq => x :: inter a' b'
            end
        end
  end.

(** user_rule.hpp:355-384 [FindDuplicates], user_rule.hpp:386-407
    [GetDuplicates]: kTriangular=false and kTriangular=true.  The result is a
    set, here a list. *)
Fixpoint FindLinear (first : list string) (rest : list (list string)) : list string :=
  match rest with
  | [] => []
  | second :: rest' => inter first second ++ FindLinear first rest'
  end.

Fixpoint FindTriangular (first : list string) (rest : list (list string)) : list string :=
  match rest with
  | [] => []
  | second :: rest' =>
      inter first second ++ FindLinear first rest' ++ FindTriangular second rest'
  end.

Section Rules.
(** Names of targets, rules and expressions. *)
Variable name : Type.
(** ParseEntityNameFromJson, relative to the rule; see Names. *)
Variable parse : json -> option name.
(** The expression functions that can be read: expr_map gives a value. *)
Variable function : name -> bool.

(** user_rule.hpp:66-70 [AnonymousDefinition]. *)
Record anon := mkAnon {
  an_target : string;
  an_provider : string;
  an_rule_map : list (string * name)
}.

Fixpoint parse_all (l : list json) : option (list name) :=
  match l with
  | [] => Some []
  | v :: l' =>
      match parse v with
      | None => None
      | Some n => match parse_all l' with Some r => Some (n :: r) | None => None end
      end
  end.

(** The entries of an object one by one; the first failure ends it. *)
Fixpoint map_entries {A} (f : json -> option A) (m : list (string * json))
  : option (list (string * A)) :=
  match m with
  | [] => Some []
  | (k, v) :: m' =>
      match f v with
      | None => None
      | Some a => match map_entries f m' with Some r => Some ((k, a) :: r) | None => None end
      end
  end.

(** rule_map.cpp:159-206 [ReadImplicitObject]. *)
Definition ReadImplicitObject (m : list (string * json)) : option (list (string * list name)) :=
  match GetOrDefault m "implicit" (JObj []) with
  | JObj o => map_entries (fun v => match v with JArr l => parse_all l | _ => None end) o
  | _ => None
  end.

(** rule_map.cpp:53-157 [ReadAnonymousObject]. *)
Definition read_anon (v : json) : option anon :=
  match v with
  | JObj d =>
      match alookup "target" d with
      | Some (JStr t) =>
          match alookup "provider" d with
          | Some (JStr p) =>
              match alookup "rule_map" d with
              | Some (JObj o) =>
                  match map_entries parse o with
                  | Some r => Some (mkAnon t p r)
                  | None => None
                  end
              | _ => None
              end
          | _ => None
          end
      | _ => None
      end
  | _ => None
  end.

Definition ReadAnonymousObject (m : list (string * json)) : option (list (string * anon)) :=
  match GetOrDefault m "anonymous" (JObj []) with
  | JObj o => map_entries read_anon o
  | _ => None
  end.

(** field_reader.hpp:186-221 [ReadEntityAliasesObject]. *)
Definition ReadEntityAliasesObject (m : list (string * json)) (k : string)
  : option (list (string * name)) :=
  match GetOrDefault m k (JObj []) with
  | JObj o => map_entries parse o
  | _ => None
  end.

(** rule_map.cpp:208-243 [ReadConfigTransitionsObject]; Expression::FromJson does
    not fail on values read from a file. *)
Definition ReadConfigTransitionsObject (m : list (string * json))
  : option (list (string * json)) :=
  match GetOrDefault m "config_transitions" (JObj []) with
  | JObj o => Some o
  | _ => None
  end.

(** [UserRule], user_rule.hpp:58-345.  A transition is an expression over the
    variables and imports of the rule, or (None) the empty transition. *)
Record rule := mkRule {
  r_target_fields : list string;
  r_string_fields : list string;
  r_config_fields : list string;
  r_implicit : list (string * list name);
  r_anonymous : list (string * anon);
  r_config_vars : list string;
  r_tainted : list string;
  r_transitions : list (string * option json);
  r_expression : json;
  r_imports : list (string * name)
}.

(** unordered_map::emplace: present entries are kept. *)
Definition emplace {A} (k : string) (v : A) (l : list (string * A)) : list (string * A) :=
  match alookup k l with Some _ => l | None => l ++ [(k, v)] end.

(** user_rule.hpp:156-168: fields without a transition get the empty one. *)
Definition default_transitions (fields : list string) (l : list (string * option json)) :=
  fold_left (fun l f => emplace f None l) fields l.

(** user_rule.hpp:75-190 [UserRule::Create]. *)
Definition Create (target_fields string_fields config_fields : list string)
    (implicit : list (string * list name)) (anonymous : list (string * anon))
    (config_vars tainted : list string) (transitions : list (string * json))
    (expression : json) (imports : list (string * name)) : option rule :=
  let imf := sort (map fst implicit) in
  let anf := sort (map fst anonymous) in
  let tf := sort target_fields in
  let sf := sort string_fields in
  let cf := sort config_fields in
  match FindLinear kReservedKeywords [tf; sf; cf; imf; anf] with
  | _ :: _ => None
  | [] =>
      match FindTriangular tf [sf; cf; imf; anf] with
      | _ :: _ => None
      | [] =>
          let tt := sort (map fst transitions) in
          let dups := FindLinear tt [tf; imf; anf] in
          if forallb (fun t => existsb (String.eqb t) dups) tt
          then Some (mkRule tf sf cf implicit anonymous config_vars tainted
                       (default_transitions (tf ++ imf ++ anf)
                          (map (fun '(k, v) => (k, Some v)) transitions))
                       expression imports)
          else None
      end
  end.

(** rule_map.cpp:245-400 [CreateRuleMap] for the definition of one rule. *)
Definition ReadRule (def : json) : option rule :=
  match def with
  | JObj m =>
      match alookup "expression" m with
      | None => None
      | Some expr =>
      match ReadStringList m "target_fields" with
      | None => None
      | Some tf =>
      match ReadStringList m "string_fields" with
      | None => None
      | Some sf =>
      match ReadStringList m "config_fields" with
      | None => None
      | Some cf =>
      match ReadImplicitObject m with
      | None => None
      | Some im =>
      match ReadAnonymousObject m with
      | None => None
      | Some an =>
      match ReadStringList m "config_vars" with
      | None => None
      | Some cv =>
      match ReadStringList m "tainted" with
      | None => None
      | Some ta =>
      match ReadEntityAliasesObject m "imports" with
      | None => None
      | Some ia =>
      if forallb (fun '(_, n) => function n) ia
      then match ReadConfigTransitionsObject m with
           | None => None
           | Some tr => Create tf sf cf im an cv ta tr expr ia
           end
      else None
      end end end end end end end end end
  | _ => None
  end.

(** user_rule.hpp:310-327 [ComputeExpectedEntries]: the keys expected in targets
    of this type; others are warned about, target_map.cpp:132. *)
Definition ExpectedFields (r : rule) : list string :=
  r_target_fields r ++ r_string_fields r ++ r_config_fields r ++ kReservedKeywords.
End Rules.
