(** Model of the analysis of configured targets:
    src/buildtool/build_engine/target_map/{target_map,built_in_rules,export,absent_target_map}.cpp and
    result_map.hpp.

    Every rule is a program that may request the analysis of further configured targets and continues
    with their results ([SubCallerPtr]); it ends with a result ([SetterPtr]), a fatal error ([LoggerPtr])
    or undefined behaviour. How requests are scheduled is the subject of Async/ and Dag/. *)
From Coq Require Import String Ascii List Bool Arith.
From Verif Require Import Common.Strs LinkedMap.Model Path.Model Expr.Json Expr.Model Describe.Model.
From Verif Require Import Analysis.Stage.
Import ListNotations.
Local Open Scope string_scope.
Local Open Scope list_scope.
Local Open Scope nat_scope.

(** Target names ([EntityName]) by their JSON form, as in Expr/Model.v. *)
Definition target := json.

(** [ConfiguredTarget], configured_target.hpp:33-45. *)
Definition key := (target * env)%type.

(** [TargetResult], target_result.hpp:30-33: three maps. Their being maps is checked where results are
    constructed (target_map.cpp:997-1077). *)
Record tresult := mkResult { t_stage : items; t_provides : items; t_runfiles : items }.

(** [TargetResult::is_cacheable], target_result.hpp:34. *)
Definition result_expr (r : tresult) : expr :=
  EResult (EMap (t_stage r)) (EMap (t_provides r)) (EMap (t_runfiles r)) (IsCacheable (EMap (t_provides r))).

(** [AnalysedTarget], analysed_target.hpp:35-180, with [TargetGraphInformation]: the node (none for source
    targets) and the nodes of the declared, implicit and anonymous dependencies. Sets are lists; those the
    code keeps in [std::set] are sorted. *)
Record analysed := mkAnalysed {
  an_result : tresult;
  an_actions : list raction;
  an_blobs : list string;
  an_trees : list (list (string * json));
  an_overlays : list (list json * bool);
  an_vars : list string;
  an_tainted : list string;
  an_implied : list string;
  an_node : option key;
  an_deps : list (option key) * list (option key) * list (option key)
}.

(** [sort_and_deduplicate], src/utils/cpp/vector.hpp; also the content of a [std::set] after insertion of
    all elements. *)
Definition sorted_set (l : list string) : list string :=
  map fst (fold_left (fun m k => aemplace k tt m) l []).

Definition mem (x : string) (l : list string) : bool := existsb (String.eqb x) l.

(** ** Expression evaluation with provided functions

    Evaluating an expression in a configuration is an arbitrary terminating strategy of calls to the
    functions the rule provides ([FunctionMap]), which depends only on the expression, the configuration
    and the values those calls return. The arguments of a call are already evaluated; [may_fail] and
    [no_cache] are the unevaluated fields (target_map.cpp:694 and 728). The answer [None] is the case of
    DEP_PROVIDES without such a provider, after which the evaluator evaluates the default. *)
Record action_args := mkArgs {
  g_inputs : expr; g_outs : expr; g_out_dirs : expr; g_cmd : expr; g_cwd : expr; g_env : expr;
  g_may_fail : expr; g_fail_message : expr; g_no_cache : expr; g_timeout : expr; g_properties : expr
}.

Inductive call :=
| CField (name : expr)
| COuts (dep transition : expr)
| CRunfiles (dep transition : expr)
| CDepArtifacts (dep transition : expr)
| CDepRunfiles (dep transition : expr)
| CDepProvides (dep transition provider : expr)
| CAction (a : action_args)
| CBlob (data : expr)
| CSymlink (data : expr)
| CTree (v : expr)
| COverlay (disjoint : bool) (v : expr)
| CValueNode (v : expr)
| CAbstractNode (node_type string_fields target_fields : expr)
| CResult (artifacts runfiles provides : expr).

Inductive script :=
| SRet (v : expr)
| SErr
| SCall (c : call) (k : option expr -> script).

(** ** Descriptions of targets *)

(** [UserRule::AnonymousDefinition], user_rule.hpp:66-70. *)
Record anon_def := mkAnon { ad_target : string; ad_provider : string; ad_rule_map : expr }.

(** [UserRule], user_rule.hpp. The expression functions (defining expression, transitions) include their
    own restriction to variables and imports. Unordered maps are lists, in any order. *)
Record rule := mkRule {
  r_target_fields : list string;
  r_string_fields : list string;
  r_config_fields : list string;
  r_implicit : list (string * list target);
  r_anonymous : list (string * anon_def);
  r_config_vars : list string;
  r_tainted : list string;
  r_transitions : string -> expr;
  r_expression : expr
}.

(** [TargetData], target_map.cpp:106-126. *)
Record target_data := mkData {
  td_vars : list string;
  td_config : string -> expr;
  td_string : string -> expr;
  td_target : string -> expr;
  td_tainted : expr;
  td_parse_names : bool
}.

(** What the files of the repository say about a target: [CreateTargetMap], target_map.cpp:1920-2110,
    with [withTargetsFile], 1497-1618, and [withTargetNode], 1621-1710, up to the point where a rule is
    applied. Fields are those of the description after defaults. *)
Inductive tdef :=
| DError                                                    (* no type, unknown rule, unreadable, ... *)
| DSource (stage : items)                                   (* source file, implicit or explicit; symlink *)
| DGlob (stages : list items)                               (* the matching source files *)
| DKnownTree (name : string) (tree : json)                  (* tree reference, tree known *)
| DSourceTree (name : string) (children : list target)      (* tree reference, else *)
| DValueNode (result : tresult)
| DRule (r : rule) (d : target_data)
| DBlobGen (type : object_type) (vars : list string) (deps name data tainted : expr)
| DTree (disjoint_overlay : option bool) (vars : list string) (deps name tainted : expr)
| DInstall (vars : list string) (deps : expr) (files : expr) (dirs tainted : expr)
| DGeneric (vars : list string) (deps outs out_dirs cmds cwd env sh timeout props tainted : expr)
| DConfigure (vars : list string) (target config tainted : expr)
| DExport (flexible : list string) (target fixed : expr)
| DAbsent (flexible : list string).

(** Answer of the target cache, or of the serve endpoint if the cache has no entry:
    export.cpp:151-215, absent_target_map.cpp:85-150. [SEntry] comes with the result and the implied
    export targets of the entry, or nothing if the entry cannot be read. *)
Inductive served :=
| SNothing
| SFailure
| SEntry (content : option (tresult * list string)).

(** Everything outside of the analysis. [w_hash] is SHA256 as bytes, [w_blob] the hash function of the
    storage as (hash, size), [w_cache_key] the repository key with [ComputeKey] (none if not eligible). *)
Record world := mkWorld {
  w_definition : target -> tdef;
  w_parse : target -> expr -> option target;           (* ParseEntityNameFromExpression, in the context of a target *)
  w_eval : expr -> env -> script;
  w_anon : expr -> expr -> target;                     (* AnonymousTarget of a rule map and a node *)
  w_target_eqb : target -> target -> bool;
  w_expr_eqb : expr -> expr -> bool;
  w_ndump : num -> string;
  w_ftext : num -> string;
  w_hash : string -> string;
  w_blob : string -> digest;
  w_node_value : expr -> json;                         (* description of a value node *)
  w_node_abstract : string -> items -> items -> json;  (* description of an abstract node *)
  w_same_config : env -> env -> bool;                  (* Configuration::operator== *)
  w_cache_key : target -> env -> option string;
  w_served : string -> served;                         (* by cache key *)
  w_served_absent : string -> served
}.

Inductive prog :=
| PDone (a : analysed)
| PFail
| PCrash
| PRequest (ks : list key) (k : list analysed -> prog).

Definition pbind {A} (x : option A) (f : A -> prog) : prog :=
  match x with Some a => f a | None => PFail end.

Definition bind {A B} (x : option A) (f : A -> option B) : option B :=
  match x with Some a => f a | None => None end.

Section World.
Variable W : world.

Definition eqt := w_target_eqb W.
Definition eqe := w_expr_eqb W.

(** ** Provided functions *)

(** [deps_by_transition]: the results of the dependencies by name and transition; [emplace] keeps the
    first. *)
Definition dep_entry := ((target * expr) * analysed)%type.
Definition same_dep (a b : target * expr) : bool := eqt (fst a) (fst b) && eqe (snd a) (snd b).
Definition find_dep (deps : list dep_entry) (k : target * expr) : option analysed :=
  option_map snd (find (fun d => same_dep (fst d) k) deps).
Fixpoint by_transition (keys : list (target * expr)) (vals : list analysed) (acc : list dep_entry) : list dep_entry :=
  match keys, vals with
  | k :: ks, v :: vs =>
      by_transition ks vs (if existsb (fun d => same_dep (fst d) k) acc then acc else acc ++ [(k, v)])
  | _, _ => acc
  end.

(** Effects of the defining expression, target_map.cpp:522-526. *)
Record effects := mkEffects {
  e_actions : list raction; e_blobs : list string; e_trees : list (list (string * json)); e_overlays : list (list json * bool)
}.
Definition no_effects := mkEffects [] [] [] [].

(** Running a strategy with functions that may have effects; [None] is an evaluation error. *)
Definition handler := call -> effects -> option (option expr * effects).
Fixpoint run (h : handler) (s : script) (e : effects) : option (expr * effects) :=
  match s with
  | SRet v => Some (v, e)
  | SErr => None
  | SCall c k => match h c e with Some (a, e') => run h (k a) e' | None => None end
  end.

(** No functions, e.g. [Evaluate(param_config, {}, ...)]. *)
Definition no_functions : handler := fun _ _ => None.
Definition evaluate (ex : expr) (c : env) : option expr :=
  option_map fst (run no_functions (w_eval W ex c) no_effects).

Definition keys_expr (m : items) : expr := EList (map (fun p => EStr (fst p)) m).   (* utils.cpp:99-108 *)

(** [obtainTargetByName], utils.cpp:39-72. *)
Definition obtainTargetByName (cur : target) (deps : list dep_entry) (dep transition : expr) : option analysed :=
  bind (w_parse W cur dep) (fun t => find_dep deps (t, transition)).

(** [obtainTarget], utils.cpp:74-97. *)
Definition obtainTarget (deps : list dep_entry) (dep transition : expr) : option analysed :=
  match dep with EName t => find_dep deps (t, transition) | _ => None end.

(** [string_fields_fcts], target_map.cpp:456-485, built_in_rules.cpp:186-215, 1152-1181. *)
Definition string_functions (cur : target) (deps : list dep_entry) : handler := fun c e =>
  match c with
  | COuts dep tr => bind (obtainTargetByName cur deps dep tr) (fun a => Some (Some (keys_expr (t_stage (an_result a))), e))
  | CRunfiles dep tr => bind (obtainTargetByName cur deps dep tr) (fun a => Some (Some (keys_expr (t_runfiles (an_result a))), e))
  | _ => None
  end.
Definition evaluate_string (cur : target) (deps : list dep_entry) (ex : expr) (c : env) : option expr :=
  option_map fst (run (string_functions cur deps) (w_eval W ex c) no_effects).

(** FIELD, target_map.cpp:528-543 and 1190-1205. [params] is an unordered map; later [emplace]s of a
    present name have no effect. *)
Definition field (params : list (string * expr)) (name : expr) : option expr :=
  match name with EStr n => alookup n params | _ => None end.

Definition transition_functions (params : list (string * expr)) : handler := fun c e =>
  match c with
  | CField name => bind (field params name) (fun v => Some (Some v, e))
  | _ => None
  end.

Definition strings (v : expr) : option (list string) :=
  match v with
  | EList l => if forallb (fun x => match x with EStr _ => true | _ => false end) l
               then Some (map string_of l) else None
  | _ => None
  end.
Definition string_map (v : expr) : option items :=
  match v with
  | EMap m => if forallb (fun p => match snd p with EStr _ => true | _ => false end) m then Some m else None
  | _ => None
  end.
Definition guard (b : bool) : option unit := if b then Some tt else None.

(** All entries of the outputs that are also output directories, e.g. target_map.cpp:628-645. *)
Definition disjoint (a b : list string) : bool := forallb (fun x => negb (mem x b)) a.

(** A normalised, conflict-free stage: target_map.cpp:574-600, 1002-1035, 1036-1062. *)
Definition checked_stage (v : expr) : option items :=
  match v with
  | EMap m =>
      if all_artifacts m then
        match artifacts_tree eqe m with
        | inl _ => None
        | inr n => match tree_conflict n with Some _ => None | None => Some n end
        end
      else None
  | _ => None
  end.

Definition emap_insert_all (names : list string) (f : string -> expr) (acc : items) : items :=
  fold_left (fun m o => aemplace o (f o) m) names acc.

(** ACTION, target_map.cpp:572-809. Simplification: the error checks are made after all arguments are
    evaluated, so the order of effects of nested evaluations and of the empty tree added for the working
    directory can differ. *)
Definition do_action (rule_tainted : list string) (g : action_args) (e : effects) : option (option expr * effects) :=
  bind (checked_stage (g_inputs g)) (fun inputs =>
  bind (strings (g_outs g)) (fun outs =>
  bind (strings (g_out_dirs g)) (fun out_dirs =>
  bind (guard (negb (is_nil outs && is_nil out_dirs))) (fun _ =>
  let outs_norm := sorted_set (map ToNormalPath outs) in
  let out_dirs_norm := sorted_set (map ToNormalPath out_dirs) in
  bind (guard (disjoint outs_norm out_dirs_norm)) (fun _ =>
  bind (strings (g_cmd g)) (fun cmd =>
  bind (guard (negb (is_nil cmd))) (fun _ =>
  match g_cwd g with
  | EStr cwd =>
      bind (guard (PathIsNonUpwards cwd)) (fun _ =>
      let '(final_inputs, new_trees) := add_dir_for (w_ndump W) (w_hash W) cwd inputs in
      bind (string_map (g_env g)) (fun env_m =>
      bind (strings (g_may_fail g)) (fun may_fail_l =>
      bind (guard (forallb (fun x => mem x rule_tainted) may_fail_l)) (fun _ =>
      bind (if is_nil may_fail_l then Some None
            else match g_fail_message g with EStr m => Some (Some m) | _ => None end) (fun may_fail =>
      bind (strings (g_no_cache g)) (fun no_cache_l =>
      bind (guard (forallb (fun x => mem x rule_tainted) no_cache_l)) (fun _ =>
      let no_cache := negb (is_nil no_cache_l) in
      bind (match g_timeout g with ENum n => Some n | ENone => Some one | _ => None end) (fun timeout =>
      bind (string_map (match g_properties g with ENone => EMap [] | v => v end)) (fun props =>
      let a := createAction (w_ndump W) (w_hash W) (w_ftext W) outs_norm out_dirs_norm cmd cwd env_m may_fail no_cache
                 timeout props final_inputs in
      let art o := EArt (art_ToJson (AAction (ra_id a) (ToNormalPath o))) in
      Some (Some (EMap (emap_insert_all out_dirs art (emap_insert_all outs art []))),
            mkEffects (e_actions e ++ [a]) (e_blobs e) (e_trees e ++ new_trees) (e_overlays e)))))))))))
  | _ => None
  end))))))).

(** BLOB and SYMLINK, target_map.cpp:810-845. *)
Definition known (type : object_type) (data : string) : expr :=
  EArt (art_ToJson (AKnown (w_blob W data) type None)).
Definition do_blob (type : object_type) (data : expr) (e : effects) : option (option expr * effects) :=
  match data with
  | EStr s =>
      bind (guard (match type with Symlink => PathIsNonUpwards s | _ => true end)) (fun _ =>
      Some (Some (known type s), mkEffects (e_actions e) (e_blobs e ++ [s]) (e_trees e) (e_overlays e)))
  | _ => None
  end.

Definition tree_artifact (content : list (string * json)) : expr :=
  EArt (art_ToJson (ATree (tree_id (w_ndump W) (w_hash W) content))).

(** TREE, target_map.cpp:846-854. *)
Definition do_tree (v : expr) (e : effects) : option (option expr * effects) :=
  bind (ExprToTree v) (fun content =>
  Some (Some (tree_artifact content), mkEffects (e_actions e) (e_blobs e) (e_trees e ++ [content]) (e_overlays e))).

(** TREE_OVERLAY and DISJOINT_TREE_OVERLAY, target_map.cpp:855-908. *)
Fixpoint expr_trees (l : list expr) : option (list (list (string * json))) :=
  match l with
  | [] => Some []
  | v :: r => bind (ExprToTree v) (fun c => bind (expr_trees r) (fun cs => Some (c :: cs)))
  end.
Definition do_overlay (disj : bool) (v : expr) (e : effects) : option (option expr * effects) :=
  match v with
  | EList l =>
      bind (expr_trees l) (fun cs =>
      let parts := map (fun c => art_ToJson (ATree (tree_id (w_ndump W) (w_hash W) c))) cs in
      Some (Some (EArt (art_ToJson (ATreeOverlay (overlay_id (w_ndump W) (w_hash W) parts disj)))),
            mkEffects (e_actions e) (e_blobs e) (e_trees e ++ cs) (e_overlays e ++ [(parts, disj)])))
  | _ => None
  end.

(** VALUE_NODE, target_map.cpp:910-918, ABSTRACT_NODE, 919-996 (the flag is [Abstract::IsCacheable],
    target_node.cpp: both field maps). *)
Definition is_result (v : expr) : bool := match v with EResult _ _ _ _ => true | _ => false end.
Definition is_node (v : expr) : bool := match v with ENode _ _ => true | _ => false end.
Definition is_string (v : expr) : bool := match v with EStr _ => true | _ => false end.
Definition entries_ok (f : expr -> bool) (m : items) : bool :=
  forallb (fun p => match snd p with EList l => forallb f l | _ => false end) m.
Definition do_node (c : call) : option expr :=
  match c with
  | CValueNode v => bind (guard (is_result v)) (fun _ => Some (ENode (w_node_value W v) (IsCacheable v)))
  | CAbstractNode (EStr ty) (EMap sf) (EMap tf) =>
      bind (guard (entries_ok is_string sf && forallb (fun p => negb (mem (fst p) (keys tf))) sf && entries_ok is_node tf))
        (fun _ => Some (ENode (w_node_abstract W ty sf tf) (IsCacheable (EMap sf) && IsCacheable (EMap tf))))
  | _ => None
  end.

(** RESULT, target_map.cpp:997-1077. *)
Definition do_result (artifacts runfiles provides : expr) : option expr :=
  bind (checked_stage artifacts) (fun a =>
  bind (checked_stage runfiles) (fun r =>
  match provides with
  | EMap p => Some (result_expr (mkResult a p r))
  | _ => None
  end)).

(** [main_exp_fcts], target_map.cpp:527-1077. *)
Definition main_functions (rule_tainted : list string) (params : list (string * expr)) (deps : list dep_entry) : handler :=
  fun c e =>
  match c with
  | CField name => bind (field params name) (fun v => Some (Some v, e))
  | CDepArtifacts dep tr => bind (obtainTarget deps dep tr) (fun a => Some (Some (EMap (t_stage (an_result a))), e))
  | CDepRunfiles dep tr => bind (obtainTarget deps dep tr) (fun a => Some (Some (EMap (t_runfiles (an_result a))), e))
  | CDepProvides dep tr provider =>
      bind (obtainTarget deps dep tr) (fun a =>
      match provider with EStr p => Some (alookup p (t_provides (an_result a)), e) | _ => None end)
  | CAction g => do_action rule_tainted g e
  | CBlob d => do_blob File d e
  | CSymlink d => do_blob Symlink d e
  | CTree v => do_tree v e
  | COverlay disj v => do_overlay disj v e
  | CValueNode _ | CAbstractNode _ _ _ => bind (do_node c) (fun v => Some (Some v, e))
  | CResult a r p => bind (do_result a r p) (fun v => Some (Some v, e))
  | COuts _ _ | CRunfiles _ _ => None
  end.

(** ** Common parts of the rules *)

(** [getTainted], utils.cpp:203-237. *)
Definition getTainted (c : env) (tainted_exp : expr) : option (list string) :=
  bind (evaluate tainted_exp c) strings.

(** [std::includes] of the sorted sets. *)
Definition taint_ok (tainted : list string) (deps : list analysed) : bool :=
  forallb (fun d => forallb (fun x => mem x tainted) (an_tainted d)) deps.

Definition implied_of (deps : list analysed) : list string := sorted_set (flat_map an_implied deps).

Definition map_expr (v : expr) : env := match v with EMap m => Link Null Null m | _ => Null end.
(** [Configuration::Update(ExpressionPtr)]. *)
Definition update (c : env) (tr : expr) : env := UpdateExpr c (map_expr tr).
Definition fixed_by (tr : expr) (x : string) : bool := VariableFixed (map_expr tr) x.

(** ** User-defined rules *)

(** Evaluation of a list of named fields to lists of strings: config fields, target_map.cpp:1154-1184, and
    string fields, 488-517. *)
Fixpoint eval_fields (ev : expr -> option expr) (exprs : string -> expr) (names : list string)
    (params : list (string * expr)) : option (list (string * expr)) :=
  match names with
  | [] => Some params
  | n :: r =>
      bind (ev (exprs n)) (fun v =>
      bind (strings v) (fun _ => eval_fields ev exprs r (params ++ [(n, v)])))
  end.

(** [isTransition], target_map.cpp:1119-1136. *)
Definition is_transition (v : expr) : option (list expr) :=
  match v with
  | EList l => if forallb (fun x => match x with EMap _ => true | _ => false end) l then Some l else None
  | _ => None
  end.

(** The transitions of all fields, target_map.cpp:1207-1276. *)
Fixpoint eval_transitions (r : rule) (params : list (string * expr)) (c : env) (names : list string)
  : option (list (string * list expr)) :=
  match names with
  | [] => Some []
  | n :: rest =>
      bind (option_map fst (run (transition_functions params) (w_eval W (r_transitions r n) c) no_effects)) (fun v =>
      bind (is_transition v) (fun l =>
      bind (eval_transitions r params c rest) (fun ts => Some ((n, l) :: ts))))
  end.
Definition transitions_of (ts : list (string * list expr)) (n : string) : list expr :=
  match alookup n ts with Some l => l | None => [] end.

(** The targets named by an evaluated field, target_map.cpp:1311-1339. *)
Fixpoint dep_names (cur : target) (parse : bool) (l : list expr) : option (list target) :=
  match l with
  | [] => Some []
  | v :: r =>
      bind (if parse then w_parse W cur v else match v with EName t => Some t | _ => None end) (fun t =>
      bind (dep_names cur parse r) (fun ts => Some (t :: ts)))
  end.

(** One target field: name and the keys in order (transition first, then target), with the positions
    needed for anonymous targets given by the name of the field. target_map.cpp:1289-1360. *)
Definition transitioned (ts : list expr) (names : list target) : list (target * expr) :=
  flat_map (fun tr => map (fun t => (t, tr)) names) ts.
Fixpoint target_fields (cur : target) (d : target_data) (c : env) (ts : list (string * list expr)) (fields : list string)
    (params : list (string * expr)) (keys : list (string * (target * expr)))
  : option (list (string * expr) * list (string * (target * expr))) :=
  match fields with
  | [] => Some (params, keys)
  | f :: r =>
      bind (evaluate (td_target d f) c) (fun v =>
      match v with
      | EList l =>
          bind (dep_names cur (td_parse_names d) l) (fun names =>
          target_fields cur d c ts r (params ++ [(f, EList (map EName names))])
            (keys ++ map (pair f) (transitioned (transitions_of ts f) names)))
      | _ => None
      end)
  end.
(** Implicit targets, target_map.cpp:1361-1385. *)
Definition implicit_keys (r : rule) (ts : list (string * list expr)) : list (string * (target * expr)) :=
  flat_map (fun p => map (pair (fst p)) (transitioned (transitions_of ts (fst p)) (snd p))) (r_implicit r).

(** Nodes provided for an anonymous field, target_map.cpp:1412-1452: the values of the dependencies whose
    field is the one named in the definition. *)
Fixpoint anon_names (def : anon_def) (fields : list string) (vals : list analysed) : option (list target) :=
  match fields, vals with
  | f :: fs, v :: vs =>
      if String.eqb f (ad_target def) then
        match alookup (ad_provider def) (t_provides (an_result v)) with
        | Some (EList l) =>
            bind (guard (forallb is_node l)) (fun _ =>
            bind (anon_names def fs vs) (fun r => Some (map (w_anon W (ad_rule_map def)) l ++ r)))
        | _ => None
        end
      else anon_names def fs vs
  | _, _ => Some []
  end.
(** All anonymous definitions, target_map.cpp:1411-1473. *)
Fixpoint anonymous (ts : list (string * list expr)) (fields : list string) (vals : list analysed) (defs : list (string * anon_def))
    (params : list (string * expr)) (keys : list (target * expr)) : option (list (string * expr) * list (target * expr)) :=
  match defs with
  | [] => Some (params, keys)
  | (name, def) :: r =>
      bind (anon_names def fields vals) (fun names =>
      anonymous ts fields vals r (params ++ [(name, EList (map EName names))])
        (keys ++ transitioned (transitions_of ts name) names))
  end.

Definition keys_in (c : env) (ks : list (target * expr)) : list key :=
  map (fun k => (fst k, update c (snd k))) ks.

(** [withDependencies], target_map.cpp:363-1117. *)
Definition withDependencies (t : target) (c : env) (r : rule) (d : target_data) (tkeys : list (target * expr))
    (vals : list analysed) (declared declared_and_implicit : nat) (params : list (string * expr)) : prog :=
  let deps := by_transition tkeys vals [] in
  let effective_vars :=
    td_vars d ++ r_config_vars r ++
    flat_map (fun e => filter (fun x => negb (fixed_by (snd (fst e)) x)) (an_vars (snd e))) deps in
  let effective_conf := Prune c effective_vars in
  let nodes := map an_node vals in
  pbind (getTainted (Prune c (td_vars d)) (td_tainted d)) (fun tainted0 =>
  let tainted := sorted_set (tainted0 ++ r_tainted r) in
  if taint_ok tainted vals then
    pbind (eval_fields (fun ex => evaluate_string t deps ex (Prune c (td_vars d))) (td_string d) (r_string_fields r) params)
      (fun params' =>
    pbind (run (main_functions (r_tainted r) params' deps) (w_eval W (r_expression r) (Prune c (r_config_vars r))) no_effects)
      (fun '(v, e) =>
    match v with
    | EResult (EMap s) (EMap p) (EMap rf) _ =>
        PDone (mkAnalysed (mkResult s p rf) (e_actions e) (e_blobs e) (e_trees e) (e_overlays e)
                 effective_vars tainted (implied_of vals) (Some (t, effective_conf))
                 (firstn declared nodes,
                  firstn (declared_and_implicit - declared) (skipn declared nodes),
                  skipn declared_and_implicit nodes))
    | _ => PFail
    end))
  else PFail).

(** [withRuleDefinition], target_map.cpp:1138-1493. *)
Definition withRuleDefinition (t : target) (c : env) (r : rule) (d : target_data) : prog :=
  let param_config := Prune c (td_vars d) in
  let expression_config := Prune c (r_config_vars r) in
  pbind (eval_fields (fun ex => evaluate ex param_config) (td_config d) (r_config_fields r) []) (fun params0 =>
  pbind (eval_transitions r params0 expression_config
           (r_target_fields r ++ map fst (r_implicit r) ++ map fst (r_anonymous r))) (fun ts =>
  pbind (target_fields t d param_config ts (r_target_fields r) params0 []) (fun '(params1, declared) =>
  let all := declared ++ implicit_keys r ts in
  let params2 := params1 ++ map (fun p => (fst p, EList (map EName (snd p)))) (r_implicit r) in
  let tkeys := map snd all in
  PRequest (keys_in c tkeys) (fun vals =>
  pbind (anonymous ts (map fst all) vals (r_anonymous r) params2 []) (fun '(params3, akeys) =>
  PRequest (keys_in c akeys) (fun avals =>
  withDependencies t c r d (tkeys ++ akeys) (vals ++ avals) (length declared) (length all) params3)))))).

(** ** Built-in rules, built_in_rules.cpp *)

(** Targets named by a "deps" field, e.g. built_in_rules.cpp:343-366. *)
Definition deps_list (cur : target) (v : expr) : option (list target) :=
  match v with EList l => dep_names cur true l | _ => None end.

Definition plain_deps (c : env) (ts : list target) : list key := map (fun t => (t, c)) ts.

Definition source_target (stage : items) : analysed :=
  mkAnalysed (mkResult stage [] stage) [] [] [] [] [] [] [] None ([], [], []).

(** [BlobGenRuleWithDeps], built_in_rules.cpp:144-312. *)
Definition blob_gen_with_deps (type : object_type) (vars : list string) (name data tainted_exp : expr)
    (t : target) (c : env) (names : list target) (vals : list analysed) : prog :=
  let deps := by_transition (map (fun n => (n, EMap [])) names) vals [] in
  let param_config := Prune c vars in
  let vars_set := vars ++ flat_map an_vars vals in
  pbind (getTainted param_config tainted_exp) (fun tainted =>
  if taint_ok tainted vals then
    pbind (evaluate_string t deps name param_config) (fun name_val =>
    match name_val with
    | EStr n =>
        pbind (evaluate_string t deps data param_config) (fun data_val =>
        match data_val with
        | EStr s =>
            if match type with Symlink => PathIsNonUpwards s | _ => true end then
              let stage := [(n, known type s)] in
              PDone (mkAnalysed (mkResult stage [] stage) [] [s] [] [] vars_set (sorted_set tainted) (implied_of vals)
                       (Some (t, Prune c vars_set)) (map an_node vals, [], []))
            else PFail
        | _ => PFail
        end)
    | _ => PFail
    end)
  else PFail).

(** [BlobGenRule], built_in_rules.cpp:314-401; [FileGenRule] and [SymlinkRule] choose the type. *)
Definition blob_gen (type : object_type) (vars : list string) (deps name data tainted_exp : expr) (t : target) (c : env) : prog :=
  pbind (evaluate deps (Prune c vars)) (fun v =>
  pbind (deps_list t v) (fun names =>
  PRequest (plain_deps c names) (fun vals =>
  blob_gen_with_deps type vars name data tainted_exp t c names vals))).

(** Union of stages that must not conflict: [FindConflictingDuplicate] and [map_t{stage, to_stage}],
    built_in_rules.cpp:532-546, 811-823, 857-877; by C03 exactly the disjoint union. *)
Fixpoint find_conflict (a b : items) : option string :=
  match b with
  | [] => None
  | (k, v) :: r =>
      match alookup k a with
      | Some w => if eqe w v then find_conflict a r else Some k
      | None => find_conflict a r
      end
  end.
Definition overwrite (a b : items) : items := fold_left (fun m p => ainsert (fst p) (snd p) m) b a.
Definition merge (a b : items) : option items :=
  match find_conflict a b with Some _ => None | None => Some (overwrite a b) end.
Fixpoint merge_all (acc : items) (l : list items) : option items :=
  match l with
  | [] => Some acc
  | m :: r => bind (merge acc m) (fun acc' => merge_all acc' r)
  end.

(** [TreeRuleWithDeps], built_in_rules.cpp:439-586. *)
Definition tree_with_deps (disj : option bool) (vars : list string) (name : string) (tainted_exp : expr)
    (t : target) (c : env) (vals : list analysed) : prog :=
  let vars_set := vars ++ flat_map an_vars vals in
  pbind (getTainted (Prune c vars) tainted_exp) (fun tainted =>
  if taint_ok tainted vals then
    let finish artifact trees overlays :=
      let stage := [(name, artifact)] in
      PDone (mkAnalysed (mkResult stage [] stage) [] [] trees overlays vars_set (sorted_set tainted) (implied_of vals)
               (Some (t, Prune c vars_set)) (map an_node vals, [], [])) in
    match disj with
    | Some dj =>
        let cs := map (fun v => tree_content (t_stage (an_result v))) vals in
        let parts := map (fun x => art_ToJson (ATree (tree_id (w_ndump W) (w_hash W) x))) cs in
        finish (EArt (art_ToJson (ATreeOverlay (overlay_id (w_ndump W) (w_hash W) parts dj)))) cs [(parts, dj)]
    | None =>
        pbind (merge_all [] (map (fun v => overwrite (t_runfiles (an_result v)) (t_stage (an_result v))) vals)) (fun stage =>
        match tree_conflict stage with
        | Some _ => PFail
        | None => let content := tree_content stage in finish (tree_artifact content) [content] []
        end)
    end
  else PFail).

(** [CommonTreeRule], built_in_rules.cpp:588-692; [TreeRule], [TreeOverlayRule], [DisjointTreeOverlayRule]. *)
Definition tree_rule (disj : option bool) (vars : list string) (deps name tainted_exp : expr) (t : target) (c : env) : prog :=
  pbind (evaluate deps (Prune c vars)) (fun v =>
  pbind (deps_list t v) (fun names =>
  pbind (evaluate name (Prune c vars)) (fun nv =>
  match nv with
  | EStr n => PRequest (plain_deps c names) (fun vals => tree_with_deps disj vars n tainted_exp t c vals)
  | _ => PFail
  end))).

(** [deps_by_target]: by name only, the first stays; built_in_rules.cpp:749-757. *)
Definition by_target (names : list target) (vals : list analysed) (t : target) : option analysed :=
  option_map snd (find (fun p => eqt (fst p) t) (combine names vals)).

(** Files of an install target, built_in_rules.cpp:826-852. *)
Fixpoint install_files (deps : target -> option analysed) (stage : items) (files : list (string * target)) (acc : items) : option items :=
  match files with
  | [] => Some acc
  | (path, t) :: r =>
      match alookup path stage with
      | Some _ => None
      | None =>
          bind (deps t) (fun a =>
          let artifacts := if is_nil (t_stage (an_result a)) then t_runfiles (an_result a) else t_stage (an_result a) in
          match artifacts with
          | [(_, v)] => install_files deps stage r (aemplace path v acc)
          | _ => None
          end)
      end
  end.
(** One directory, built_in_rules.cpp:857-869. *)
Definition install_dir (dir : string) (a : analysed) : items :=
  fold_left (fun m p => aemplace (ToNormalPath (append dir (fst p))) (snd p) m)
    (t_stage (an_result a) ++ t_runfiles (an_result a)) [].
Fixpoint install_dirs (deps : target -> option analysed) (dirs : list (target * string)) : option (list items) :=
  match dirs with
  | [] => Some []
  | (t, dir) :: r =>
      bind (deps t) (fun a => bind (install_dirs deps r) (fun l => Some (install_dir dir a :: l)))
  end.

(** [InstallRuleWithDeps], built_in_rules.cpp:736-899. *)
Definition install_with_deps (vars : list string) (tainted_exp : expr) (t : target) (c : env) (names : list target)
    (deps : list target) (files : list (string * target)) (dirs : list (target * string)) (vals : list analysed) : prog :=
  let find := by_target names vals in
  let vars_set := vars ++ flat_map an_vars vals in
  pbind (getTainted (Prune c vars) tainted_exp) (fun tainted =>
  if taint_ok tainted vals then
    pbind (fold_right (fun n acc => bind (find n) (fun a => bind acc (fun l => Some (t_runfiles (an_result a) :: l)))) (Some []) deps)
      (fun runfiles =>
    pbind (merge_all [] runfiles) (fun stage =>
    pbind (install_files find stage files []) (fun files_stage =>
    pbind (install_dirs find dirs) (fun dir_stages =>
    pbind (merge_all (overwrite stage files_stage) dir_stages) (fun final =>
    match tree_conflict final with
    | Some _ => PFail
    | None =>
        PDone (mkAnalysed (mkResult final [] final) [] [] [] [] vars_set (sorted_set tainted) (implied_of vals)
                 (Some (t, Prune c vars_set)) (map an_node vals, [], []))
    end)))))
  else PFail).

(** [InstallRule], built_in_rules.cpp:901-1080. *)
Fixpoint eval_files (t : target) (c : env) (m : items) : option (list (string * target)) :=
  match m with
  | [] => Some []
  | (path, ex) :: r =>
      bind (evaluate ex c) (fun v => bind (w_parse W t v) (fun n => bind (eval_files t c r) (fun l => Some ((path, n) :: l))))
  end.
Fixpoint eval_dirs (t : target) (l : list expr) : option (list (target * string)) :=
  match l with
  | [] => Some []
  | EList [n; EStr dir] :: r => bind (w_parse W t n) (fun nt => bind (eval_dirs t r) (fun rest => Some ((nt, dir) :: rest)))
  | _ => None
  end.
Definition install_rule (vars : list string) (deps files dirs tainted_exp : expr) (t : target) (c : env) : prog :=
  let pc := Prune c vars in
  pbind (evaluate deps pc) (fun dv =>
  pbind (deps_list t dv) (fun dn =>
  match files with
  | EMap fm =>
      pbind (eval_files t pc fm) (fun fl =>
      pbind (evaluate dirs pc) (fun dirv =>
      match dirv with
      | EList dl =>
          pbind (eval_dirs t dl) (fun dirl =>
          let names := dn ++ map snd fl ++ map fst dirl in
          PRequest (plain_deps c names) (fun vals =>
          install_with_deps vars tainted_exp t c names dn fl dirl vals))
      | _ => PFail
      end))
  | _ => PFail
  end)).

(** [GenericRuleWithDeps], built_in_rules.cpp:1082-1529. *)
Definition generic_with_deps (vars : list string) (outs out_dirs cmds cwd env_e sh timeout props tainted_exp : expr)
    (t : target) (c : env) (names : list target) (vals : list analysed) : prog :=
  let deps := by_transition (map (fun n => (n, EMap [])) names) vals [] in
  let pc := Prune c vars in
  let ev ex := evaluate_string t deps ex pc in
  let vars_set := vars ++ flat_map (fun e => an_vars (snd e)) deps in
  pbind (getTainted pc tainted_exp) (fun tainted =>
  if taint_ok tainted vals then
    pbind (bind (ev outs) strings) (fun outs_l =>
    pbind (bind (ev out_dirs) strings) (fun out_dirs_l =>
    pbind (guard (negb (is_nil outs_l && is_nil out_dirs_l))) (fun _ =>
    let outs_n := sorted_set (map ToNormalPath outs_l) in
    let out_dirs_n := sorted_set (map ToNormalPath out_dirs_l) in
    pbind (guard (disjoint outs_n out_dirs_n)) (fun _ =>
    pbind (bind (ev cmds) strings) (fun cmd_l =>
    pbind (ev cwd) (fun cwd_v =>
    match cwd_v with
    | EStr wd =>
        pbind (guard (PathIsNonUpwards wd)) (fun _ =>
        pbind (bind (ev env_e) string_map) (fun env_m =>
        pbind (bind (ev sh) (fun v => strings (match v with ENone => EList [] | _ => v end))) (fun sh_l =>
        let sh_l := if is_nil sh_l then ["sh"; "-c"] else sh_l in
        pbind (bind (ev timeout) (fun v => match v with ENum n => Some n | ENone => Some one | _ => None end)) (fun scale =>
        pbind (bind (ev props) (fun v => string_map (match v with ENone => EMap [] | _ => v end))) (fun props_m =>
        let inputs := fold_left (fun m a => overwrite m (t_stage (an_result a))) vals
                        (fold_left (fun m a => overwrite m (t_runfiles (an_result a))) vals []) in
        match tree_conflict inputs with
        | Some _ => PFail
        | None =>
            let '(final, trees) := add_dir_for (w_ndump W) (w_hash W) wd inputs in
            let argv := sh_l ++ [String.concat "" (map (fun s => (s ++ String "010" "")%string) cmd_l)] in
            let a := createAction (w_ndump W) (w_hash W) (w_ftext W) outs_n out_dirs_n argv wd env_m None false scale props_m final in
            let art o := EArt (art_ToJson (AAction (ra_id a) o)) in
            let stage := emap_insert_all out_dirs_n art (emap_insert_all outs_n art []) in
            match tree_conflict stage with
            | Some _ => PFail
            | None =>
                PDone (mkAnalysed (mkResult stage [] []) [a] [] trees [] vars_set (sorted_set tainted) (implied_of vals)
                         (Some (t, Prune c vars_set)) (map an_node vals, [], []))
            end
        end)))))
    | _ => PFail
    end))))))
  else PFail).

(** [GenericRule], built_in_rules.cpp:1531-1606. If evaluating "deps" fails, [deps_value] is a null pointer
    and is dereferenced (line 1556). *)
Definition generic_rule (vars : list string) (deps outs out_dirs cmds cwd env_e sh timeout props tainted_exp : expr)
    (t : target) (c : env) : prog :=
  match evaluate deps (Prune c vars) with
  | None => PCrash
  | Some v =>
      pbind (deps_list t v) (fun names =>
      PRequest (plain_deps c names) (fun vals =>
      generic_with_deps vars outs out_dirs cmds cwd env_e sh timeout props tainted_exp t c names vals))
  end.

(** [ConfigureRule], built_in_rules.cpp:1608-1745. *)
Definition configure_rule (vars : list string) (target_e config_e tainted_exp : expr) (t : target) (c : env) : prog :=
  let pc := Prune c vars in
  pbind (bind (evaluate target_e pc) (w_parse W t)) (fun ct =>
  pbind (getTainted pc tainted_exp) (fun tainted =>
  match config_e with
  | EMap _ =>
      pbind (evaluate config_e pc) (fun tr =>
      match tr with
      | EMap _ =>
          PRequest [(ct, update c tr)] (fun vals =>
          match vals with
          | [a] =>
              if taint_ok tainted vals then
                let vars_set := filter (fun x => negb (fixed_by tr x)) (an_vars a) ++ vars in
                PDone (mkAnalysed (an_result a) [] [] [] [] vars_set (sorted_set tainted) (an_implied a)
                         (Some (t, Prune c vars_set)) ([an_node a], [], []))
              else PFail
          | _ => PCrash
          end)
      | _ => PFail
      end)
  | _ => PFail
  end)).

(** ** Export targets, export.cpp *)

(** A result taken from the cache or the serve endpoint: export.cpp:222-257, absent_target_map.cpp:156-195. *)
Definition from_entry (flexible : list string) (t : target) (c : env) (r : tresult) (implied : list string) : analysed :=
  mkAnalysed r [] [] [] [] flexible [] implied (Some (t, c)) ([], [], []).

(** [FinalizeExport], export.cpp:65-122. *)
Definition finalize_export (flexible : list string) (t : target) (ec : env) (cache_key : option string) (a : analysed) : prog :=
  if negb (is_nil (an_tainted a)) then PFail
  else if negb (IsCacheable (EMap (t_provides (an_result a)))) then PFail
  else
    let implied := match cache_key with Some k => sorted_set (an_implied a ++ [k]) | None => [] end in
    PDone (mkAnalysed (an_result a) [] [] [] [] flexible [] implied (Some (t, ec)) ([an_node a], [], [])).

(** [ExportRule], export.cpp:126-356, after the cache has been asked. *)
Definition export_uncached (flexible : list string) (target_e fixed : expr) (t : target) (ec : env) (cache_key : option string) : prog :=
  pbind (w_parse W t target_e) (fun et =>
  match fixed with
  | EMap m =>
      if existsb (fun p => VariableFixed ec (fst p)) m then PFail
      else
        PRequest [(et, update ec fixed)] (fun vals =>
        match vals with
        | [a] => finalize_export flexible t ec cache_key a
        | _ => PCrash
        end)
  | _ => PFail
  end).

Definition first_value (vals : list analysed) : prog := match vals with [a] => PDone a | _ => PCrash end.

Definition export_rule (flexible : list string) (target_e fixed : expr) (t : target) (c : env) : prog :=
  let ec := Prune c flexible in
  if w_same_config W c ec then
    match w_cache_key W t ec with
    | None => export_uncached flexible target_e fixed t ec None
    | Some k =>
        match w_served W k with
        | SFailure => PFail
        | SEntry (Some (r, implied)) => PDone (from_entry flexible t ec r implied)
        | SEntry None | SNothing => export_uncached flexible target_e fixed t ec (Some k)
        end
    end
  else PRequest [(t, ec)] first_value.

(** [WithFlexibleVariables], absent_target_map.cpp:49-204. *)
Definition absent_target (flexible : list string) (t : target) (c : env) : prog :=
  let ec := Prune c flexible in
  if w_same_config W c ec then
    match w_cache_key W t ec with
    | None => PFail
    | Some k =>
        match w_served_absent W k with
        | SEntry (Some (r, implied)) => PDone (from_entry flexible t ec r implied)
        | _ => PFail
        end
    end
  else PRequest [(t, ec)] first_value.

(** ** Source trees, target_map.cpp:1712-1854 *)
Fixpoint tree_entries (vals : list analysed) (acc : list (string * json)) : option (list (string * json)) :=
  match vals with
  | [] => Some acc
  | v :: r =>
      match t_runfiles (an_result v) with
      | (p, a) :: _ => tree_entries r (aemplace (ToNormalPath p) (artifact_of a) acc)
      | [] => None   (* the begin iterator of an empty map is dereferenced *)
      end
  end.
Definition source_tree (name : string) (children : list target) : prog :=
  PRequest (plain_deps (Link Null Null []) children) (fun vals =>
  match tree_entries vals [] with
  | None => PCrash
  | Some content =>
      let stage := [(name, tree_artifact content)] in
      PDone (mkAnalysed (mkResult stage [] stage) [] [] [content] [] [] [] [] None ([], [], []))
  end).

(** [GlobResult], target_map.cpp:1856-1878. *)
Definition glob_stage (stages : list items) : items := fold_left overwrite stages [].

(** The program of a configured target: the reader of [CreateTargetMap], target_map.cpp:1920-2110, with
    [HandleBuiltin], built_in_rules.cpp:1780-1800. *)
Definition program_of (k : key) : prog :=
  let '(t, c) := k in
  match w_definition W t with
  | DError => PFail
  | DSource stage => PDone (source_target stage)
  | DGlob stages => PDone (source_target (glob_stage stages))
  | DKnownTree name tree => PDone (source_target [(name, EArt tree)])
  | DSourceTree name children => source_tree name children
  | DValueNode r => PDone (mkAnalysed r [] [] [] [] [] [] [] None ([], [], []))
  | DRule r d => withRuleDefinition t c r d
  | DBlobGen type vars deps name data tainted => blob_gen type vars deps name data tainted t c
  | DTree disj vars deps name tainted => tree_rule disj vars deps name tainted t c
  | DInstall vars deps files dirs tainted => install_rule vars deps files dirs tainted t c
  | DGeneric vars deps outs out_dirs cmds cwd env_e sh timeout props tainted =>
      generic_rule vars deps outs out_dirs cmds cwd env_e sh timeout props tainted t c
  | DConfigure vars tgt config tainted => configure_rule vars tgt config tainted t c
  | DExport flexible tgt fixed => export_rule flexible tgt fixed t c
  | DAbsent flexible => absent_target flexible t c
  end.

(** ** Analysis *)

(** The analysis of a configured target ends with a result: its program, given the results of the targets
    it requests, ends with that result. *)
Inductive analyses : key -> analysed -> Prop :=
| an_intro k a : runs (program_of k) a -> analyses k a
with runs : prog -> analysed -> Prop :=
| runs_done a : runs (PDone a) a
| runs_request ks k vs a : all_analyse ks vs -> runs (k vs) a -> runs (PRequest ks k) a
with all_analyse : list key -> list analysed -> Prop :=
| all_nil : all_analyse [] []
| all_cons k ks v vs : analyses k v -> all_analyse ks vs -> all_analyse (k :: ks) (v :: vs).

(** It ends with undefined behaviour, after all requested targets have been analysed. *)
Inductive crashes : key -> Prop :=
| crashes_intro k : reaches_crash (program_of k) -> crashes k
with reaches_crash : prog -> Prop :=
| rc_now : reaches_crash PCrash
| rc_later ks k vs : all_analyse ks vs -> reaches_crash (k vs) -> reaches_crash (PRequest ks k)
| rc_dep ks k d : In d ks -> crashes d -> reaches_crash (PRequest ks k).

(** An executable form, for examples. *)
Inductive outcome := ODone (a : analysed) | OFail | OCrash | OFuel.
Fixpoint analyse_list (an : key -> outcome) (ks : list key) : list analysed + outcome :=
  match ks with
  | [] => inl []
  | k :: r =>
      match an k with
      | ODone a => match analyse_list an r with inl l => inl (a :: l) | inr o => inr o end
      | o => inr o
      end
  end.
Fixpoint exec (an : key -> outcome) (p : prog) : outcome :=
  match p with
  | PDone a => ODone a
  | PFail => OFail
  | PCrash => OCrash
  | PRequest ks k => match analyse_list an ks with inl vs => exec an (k vs) | inr o => o end
  end.
Fixpoint analyse (fuel : nat) (k : key) : outcome :=
  match fuel with
  | O => OFuel
  | S f => exec (analyse f) (program_of k)
  end.

(** [ResultTargetMap::Add], result_map.hpp:75-106, for one partition: the first result for a target and an
    effective configuration stays and is what the caller goes on with. *)
Definition result_map := list (key * analysed).
Definition same_key (a b : key) : bool := eqt (fst a) (fst b) && w_same_config W (snd a) (snd b).
Definition result_add (m : result_map) (k : key) (a : analysed) : result_map * analysed :=
  match find (fun e => same_key (fst e) k) m with
  | Some e => (m, snd e)
  | None => (m ++ [(k, a)], a)
  end.
End World.
