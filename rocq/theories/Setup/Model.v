(** just-mr: from the multi-repository configuration to the configuration for just (C110-C114), and how just reads the
    latter.
    Models src/other_tools/just_mr/{setup_utils.cpp,utils.cpp,setup.cpp}, src/other_tools/utils/parse_precomputed_root.cpp,
    src/other_tools/repo_map/repos_to_setup_map.cpp, src/buildtool/file_system/{precomputed_root.cpp,file_root.hpp} and
    DetermineRoots in src/buildtool/main/main.cpp.
    Simplified: log messages, statistics and progress reports are left out. Configurations are JSON values as read;
    Expression::FromJson and ToJson (expression.cpp) are taken to be the identity on them (numbers become doubles in the
    code). JSON objects are association lists, in the order of nlohmann::json where they are built here. *)
From Coq Require Import String Ascii List Bool NArith Arith.
From Verif Require Import Common.Strs Expr.Json.
Import ListNotations.
Local Open Scope string_scope.
Local Open Scope list_scope.
Local Open Scope nat_scope.

Definition fields := list (string * json).

(** How a computation ends: with a value; with an error that is reported; with an exception (reported by main.cpp:469 or,
    in a thread of the task system, ending the program); or not at all. *)
Inductive res (A : Type) := Done (a : A) | Failed | Thrown | Endless.
Arguments Done {A} a. Arguments Failed {A}. Arguments Thrown {A}. Arguments Endless {A}.

(** Expression::Get with default [none_t] (expression.hpp:158-173), of a map. *)
Definition get (m : fields) (k : string) : json := match alookup k m with Some v => v | None => JNull end.

(** ComputedRoot and TreeStructureRoot (precomputed_root.hpp:30-66). *)
Record computed := { c_repo : string; c_module : string; c_name : string; c_config : fields; c_absent : bool }.
Inductive precomputed := PComputed (c : computed) | PTree (repo : string) (absent : bool).

(** PrecomputedRoot::GetReferencedRepository (precomputed_root.cpp:255-261). *)
Definition referenced (p : precomputed) : string := match p with PComputed c => c_repo c | PTree r _ => r end.

(** ParseAbsent (parse_precomputed_root.cpp:24-50); [None] is the error. *)
Definition parse_absent (d : fields) : option bool :=
  match get d "pragma" with
  | JNull => Some false
  | JObj p => match get p "absent" with JNull => Some false | JBool b => Some b | _ => None end
  | _ => None
  end.

(** ParseComputedRoot (parse_precomputed_root.cpp:52-96). Line 92 takes the name of the target from the module. *)
Definition parse_computed (d : fields) : res precomputed :=
  match get d "repo" with
  | JStr repo =>
      match get d "target" with
      | JArr [JStr target_module; JStr target_name] =>
          match get d "config" with
          | JNull =>
              match parse_absent d with
              | Some a => Done (PComputed {| c_repo := repo; c_module := target_module; c_name := target_module; c_config := []; c_absent := a |})
              | None => Failed
              end
          | JObj c =>
              match parse_absent d with
              | Some a => Done (PComputed {| c_repo := repo; c_module := target_module; c_name := target_module; c_config := c; c_absent := a |})
              | None => Failed
              end
          | _ => Failed
          end
      | _ => Failed
      end
  | _ => Failed
  end.

(** ParseTreeStructureRoot (parse_precomputed_root.cpp:98-110); [repo] is not checked to be a string. *)
Definition parse_tree (d : fields) : res precomputed :=
  match get d "repo" with
  | JNull => Failed
  | repo =>
      match parse_absent d with
      | None => Failed
      | Some a => match repo with JStr r => Done (PTree r a) | _ => Thrown end
      end
  end.

(** ParsePrecomputedRoot (parse_precomputed_root.cpp:113-146). *)
Definition parse_precomputed (repository : json) : res precomputed :=
  match repository with
  | JObj d =>
      match get d "type" with
      | JStr ty => if String.eqb ty "computed" then parse_computed d else if String.eqb ty "tree structure" then parse_tree d else Failed
      | _ => Failed
      end
  | _ => Failed
  end.

(** The loop of GetTargetRepoIfPrecomputed (setup_utils.cpp:61-80), with a bound on the number of rounds. *)
Fixpoint target_repo (rounds : nat) (repos : fields) (root : json) : res (option string) :=
  match rounds with
  | 0 => Endless
  | S n =>
      match root with
      | JStr name => match get repos name with JObj d => target_repo n repos (get d "repository") | _ => Done None end
      | _ => match parse_precomputed root with Done p => Done (Some (referenced p)) | Failed => Done None | Thrown => Thrown | Endless => Endless end
      end
  end.

(** More rounds than there are repositories mean that one of them is visited again, and so on for ever (proved in Chains.v,
    [target_repo_bound]). *)
Definition target_repo_if_precomputed (repos : fields) (name : string) : res (option string) :=
  target_repo (S (S (length repos))) repos (JStr name).

Definition mem (x : string) (l : list string) : bool := existsb (String.eqb x) l.

(** kAltDirs (setup_utils.hpp:36-38), kTakeOver (just_mr/utils.hpp:45-48). *)
Definition alt_dirs : list string := ["target_root"; "rule_root"; "expression_root"].
Definition take_over_keys : list string := ["bindings"; "target_file_name"; "rule_file_name"; "expression_file_name"].

(** setup_utils.cpp:179-187: the repositories bound. *)
Definition bound_names (entry : fields) : list string :=
  match get entry "bindings" with
  | JObj b => flat_map (fun p => match snd p with JStr s => [s] | _ => [] end) b
  | _ => []
  end.

(** setup_utils.cpp:189-203: the repositories named as layers, and the repositories their roots are computed in. *)
Definition layer_names (entry : fields) : list string :=
  flat_map (fun k => match get entry k with JStr l => [l] | _ => [] end) alt_dirs.
Fixpoint layer_targets (repos : fields) (ls : list string) : res (list string) :=
  match ls with
  | [] => Done []
  | l :: r =>
      match target_repo_if_precomputed repos l with
      | Done o => match layer_targets repos r with Done t => Done (match o with Some x => x :: t | None => t end) | e => e end
      | Failed => Failed | Thrown => Thrown | Endless => Endless
      end
  end.

(** One round of the loop of ReachableRepositories (setup_utils.cpp:150-204), for a repository not seen before: what is
    appended to the queue, and the names inserted in the set of repositories to set up. The description not being a map
    makes Get throw. Simplified: the warnings of WarnUnknownKeys and about roots that are not content-fixed. *)
Definition process (repos : fields) (name : string) : res (list string * list string) :=
  match get repos name with
  | JNull => Done ([], [])
  | entry =>
      match target_repo_if_precomputed repos name with
      | Done own =>
          match entry with
          | JObj e =>
              match layer_targets repos (layer_names e) with
              | Done t => Done ((match own with Some x => [x] | None => [] end) ++ bound_names e ++ t, layer_names e)
              | Failed => Failed | Thrown => Thrown | Endless => Endless
              end
          | _ => Thrown
          end
      | Failed => Failed | Thrown => Thrown | Endless => Endless
      end
  end.

(** ReachableRepositories (setup_utils.cpp:133-221): the loop over the queue, with a bound on the number of rounds.
    [include] and [setup] are the two sets. *)
Fixpoint reach_loop (rounds : nat) (repos : fields) (queue include setup : list string) : res (list string * list string) :=
  match queue with
  | [] => Done (include, setup)
  | name :: rest =>
      match rounds with
      | 0 => Endless
      | S n =>
          if mem name include then reach_loop n repos rest include setup
          else match process repos name with
               | Done (push, ls) => reach_loop n repos (rest ++ push) (name :: include) (ls ++ setup)
               | Failed => Failed | Thrown => Thrown | Endless => Endless
               end
      end
  end.

(** No more rounds than this are needed (proved in Chains.v, [reach_rounds]): for each repository, the one of taking it off
    the queue and those of taking off what is appended on its behalf. *)
Definition entry_cost (j : json) : nat := match j with JObj e => 5 + length (bound_names e) | _ => 5 end.
Definition reach_bound (repos : fields) : nat := 2 + fold_right (fun p n => entry_cost (snd p) + n) 0 repos.
Definition union (a b : list string) : list string := a ++ filter (fun x => negb (mem x a)) b.
Definition dedup (l : list string) : list string := fold_right (fun x acc => if mem x acc then acc else x :: acc) [] l.
Definition reachable_repositories (repos : fields) (main : string) : res (list string * list string) :=
  match reach_loop (reach_bound repos) repos [main] [] [] with
  | Done (include, setup) => Done (include, union include (dedup setup))
  | e => e
  end.

(** ResolveRepo (just_mr/utils.cpp:25-71): [None] is the error; what throws there is caught (line 62). The bound is never
    reached, as each round adds a repository to [seen] (proved in Chains.v, [resolve_bound]). *)
Fixpoint resolve (rounds : nat) (repos : fields) (seen : list string) (d : json) : option json :=
  match rounds with
  | 0 => None
  | S n =>
      match d with
      | JStr name =>
          if mem name seen then None
          else match alookup name repos with
               | Some (JObj e) => match alookup "repository" e with Some d' => resolve n repos (name :: seen) d' | None => None end
               | _ => None
               end
      | _ => Some d
      end
  end.
Definition resolve_repo (repos : fields) (d : json) : option json := resolve (S (S (length repos))) repos [] d.

(** SetReposTakeOver (repos_to_setup_map.cpp:44-58), for an entry that is a map. *)
Definition take_over (entry : fields) (cfg : fields) : fields :=
  fold_left (fun acc k => match get entry k with JNull => acc | v => ainsert k v acc end) take_over_keys cfg.

(** PrecomputedRootCheckout (repos_to_setup_map.cpp:677-699): the workspace root written. *)
Definition absent_pragma (absent : bool) : list json := if absent then [JObj [("absent", JBool true)]] else [].
Definition precomputed_ws (p : precomputed) : json :=
  match p with
  | PComputed c => JArr ([JStr "computed"; JStr (c_repo c); JStr (c_module c); JStr (c_name c); JObj (c_config c)] ++ absent_pragma (c_absent c))
  | PTree r a => JArr ([JStr "tree structure"; JStr r] ++ absent_pragma a)
  end.

(** kCheckoutTypeMap (just_mr/utils.hpp:174-183). *)
Definition fetched_types : list string := ["git"; "archive"; "zip"; "foreign file"; "file"; "distdir"; "git tree"].
Definition precomputed_types : list string := ["computed"; "tree structure"].

Section Setup.
(** What GitCheckout, ArchiveCheckout, ForeignFileCheckout, FileCheckout, DistdirCheckout and GitTreeCheckout
    (repos_to_setup_map.cpp:60-650) put as workspace root for a description; [None] if they report an error. They use the
    name of the repository only for messages and to take over fields. What the roots contain is the matter of C97-C103. *)
Variable fetch : fields -> option json.
(** The order in which the two unordered sets are enumerated (setup_utils.cpp:209-220). *)
Variable order_setup order_include : list string -> list string.

Record mr_args := { a_main : option string; a_all : bool; a_interactive : bool }.

(** The test "is the main repository, and this is setup-env" (setup.cpp:465, 485; repos_to_setup_map.cpp:737). *)
Definition left_out (main : option string) (interactive : bool) (name : string) : bool :=
  interactive && match main with Some m => String.eqb name m | None => false end.

(** The function of CreateReposToSetupMap (repos_to_setup_map.cpp:706-904). Simplified: the asynchronous map is replaced by
    recursion; that its values do not depend on the schedule, and that a cycle of computed roots leaves the keys pending,
    which is reported (setup.cpp:528-540), are C31-C34. The bound is one more than the number of names that can be asked
    for along a chain without repetition; exceeding it is a cycle. *)
Fixpoint setup_repo (depth : nat) (repos : fields) (main : option string) (interactive : bool) (key : string) : res fields :=
  match depth with
  | 0 => Failed
  | S n =>
      if left_out main interactive key
      then match get repos key with JNull => Done [] | JObj e => Done (take_over e []) | _ => Thrown end
      else match alookup key repos with
           | Some (JObj e) =>
               match alookup "repository" e with
               | None => Failed
               | Some d =>
                   match resolve_repo repos d with
                   | Some (JObj rd) =>
                       match alookup "type" rd with
                       | Some (JStr ty) =>
                           if mem ty fetched_types
                           then match fetch rd with
                                | Some root => Done (take_over e [("workspace_root", root)])
                                | None => Failed
                                end
                           else if mem ty precomputed_types
                           then match parse_precomputed (JObj rd) with
                                | Done p =>
                                    match setup_repo n repos main interactive (referenced p) with
                                    | Done _ => Done (take_over e [("workspace_root", precomputed_ws p)])
                                    | Failed => Failed | Thrown => Thrown | Endless => Endless
                                    end
                                | Failed => Failed | Thrown => Thrown | Endless => Endless
                                end
                           else Failed
                       | _ => Failed
                       end
                   | _ => Failed
                   end
               end
           | _ => Failed
           end
  end.

(** The values for all keys asked for (setup.cpp:436-438); no consumer call without all of them. *)
Fixpoint setup_all (depth : nat) (repos : fields) (main : option string) (interactive : bool) (ks : list string)
  : res (list (string * fields)) :=
  match ks with
  | [] => Done []
  | k :: r =>
      match setup_repo depth repos main interactive k with
      | Done f => match setup_all depth repos main interactive r with Done vs => Done ((k, f) :: vs) | e => e end
      | Failed => Failed | Thrown => Thrown | Endless => Endless
      end
  end.

(** nlohmann::json::operator[] of a non-constant object: the entry is created if it is not there. *)
Definition entry_of (mr_repos : list (string * fields)) (name : string) : fields :=
  match alookup name mr_repos with Some f => f | None => [] end.

(** [mr_repos[v]["workspace_root"]] (setup.cpp:489-490), read, creating a null entry if missing. *)
Definition read_root (mr_repos : list (string * fields)) (v : string) : list (string * fields) * json :=
  match alookup "workspace_root" (entry_of mr_repos v) with
  | Some r => (mr_repos, r)
  | None => (ainsert v (ainsert "workspace_root" JNull (entry_of mr_repos v)) mr_repos, JNull)
  end.

(** setup.cpp:467-494, for one of the layers; [None] is the error reported, as are exceptions (line 503). *)
Definition fill_layer (main : option string) (interactive : bool) (repo : string) (entry : fields) (key : string)
  (mr_repos : list (string * fields)) : option (list (string * fields)) :=
  match get entry key with
  | JNull => Some mr_repos
  | JStr v =>
      if left_out main interactive v then Some mr_repos
      else let '(mr, root) := read_root mr_repos v in Some (ainsert repo (ainsert key root (entry_of mr repo)) mr)
  | _ => None
  end.
Fixpoint fill_layers (main : option string) (interactive : bool) (repo : string) (entry : fields) (ks : list string)
  (mr_repos : list (string * fields)) : option (list (string * fields)) :=
  match ks with
  | [] => Some mr_repos
  | k :: r => match fill_layer main interactive repo entry k mr_repos with Some mr => fill_layers main interactive repo entry r mr | None => None end
  end.
(** setup.cpp:462-497: the loop over the repositories to include. *)
Fixpoint fill_repos (repos : fields) (main : option string) (interactive : bool) (include : list string)
  (mr_repos : list (string * fields)) : option (list (string * fields)) :=
  match include with
  | [] => Some mr_repos
  | r :: rest =>
      match get repos r with
      | JNull => fill_repos repos main interactive rest mr_repos
      | d =>
          if left_out main interactive r then fill_repos repos main interactive rest mr_repos
          else match d with
               | JObj e =>
                   match fill_layers main interactive r e alt_dirs mr_repos with
                   | Some mr => fill_repos repos main interactive rest mr
                   | None => None
                   end
               | _ => None
               end
      end
  end.

(** The configuration written: "main" and "repositories". *)
Record just_config := { j_main : option string; j_repos : list (string * fields) }.

(** setup.cpp:451-502. *)
Definition assemble (repos : fields) (main : option string) (interactive : bool) (values : list (string * fields)) (include : list string)
  : option (list (string * fields)) :=
  match fill_repos repos main interactive include (fold_left (fun acc p => ainsert (fst p) (snd p) acc) values []) with
  | Some mr => Some (fold_left (fun acc r => ainsert r (entry_of mr r) acc) include [])
  | None => None
  end.

(** std::min_element (setup.cpp:135-138). *)
Definition least (l : list string) : option string :=
  match l with [] => None | x :: r => Some (fold_left (fun m y => if str_ltb y m then y else m) r x) end.

(** MultiRepoSetup (setup.cpp:77-555). Simplified: the configuration is given as the value of [mr_config]; its text is put
    in the storage and its path printed. *)
Definition explicit_main (args : mr_args) (conf : fields) : res (option string) :=
  match a_main args with
  | Some m => Done (Some m)
  | None => match get conf "main" with JNull => Done None | JStr m => Done (Some m) | _ => Failed end
  end.
Definition mr_setup (args : mr_args) (conf : fields) : res just_config :=
  match get conf "repositories" with
  | JObj repos =>
      match explicit_main args conf with
      | Done given =>
          let main := match given with Some m => Some m | None => least (keys repos) end in
          let lists :=
            match main with
            | Some m =>
                if a_all args then Done (keys repos, keys repos)
                else match reachable_repositories repos m with
                     | Done (i, s) => Done (order_include i, order_setup s)
                     | e => e
                     end
            | None => Done (keys repos, keys repos)
            end in
          match lists with
          | Done (include, setup) =>
              match setup_all (S (S (length repos))) repos main (a_interactive args) setup with
              | Done values =>
                  match assemble repos main (a_interactive args) values include with
                  | Some out => Done {| j_main := given; j_repos := out |}
                  | None => Failed
                  end
              | Failed => Failed | Thrown => Thrown | Endless => Endless
              end
          | Failed => Failed | Thrown => Thrown | Endless => Endless
          end
      | Failed => Failed | Thrown => Thrown | Endless => Endless
      end
  | _ => Failed
  end.
End Setup.

(** ReadConfiguration with a file of absent repositories (setup_utils.cpp:255-315), from the JSON values in the two files.
    Simplified: "repositories" of another kind than an object is an error here (for null and lists of objects it is not in
    the code). *)
Definition mark_absent (names : list string) (key : string) (val : json) : option json :=
  match val with
  | JObj e =>
      match (match alookup "repository" e with Some w => w | None => JObj [] end) with
      | JObj ws =>
          match (match alookup "pragma" ws with Some p => p | None => JObj [] end) with
          | JObj p => Some (JObj (ainsert "repository" (JObj (ainsert "pragma" (JObj (ainsert "absent" (JBool (mem key names)) p)) ws)) e))
          | JNull => Some (JObj (ainsert "repository" (JObj (ainsert "pragma" (JObj [("absent", JBool (mem key names))]) ws)) e))
          | _ => None
          end
      | _ => Some val
      end
  | _ => None
  end.
Fixpoint mark_all (names : list string) (repos : fields) : option fields :=
  match repos with
  | [] => Some []
  | (k, v) :: r =>
      match mark_absent names k v, mark_all names r with Some v', Some r' => Some ((k, v') :: r') | _, _ => None end
  end.
Fixpoint strings (l : list json) : option (list string) :=
  match l with [] => Some [] | JStr s :: r => match strings r with Some t => Some (s :: t) | None => None end | _ => None end.
Definition read_configuration (conf : fields) (absent : option json) : option fields :=
  match absent with
  | None => Some conf
  | Some (JArr l) =>
      match strings l with
      | Some names =>
          match (match alookup "repositories" conf with Some r => r | None => JObj [] end) with
          | JObj repos => match mark_all names repos with Some repos' => Some (ainsert "repositories" (JObj repos') conf) | None => None end
          | _ => None
          end
      | None => None
      end
  | Some _ => None
  end.

(** *** just *)

(** FileRoot (file_root.hpp:318-364): a directory, a tree in a Git repository, an absent tree, or one still to be computed. *)
Inductive file_root :=
| RDir (path : string) (ignore_special : bool)
| RGit (repo tree : string) (ignore_special : bool)
| RAbsent (tree : string) (ignore_special : bool)
| RPrecomputed (p : precomputed).

(** ParseImpl<ComputedRoot>, ParseImpl<TreeStructureRoot>, PrecomputedRoot::Parse (precomputed_root.cpp:51-154, 230-246). *)
Definition parse_pragma_computed (l : list json) : option bool :=
  match l with
  | [] => Some false
  | [JObj p] => match alookup "absent" p with None => Some false | Some (JBool b) => Some b | Some _ => None end
  | _ => None
  end.
Definition parse_pragma_tree (l : list json) : option bool :=
  match l with
  | [] => Some false
  | [JObj p] => match alookup "absent" p with None => Some false | Some JNull => Some false | Some (JBool b) => Some b | Some _ => None end
  | _ => None
  end.
Definition precomputed_of_json (l : list json) : option precomputed :=
  match l with
  | JStr m :: r =>
      if String.eqb m "computed"
      then match r with
           | JStr repo :: JStr tm :: JStr tn :: JObj c :: p =>
               match parse_pragma_computed p with
               | Some a => Some (PComputed {| c_repo := repo; c_module := tm; c_name := tn; c_config := c; c_absent := a |})
               | None => None
               end
           | _ => None
           end
      else if String.eqb m "tree structure"
      then match r with
           | JStr repo :: p => match parse_pragma_tree p with Some a => Some (PTree repo a) | None => None end
           | _ => None
           end
      else None
  | _ => None
  end.

Section Just.
(** FileRoot::FromGit (file_root.hpp:366-396): whether the tree can be opened in the repository. *)
Variable opens : string -> string -> bool.
(** DetermineWorkspaceRootByLookingForMarkers (main.cpp:462-484): the directory found; [None] ends the program. *)
Variable here : option string.

(** FileRoot::ParseRoot (file_root.hpp:795-919); with the path, if it is a directory. *)
Definition parse_root (root : json) : option (file_root * option string) :=
  match root with
  | JArr (JStr m :: r) =>
      if String.eqb m "file" then match r with [JStr p] => Some (RDir p false, Some p) | _ => None end
      else if String.eqb m "git tree" then
        match r with
        | [JStr t] => Some (RAbsent t false, None)
        | [JStr t; JStr g] => if opens g t then Some (RGit g t false, None) else None
        | _ => None
        end
      else if String.eqb m "file ignore-special" then match r with [JStr p] => Some (RDir p true, Some p) | _ => None end
      else if String.eqb m "git tree ignore-special" then
        match r with
        | [JStr t] => Some (RAbsent t true, None)
        | [JStr t; JStr g] => if opens g t then Some (RGit g t true, None) else None
        | _ => None
        end
      else match precomputed_of_json (JStr m :: r) with Some p => Some (RPrecomputed p, None) | None => None end
  | _ => None
  end.

(** RepositoryConfig::RepositoryInfo (repository_config.hpp:43-52). *)
Record info := {
  i_workspace : file_root; i_target : file_root; i_rule : file_root; i_expression : file_root;
  i_names : list (string * string);
  i_target_file : string; i_rule_file : string; i_expression_file : string }.

(** The options for the main repository (cli.hpp: CommonArguments, AnalysisArguments). *)
Record just_args := {
  b_main : option string; b_workspace : option string;
  b_target_root : option string; b_rule_root : option string; b_expression_root : option string;
  b_target_file : option string; b_rule_file : option string; b_expression_file : option string }.

(** The workspace root (main.cpp:548-582). *)
Definition workspace_of (args : just_args) (is_main : bool) (desc : fields) : option file_root :=
  match (match alookup "workspace_root" desc with
         | Some r => match parse_root r with Some (f, p) => Some (Some f, p) | None => None end
         | None => Some (None, None)
         end) with
  | None => None
  | Some (ws, path) =>
      if is_main
      then
        match (match b_workspace args with
               | Some w => Some (Some w)
               | None => match ws with Some _ => Some path | None => match here with Some h => Some (Some h) | None => None end end
               end) with
        | None => None
        | Some (Some p) => Some (RDir p false)
        | Some None => ws
        end
      else ws
  end.
(** parse_keyword_root (main.cpp:584-605). *)
Definition keyword_root (is_main : bool) (desc : fields) (dflt : file_root) (key : string) (arg : option string) : option file_root :=
  match (match alookup key desc with
         | Some r => match parse_root r with Some (f, _) => Some f | None => None end
         | None => Some dflt
         end) with
  | None => None
  | Some f => match is_main, arg with true, Some p => Some (RDir p false) | _, _ => Some f end
  end.
(** The bindings (main.cpp:617-640). *)
Fixpoint bindings_of (known : list string) (b : fields) : option (list (string * string)) :=
  match b with
  | [] => Some []
  | (x, JStr g) :: r => if mem g known then match bindings_of known r with Some l => Some ((x, g) :: l) | None => None end else None
  | _ => None
  end.
Definition names_of (known : list string) (desc : fields) : option (list (string * string)) :=
  match alookup "bindings" desc with
  | None => Some []
  | Some (JObj b) => bindings_of known b
  | Some _ => None
  end.
(** parse_keyword_file_name (main.cpp:641-654). *)
Definition keyword_file (is_main : bool) (desc : fields) (dflt key : string) (arg : option string) : option string :=
  match (match alookup key desc with Some (JStr s) => Some s | Some _ => None | None => Some dflt end) with
  | None => None
  | Some s => match is_main, arg with true, Some p => Some p | _, _ => Some s end
  end.

Definition obind {A B} (o : option A) (f : A -> option B) : option B := match o with Some a => f a | None => None end.

(** The body of the loop of DetermineRoots (main.cpp:546-668). *)
Definition info_of (args : just_args) (known : list string) (is_main : bool) (desc : fields) : option info :=
  obind (workspace_of args is_main desc) (fun w =>
  obind (keyword_root is_main desc w "target_root" (b_target_root args)) (fun t =>
  obind (keyword_root is_main desc t "rule_root" (b_rule_root args)) (fun r =>
  obind (keyword_root is_main desc r "expression_root" (b_expression_root args)) (fun x =>
  obind (names_of known desc) (fun ns =>
  obind (keyword_file is_main desc "TARGETS" "target_file_name" (b_target_file args)) (fun tf =>
  obind (keyword_file is_main desc "RULES" "rule_file_name" (b_rule_file args)) (fun rf =>
  obind (keyword_file is_main desc "EXPRESSIONS" "expression_file_name" (b_expression_file args)) (fun xf =>
  Some {| i_workspace := w; i_target := t; i_rule := r; i_expression := x; i_names := ns;
          i_target_file := tf; i_rule_file := rf; i_expression_file := xf |})))))))).
Fixpoint infos_of (args : just_args) (known : list string) (main : string) (l : list (string * fields)) : option (list (string * info)) :=
  match l with
  | [] => Some []
  | (k, d) :: r =>
      obind (info_of args known (String.eqb k main) d) (fun i => obind (infos_of args known main r) (fun is => Some ((k, i) :: is)))
  end.

(** DetermineRoots (main.cpp:486-670), of the configuration written by just-mr. Simplified: the text is taken to be read
    back as the value it was written from. *)
Definition main_of (args : just_args) (c : just_config) : string :=
  match b_main args with
  | Some m => m
  | None => match j_main c with Some m => m | None => match j_repos c with (k, _) :: _ => k | [] => "" end end
  end.
Definition determine_roots (args : just_args) (c : just_config) : option (string * list (string * info)) :=
  let main := main_of args c in
  let repos := if mem main (keys (j_repos c)) then j_repos c else ainsert main [] (j_repos c) in
  obind (infos_of args (keys repos) main repos) (fun is => Some (main, is)).
End Just.
