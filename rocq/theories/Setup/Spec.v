(** What the configurations of just-mr and of just mean (C110-C114), independently of how they are processed. *)
From Coq Require Import String Ascii List Bool.
From Verif Require Import Common.Strs Expr.Json Setup.Model.
Import ListNotations.
Local Open Scope string_scope.
Local Open Scope list_scope.

(** A key of a JSON object is not given: missing, or null. *)
Definition not_given (m : fields) (k : string) : Prop := alookup k m = None \/ alookup k m = Some JNull.

(** The entry of a repository in the multi-repository configuration. *)
Definition has_entry (repos : fields) (r : string) (e : fields) : Prop := alookup r repos = Some (JObj e).

(** A description may be the name of another repository, whose description is then meant. *)
Inductive leads (repos : fields) : json -> json -> Prop :=
| leads_end d : (forall s, d <> JStr s) -> leads repos d d
| leads_on r e d d' : has_entry repos r e -> alookup "repository" e = Some d -> leads repos d d' -> leads repos (JStr r) d'.
Definition described (repos : fields) (r : string) (d : json) : Prop := leads repos (JStr r) d.

(** "pragma": {"absent": ...} *)
Inductive absent_mark (d : fields) : bool -> Prop :=
| am_none : not_given d "pragma" -> absent_mark d false
| am_silent p : alookup "pragma" d = Some (JObj p) -> not_given p "absent" -> absent_mark d false
| am_said p b : alookup "pragma" d = Some (JObj p) -> alookup "absent" p = Some (JBool b) -> absent_mark d b.

(** "type": "computed" - the root is the export target [target], a pair of module and name, of repository [repo], in the
    configuration [config]. *)
Inductive computed_as : json -> string -> string -> string -> fields -> bool -> Prop :=
| computed_as_intro d r m n c a :
    alookup "type" d = Some (JStr "computed") -> alookup "repo" d = Some (JStr r) ->
    alookup "target" d = Some (JArr [JStr m; JStr n]) ->
    (not_given d "config" /\ c = [] \/ alookup "config" d = Some (JObj c)) -> absent_mark d a ->
    computed_as (JObj d) r m n c a.
(** "type": "tree structure" - the root is the structure of the root of repository [repo]. *)
Inductive structure_of : json -> string -> bool -> Prop :=
| structure_of_intro d r a :
    alookup "type" d = Some (JStr "tree structure") -> alookup "repo" d = Some (JStr r) -> absent_mark d a ->
    structure_of (JObj d) r a.
Definition refers (d : json) (r : string) : Prop := (exists m n c a, computed_as d r m n c a) \/ exists a, structure_of d r a.

(** The layers. *)
Definition layers : list string := ["target_root"; "rule_root"; "expression_root"].
Definition has_layer (e : fields) (l : string) : Prop := exists k, In k layers /\ alookup k e = Some (JStr l).

(** What a repository needs: what it binds; the repository its own root is computed in; the repositories the roots of its
    layers are computed in. *)
Inductive needs (repos : fields) (r : string) : string -> Prop :=
| needs_bound e b x r' : has_entry repos r e -> alookup "bindings" e = Some (JObj b) -> In (x, JStr r') b -> needs repos r r'
| needs_own e d r' : has_entry repos r e -> described repos r d -> refers d r' -> needs repos r r'
| needs_layer e l d r' : has_entry repos r e -> has_layer e l -> described repos l d -> refers d r' -> needs repos r r'.
Inductive reaches (repos : fields) (main : string) : string -> Prop :=
| reaches_main : reaches repos main main
| reaches_on r r' : reaches repos main r -> needs repos r r' -> reaches repos main r'.

(** The root to be written for a description: what is fetched; or, for computed roots, what is to be computed. *)
Definition said (a : bool) : list json := if a then [JObj [("absent", JBool true)]] else [].
Inductive root_for (fetch : fields -> option json) : json -> json -> Prop :=
| root_fetched d ty root :
    alookup "type" d = Some (JStr ty) -> In ty ["git"; "archive"; "zip"; "foreign file"; "file"; "distdir"; "git tree"] ->
    fetch d = Some root -> root_for fetch (JObj d) root
| root_computed d r m n c a : computed_as d r m n c a ->
    root_for fetch d (JArr ([JStr "computed"; JStr r; JStr m; JStr n; JObj c] ++ said a))
| root_structure d r a : structure_of d r a -> root_for fetch d (JArr ([JStr "tree structure"; JStr r] ++ said a)).

(** The root of just that a root in its configuration stands for. *)
Inductive stands_for (opens : string -> string -> bool) : json -> file_root -> Prop :=
| sf_file p : stands_for opens (JArr [JStr "file"; JStr p]) (RDir p false)
| sf_file_special p : stands_for opens (JArr [JStr "file ignore-special"; JStr p]) (RDir p true)
| sf_git t g : opens g t = true -> stands_for opens (JArr [JStr "git tree"; JStr t; JStr g]) (RGit g t false)
| sf_git_special t g : opens g t = true -> stands_for opens (JArr [JStr "git tree ignore-special"; JStr t; JStr g]) (RGit g t true)
| sf_absent t : stands_for opens (JArr [JStr "git tree"; JStr t]) (RAbsent t false)
| sf_absent_special t : stands_for opens (JArr [JStr "git tree ignore-special"; JStr t]) (RAbsent t true)
| sf_computed r m n c a : stands_for opens (JArr ([JStr "computed"; JStr r; JStr m; JStr n; JObj c] ++ said a))
                            (RPrecomputed (PComputed {| c_repo := r; c_module := m; c_name := n; c_config := c; c_absent := a |}))
| sf_structure r a : stands_for opens (JArr ([JStr "tree structure"; JStr r] ++ said a)) (RPrecomputed (PTree r a)).

(** The root of a repository as the user described it. *)
Definition own_root (fetch : fields -> option json) (opens : string -> string -> bool) (repos : fields) (r : string) (f : file_root) : Prop :=
  exists d root, described repos r d /\ root_for fetch d root /\ stands_for opens root f.
(** A layer: the root of the repository named, or the default. *)
Definition layer_root (fetch : fields -> option json) (opens : string -> string -> bool) (repos : fields) (e : fields) (key : string)
  (dflt f : file_root) : Prop :=
  (not_given e key /\ f = dflt) \/ exists l, alookup key e = Some (JStr l) /\ own_root fetch opens repos l f.
(** A file name: as given, or the default. *)
Definition file_name (e : fields) (key dflt s : string) : Prop := (not_given e key /\ s = dflt) \/ alookup key e = Some (JStr s).

(** The module and the name of the target of each computed root are the same. *)
Definition plain_targets (repos : fields) : Prop :=
  forall r d rr m n c a, described repos r d -> computed_as d rr m n c a -> m = n.

(** The options of just for the main repository are not used. *)
Definition no_options : just_args :=
  {| b_main := None; b_workspace := None; b_target_root := None; b_rule_root := None; b_expression_root := None;
     b_target_file := None; b_rule_file := None; b_expression_file := None |}.

(** No name goes round in circles: each chain of names ends, or breaks off. *)
Inductive chain_ends (repos : fields) : json -> Prop :=
| ce_end d : (forall s, d <> JStr s) -> chain_ends repos d
| ce_break r : (forall e, ~ has_entry repos r e) -> chain_ends repos (JStr r)
| ce_none r e : has_entry repos r e -> alookup "repository" e = None -> chain_ends repos (JStr r)
| ce_on r e d : has_entry repos r e -> alookup "repository" e = Some d -> chain_ends repos d -> chain_ends repos (JStr r).

(** The main repository: as said on the command line, else in the configuration, else the first one. *)
Definition is_main (args : mr_args) (conf repos : fields) (m : string) : Prop :=
  a_main args = Some m \/
  (a_main args = None /\ alookup "main" conf = Some (JStr m)) \/
  (a_main args = None /\ not_given conf "main" /\ In m (keys repos) /\ forall k, In k (keys repos) -> k = m \/ str_lt m k).

(** The roots fetched are directories or Git trees. *)
Definition fetches_trees (fetch : fields -> option json) : Prop :=
  forall d root, fetch d = Some root -> exists k l, root = JArr (JStr k :: l) /\
    In k ["file"; "file ignore-special"; "git tree"; "git tree ignore-special"].

(** The enumeration of a set contains what the set contains. *)
Definition enumerates (order : list string -> list string) : Prop := forall l x, In x (order l) <-> In x l.

(** Bindings are maps of strings, file names are strings. *)
Definition well_typed (repos : fields) : Prop := forall r e, has_entry repos r e ->
  (not_given e "bindings" \/ exists b, alookup "bindings" e = Some (JObj b) /\ forall x v, In (x, v) b -> exists s, v = JStr s) /\
  (forall k, In k ["target_file_name"; "rule_file_name"; "expression_file_name"] -> not_given e k \/ exists s, alookup k e = Some (JStr s)).

(** The root of a repository is computed in another one; directly, or by way of others. *)
Definition computed_in (repos : fields) (r r' : string) : Prop := exists d, described repos r d /\ refers d r'.
Inductive computed_via (repos : fields) : string -> string -> Prop :=
| via_one r r' : computed_in repos r r' -> computed_via repos r r'
| via_more r r' r'' : computed_in repos r r' -> computed_via repos r' r'' -> computed_via repos r r''.

(** A configuration in order: each repository has a description that can be fetched, or is to be computed in another one;
    what is named are repositories; and roots are not computed in circles. *)
Record in_order (fetch : fields -> option json) (repos : fields) : Prop := {
  io_described : forall r, In r (keys repos) -> exists e d root, has_entry repos r e /\ described repos r d /\ root_for fetch d root;
  io_layers : forall r e k, has_entry repos r e -> In k layers -> not_given e k \/ exists l, alookup k e = Some (JStr l) /\ In l (keys repos);
  io_bound : forall r e b x r', has_entry repos r e -> alookup "bindings" e = Some (JObj b) -> In (x, JStr r') b -> In r' (keys repos);
  io_computed : forall r r', In r (keys repos) -> computed_in repos r r' -> In r' (keys repos);
  io_circles : forall r, ~ computed_via repos r r }.
