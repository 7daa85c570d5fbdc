(** * The command lines that just accepts

    The options of the subcommands of just, from [src/buildtool/main/cli.cpp]
    (which groups of options a subcommand has) and
    [src/buildtool/common/cli.hpp], [retry_cli.hpp] (the options of a group).
    Only options that just-mr ever passes are listed; the name used is the one
    just-mr uses. This is the other side of the interface and independent of
    the table just-mr has. *)

From Coq Require Import String Ascii List Arith Lia Bool ZArith NArith.
Import ListNotations.
From Verif.Rc Require Import Model Launch.
Open Scope string_scope.
Open Scope list_scope.
Open Scope nat_scope.

(** common/cli.hpp: the groups. *)
Definition common_opts : list string := ["-C"].
Definition log_opts : list string :=
  ["-f"; "--log-limit"; "--restrict-stderr-log-limit"; "--plain-log"; "--log-append"].
Definition analysis_opts : list string := ["-D"; "-c"].
Definition graph_opts : list string :=
  ["--profile"; "--dump-graph"; "--dump-plain-graph"; "--dump-artifacts-to-build"].
Definition cache_opts : list string := ["--local-build-root"].
Definition endpoint_opts : list string := ["-r"; "--remote-instance-name"].
Definition properties_opts : list string :=
  ["--endpoint-configuration"; "--remote-execution-property"].
Definition serve_opts : list string := ["-R"].
Definition auth_opts : list string := ["--tls-ca-cert"; "--tls-client-cert"; "--tls-client-key"].
Definition build_opts : list string := ["--local-launcher"].
Definition extended_opts : list string := ["--dump-artifacts"].
Definition protocol_opts : list string := ["--compatible"].
Definition retry_opts : list string :=
  ["--max-attempts"; "--initial-backoff-seconds"; "--max-backoff-seconds"].

(** main/cli.cpp:29-148: the groups of a subcommand; "version" has none. *)
Definition accepts (sub : string) : list string :=
  let build := common_opts ++ log_opts ++ analysis_opts ++ graph_opts ++ cache_opts ++ endpoint_opts
     ++ properties_opts ++ serve_opts ++ auth_opts ++ build_opts ++ extended_opts ++ protocol_opts
     ++ retry_opts in
  if String.eqb sub "describe" then
    common_opts ++ cache_opts ++ analysis_opts ++ log_opts ++ serve_opts ++ auth_opts ++ endpoint_opts
     ++ protocol_opts ++ retry_opts
  else if String.eqb sub "analyse" then
    common_opts ++ log_opts ++ analysis_opts ++ graph_opts ++ cache_opts ++ endpoint_opts
     ++ properties_opts ++ serve_opts ++ auth_opts ++ build_opts ++ protocol_opts ++ retry_opts
  else if String.eqb sub "build" then build
  else if String.eqb sub "install" then build
  else if String.eqb sub "rebuild" then build
  else if (String.eqb sub "install-cas" || String.eqb sub "add-to-cas")%bool then
    protocol_opts ++ cache_opts ++ endpoint_opts ++ auth_opts ++ log_opts ++ retry_opts
  else if String.eqb sub "gc" then log_opts ++ cache_opts
  else [].

(** The options that take no value. *)
Definition is_flag (o : string) : bool :=
  (String.eqb o "--log-append" || String.eqb o "--plain-log" || String.eqb o "--compatible")%bool.

(** A command line that consists of options, each with its value unless it is
    a flag. *)
Inductive options : list string -> list (string * option string) -> Prop :=
| os_nil : options [] []
| os_flag o l ps : is_flag o = true -> options l ps -> options (o :: l) ((o, None) :: ps)
| os_value o x l ps : is_flag o = false -> options l ps -> options (o :: x :: l) ((o, Some x) :: ps).

(** Whether settings have anything to do with logging. *)
Definition default_logging (a : args) (c : call) : Prop :=
  a_log_files a = [] /\ (a_log_limit a = None \/ a_log_limit a = Some 3%Z) /\ a_restrict a = None /\
  j_plain_log c = false.

Definition known_names : list string :=
  ["version"; "describe"; "analyse"; "build"; "install"; "rebuild"; "add-to-cas"; "install-cas"; "gc"].

(** The options that are passed to a subcommand because of the settings, by
    name and value. The manual (share/man/just-mr.1.md and just-mrrc.5.md):
    every setting is forwarded to those subcommands that support it. The
    definitions of the command line are overlayed; [defs] is the result. *)
Definition with_repos : list string := ["describe"; "analyse"; "build"; "install"; "rebuild"].
Definition with_actions : list string := ["analyse"; "build"; "install"; "rebuild"].
Definition with_remote : list string := with_repos ++ ["add-to-cas"; "install-cas"].
Definition with_root : list string := with_remote ++ ["gc"].

Inductive passed (W : world) (a : args) (c : call) (defs : list (string * value)) (s : string)
  : string -> option string -> Prop :=
| p_repos conf : In s with_repos -> w_setup W = Some conf -> passed W a c defs s "-C" (Some conf)
| p_root r : In s with_root -> j_forward_root c = true -> a_root a = Some r ->
    passed W a c defs s "--local-build-root" (Some r)
| p_launcher l : In s with_actions -> a_launcher a = Some l -> l <> ["env"; "--"] ->
    passed W a c defs s "--local-launcher" (Some (w_show_list W l))
| p_append : a_log_files a <> [] -> passed W a c defs s "--log-append" None
| p_log f : In f (a_log_files a) -> passed W a c defs s "-f" (Some f)
| p_limit z : a_log_limit a = Some z -> z <> 3%Z -> passed W a c defs s "--log-limit" (Some (w_num W z))
| p_restrict z : a_restrict a = Some z ->
    passed W a c defs s "--restrict-stderr-log-limit" (Some (w_num W z))
| p_plain : j_plain_log c = true -> passed W a c defs s "--plain-log" None
| p_config f : In s with_repos -> a_config a = Some f -> passed W a c defs s "-c" (Some f)
| p_defines : In s with_repos -> defs <> [] -> passed W a c defs s "-D" (Some (w_show W defs))
| p_compatible : In s with_remote -> a_compatible a = true -> passed W a c defs s "--compatible" None
| p_address x : In s with_remote -> a_remote a = Some x -> passed W a c defs s "-r" (Some x)
| p_instance x y : In s with_remote -> a_remote a = Some x -> a_instance a = Some y ->
    passed W a c defs s "--remote-instance-name" (Some y)
| p_ca x : In s with_remote -> a_ca a = Some x -> passed W a c defs s "--tls-ca-cert" (Some x)
| p_cert x : In s with_remote -> a_cert a = Some x -> passed W a c defs s "--tls-client-cert" (Some x)
| p_key x : In s with_remote -> a_key a = Some x -> passed W a c defs s "--tls-client-key" (Some x)
| p_attempts z : In s with_remote -> a_attempts a = Some z ->
    passed W a c defs s "--max-attempts" (Some (w_num W z))
| p_initial z : In s with_remote -> a_initial a = Some z ->
    passed W a c defs s "--initial-backoff-seconds" (Some (w_num W z))
| p_max z : In s with_remote -> a_max a = Some z ->
    passed W a c defs s "--max-backoff-seconds" (Some (w_num W z))
| p_endpoint f : In s with_actions -> a_endpoint a = Some f ->
    passed W a c defs s "--endpoint-configuration" (Some f)
| p_serve x : In s with_repos -> a_serve a = Some x -> passed W a c defs s "-R" (Some x)
| p_property x : In s with_actions -> In x (a_props a) ->
    passed W a c defs s "--remote-execution-property" (Some x).

(** The options of one invocation, for the files in the directory [dir]. *)
Inductive logged (a : args) (s : string) (dir : string) : string -> option string -> Prop :=
| l_graph f : In s with_actions -> il_graph (a_invlog a) = Some f ->
    logged a s dir "--dump-graph" (Some (join dir f))
| l_plain f : In s with_actions -> il_graph_plain (a_invlog a) = Some f ->
    logged a s dir "--dump-plain-graph" (Some (join dir f))
| l_to_build f : In s with_actions -> il_to_build (a_invlog a) = Some f ->
    logged a s dir "--dump-artifacts-to-build" (Some (join dir f))
| l_artifacts f : In s ["build"; "install"; "rebuild"] -> il_artifacts (a_invlog a) = Some f ->
    logged a s dir "--dump-artifacts" (Some (join dir f))
| l_profile f : In s with_actions -> il_profile (a_invlog a) = Some f ->
    logged a s dir "--profile" (Some (join dir f)).

(** The directory for the invocation log. *)
Definition invocation_dir (W : world) (a : args) (dir : option string) : Prop :=
  match il_directory (a_invlog a) with
  | None => dir = None
  | Some d =>
      let sub := match il_project_id (a_invlog a) with Some p => p | None => "unknown" end in
      let full := join (join d sub) (w_id W) in
      (w_mkdir W full = true /\ dir = Some full) \/ (w_mkdir W full = false /\ dir = None)
  end.

(** All values of an option, in order. *)
Definition values (o : string) (ps : list (string * option string)) : list (option string) :=
  map snd (filter (fun p => String.eqb o (fst p)) ps).
