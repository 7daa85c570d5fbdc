(** * How just-mr calls just

    Models [src/other_tools/just_mr/launch.cpp] ([CallJust]) and the table of
    subcommands in [src/other_tools/just_mr/utils.hpp].

    Not modelled: the contents of the metadata file, the messages, and execvp
    itself. [std::getenv], the clock and the random identifier are hidden in
    the name of the directory for the invocation log. *)

From Coq Require Import String Ascii List Arith Lia Bool ZArith NArith.
Import ListNotations.
From Verif.Rc Require Import Model.
Open Scope string_scope.
Open Scope list_scope.
Open Scope nat_scope.

(** utils.hpp:50-61 [JustSubCmdFlags]. *)
Record flags : Type := Flags {
  f_config : bool;
  f_build_root : bool;
  f_launch : bool;
  f_defines : bool;
  f_remote : bool;
  f_props : bool;
  f_serve : bool;
  f_dispatch : bool;
  f_build : bool
}.

(** utils.hpp:64-154 [kKnownJustSubcommands]. *)
Definition known_subcommands : list (string * flags) :=
  [("version",     Flags false false false false false false false false false);
   ("describe",    Flags true  true  false true  true  false true  false false);
   ("analyse",     Flags true  true  true  true  true  true  true  true  false);
   ("build",       Flags true  true  true  true  true  true  true  true  true);
   ("install",     Flags true  true  true  true  true  true  true  true  true);
   ("rebuild",     Flags true  true  true  true  true  true  true  true  true);
   ("add-to-cas",  Flags false true  false false true  false false false false);
   ("install-cas", Flags false true  false false true  false false false false);
   ("gc",          Flags false true  false false false false false false false)].

Fixpoint find_flags (s : string) (l : list (string * flags)) : option flags :=
  match l with
  | [] => None
  | (k, f) :: r => if String.eqb s k then Some f else find_flags s r
  end.

Definition no_flags : flags :=
  Flags false false false false false false false false false.

(** What the process sees besides its arguments. *)
Record world : Type := World {
  w_locks : bool;                                    (* both shared locks taken *)
  w_setup : option string;                           (* MultiRepoSetup: the config file *)
  w_show_list : list string -> string;               (* nlohmann::json(list).dump() *)
  w_show : list (string * value) -> string;          (* Configuration::ToString *)
  w_num : Z -> string;                               (* std::to_string *)
  w_parse : string -> option value;                  (* json::parse, FromJson *)
  w_id : string;                                     (* time and uuid *)
  w_mkdir : string -> bool                           (* CreateDirectoryExclusive *)
}.

(** The arguments of [CallJust] besides the settings: cli.hpp:107-109 and the
    flags of the command line the rc file does not touch. *)
Record call : Type := Call {
  j_subcmd : option string;       (* None for "just-mr do" *)
  j_extra : list string;          (* the remaining arguments *)
  j_defines : list string;
  j_plain_log : bool;
  j_forward_root : bool
}.

Inductive outcome : Type :=
| Exec (cmd : list string)
| GenericFailure
| SetupError
| ClargsError.

(** path.hpp:63-71 [IsValidFileName]; the literal "/\0" is a C string and
    hence only contains the slash. *)
Fixpoint has_slash (s : string) : bool :=
  match s with
  | EmptyString => false
  | String c r => if Ascii.eqb c "/"%char then true else has_slash r
  end.

Definition valid_file_name (s : string) : bool :=
  if has_slash s then false
  else if (String.eqb s "" || String.eqb s "." || String.eqb s "..")%bool then false
  else true.

(** An option with its value, if there is one. *)
Definition opt (name : string) (v : option string) : list string :=
  match v with Some x => [name; x] | None => [] end.

Definition flag (name : string) (b : bool) : list string := if b then [name] else [].

Definition list_eqb (a b : list string) : bool :=
  if list_eq_dec string_dec a b then true else false.

(** launch.cpp:143-183: everything up to the log options, with [conf] the
    configuration file of the setup. The values of [kDefaultLauncher]
    (clidefaults.hpp:24) and [kDefaultLogLevel] (clidefaults.hpp:23, Progress)
    are not passed on. *)
Definition head_options (W : world) (fl : flags) (conf : string) (a : args) (c : call)
  : list string :=
  (if f_config fl then ["-C"; conf] else [])
  ++ (if (f_build_root fl && j_forward_root c)%bool then opt "--local-build-root" (a_root a) else [])
  ++ (if f_launch fl
      then match a_launcher a with
           | Some l => if list_eqb l ["env"; "--"] then [] else ["--local-launcher"; w_show_list W l]
           | None => []
           end
      else []).

Definition log_options (W : world) (a : args) (c : call) : list string :=
  (match a_log_files a with
   | [] => []
   | l => "--log-append" :: flat_map (fun f => ["-f"; f]) l
   end)
  ++ (match a_log_limit a with
      | Some z => if Z.eqb z 3 then [] else ["--log-limit"; w_num W z]
      | None => []
      end)
  ++ opt "--restrict-stderr-log-limit" (option_map (w_num W) (a_restrict a))
  ++ flag "--plain-log" (j_plain_log c).

(** launch.cpp:184-212: the definitions of the command line, overlayed. *)
Fixpoint overlay_defines (W : world) (l : list string) (acc : list (string * value))
  : option (list (string * value)) :=
  match l with
  | [] => Some acc
  | s :: r => match w_parse W s with
              | Some (VMap m) => overlay_defines W r (update acc m)
              | _ => None
              end
  end.

Definition define_options (W : world) (a : args) (c : call) : option (list string) :=
  match overlay_defines W (j_defines c) [] with
  | None => None
  | Some m =>
      Some (opt "-c" (a_config a) ++ match m with [] => [] | _ => ["-D"; w_show W m] end)
  end.

(** launch.cpp:213-251. *)
Definition remote_options (W : world) (a : args) : list string :=
  flag "--compatible" (a_compatible a)
  ++ (match a_remote a with
      | Some x => ["-r"; x] ++ opt "--remote-instance-name" (a_instance a)
      | None => []
      end)
  ++ opt "--tls-ca-cert" (a_ca a)
  ++ opt "--tls-client-cert" (a_cert a)
  ++ opt "--tls-client-key" (a_key a)
  ++ opt "--max-attempts" (option_map (w_num W) (a_attempts a))
  ++ opt "--initial-backoff-seconds" (option_map (w_num W) (a_initial a))
  ++ opt "--max-backoff-seconds" (option_map (w_num W) (a_max a)).

(** launch.cpp:252-266. *)
Definition endpoint_options (fl : flags) (a : args) : list string :=
  (if f_dispatch fl then opt "--endpoint-configuration" (a_endpoint a) else [])
  ++ (if f_serve fl then opt "-R" (a_serve a) else [])
  ++ (if f_props fl then flat_map (fun p => ["--remote-execution-property"; p]) (a_props a) else []).

(** launch.cpp:267-272: the arguments of the rc file for this subcommand; the
    map holds the entry first found in the list. *)
Fixpoint find_args (s : string) (l : list (string * list string)) : list string :=
  match l with
  | [] => []
  | (k, v) :: r => if String.eqb s k then v else find_args s r
  end.

Definition rc_args (sub : option string) (a : args) : list string :=
  match sub with Some s => find_args s (a_just_args a) | None => [] end.

(** launch.cpp:276-311: the directory of the invocation log. The first
    component is whether the project id is acceptable. *)
Definition log_dir (W : world) (il : invlog) : bool * option string :=
  match il_directory il with
  | None => (true, None)
  | Some d =>
      match il_project_id il with
      | Some p =>
          if valid_file_name p
          then let dir := join (join d p) (w_id W) in
               (true, if w_mkdir W dir then Some dir else None)
          else (false, None)
      | None =>
          let dir := join (join d "unknown") (w_id W) in
          (true, if w_mkdir W dir then Some dir else None)
      end
  end.

(** launch.cpp:312-370: the options of one invocation; [None] when a name is
    not acceptable. *)
Definition named (dir name : string) (v : option string) : option (list string) :=
  match v with
  | None => Some []
  | Some f => if valid_file_name f then Some [name; join dir f] else None
  end.

Fixpoint all_of (l : list (option (list string))) : option (list string) :=
  match l with
  | [] => Some []
  | Some x :: r => option_map (fun t => x ++ t) (all_of r)
  | None :: _ => None
  end.

Definition invlog_options (fl : flags) (il : invlog) (dir : option string) : option (list string) :=
  match dir with
  | Some d =>
      if f_props fl
      then all_of [named d "--dump-graph" (il_graph il);
                   named d "--dump-plain-graph" (il_graph_plain il);
                   named d "--dump-artifacts-to-build" (il_to_build il);
                   (if f_build fl then named d "--dump-artifacts" (il_artifacts il) else Some []);
                   named d "--profile" (il_profile il)]
      else Some []
  | None => Some []
  end.

(** launch.cpp:379-386: is the name of the metadata file acceptable? *)
Definition metadata_ok (il : invlog) (dir : option string) : bool :=
  match dir, il_metadata il with
  | Some _, Some f => valid_file_name f
  | _, _ => true
  end.

(** launch.cpp:61-425 [CallJust] up to the call of execvp. *)
Definition call_just (W : world) (a : args) (c : call) : outcome :=
  let '(sub, rest) :=
    match j_subcmd c, j_extra c with
    | None, s :: r => (Some s, r)
    | s, r => (s, r)
    end in
  let fl := match sub with
            | Some s => match find_flags s known_subcommands with Some f => f | None => no_flags end
            | None => no_flags
            end in
  let go conf :=
    match (if f_defines fl then define_options W a c else Some []) with
    | None => ClargsError
    | Some defs =>
        let '(id_ok, dir) := log_dir W (a_invlog a) in
        if id_ok
        then match invlog_options fl (a_invlog a) dir with
             | None => ClargsError
             | Some inv =>
                 if metadata_ok (a_invlog a) dir
                 then Exec ((match a_just a with Some j => j | None => "just" end)
                            :: (match sub with Some s => [s] | None => [] end)
                            ++ head_options W fl conf a c
                            ++ log_options W a c
                            ++ defs
                            ++ (if f_remote fl then remote_options W a else [])
                            ++ endpoint_options fl a
                            ++ rc_args sub a
                            ++ inv
                            ++ rest)
                 else ClargsError
             end
        else ClargsError
    end in
  if f_config fl
  then if w_locks W
       then match w_setup W with Some conf => go conf | None => SetupError end
       else GenericFailure
  else go "".
