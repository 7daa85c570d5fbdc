(** * How just-mr reads its rc files

    Models [src/other_tools/just_mr/rc.cpp], [src/other_tools/just_mr/rc_merge.cpp],
    [src/buildtool/common/location.cpp] and the part of
    [src/other_tools/just_mr/main.cpp] that fills in what neither the command
    line nor the rc file sets.

    Simplifications, used throughout:
    - a JSON number is the integer to which std::lround rounds it;
    - every way of ending with an error (std::exit with a code, or an
      exception that main.cpp reports) is the single outcome [Exit];
    - the file system is a record of functions; reading and parsing a file is
      one function, which is [None] when the content is not JSON. *)

From Coq Require Import String Ascii List Arith Lia Bool ZArith NArith.
Import ListNotations.
Open Scope string_scope.
Open Scope list_scope.
Open Scope nat_scope.

(** The values of an rc file: [nlohmann::json], read as [Expression]
    (expression.hpp: none_t, bool, number_t, string, list_t, map_t). An object
    is the list of its entries, looked up by the first entry with the key. *)
Inductive value : Type :=
| VNone
| VBool (b : bool)
| VNum (z : Z)
| VStr (s : string)
| VList (l : list value)
| VMap (m : list (string * value)).

(** expression.hpp:161-173 [Expression::Get]: the entry or none. *)
Fixpoint find (k : string) (m : list (string * value)) : option value :=
  match m with
  | [] => None
  | (k', v) :: r => if String.eqb k k' then Some v else find k r
  end.

Definition get (k : string) (m : list (string * value)) : value :=
  match find k m with Some v => v | None => VNone end.

(** configuration.hpp:134-140 [Configuration::Update]: a linked map whose
    upper layer is [delta] (see LinkedMap); its entries are those of [delta]
    and the entries of [base] with other keys. *)
Definition has (k : string) (m : list (string * value)) : bool :=
  existsb (fun e => String.eqb k (fst e)) m.

Definition update (base delta : list (string * value)) : list (string * value) :=
  delta ++ filter (fun e => negb (has (fst e) delta)) base.

(** ** Outcomes *)
Inductive res (A : Type) : Type :=
| Ok (a : A)
| Exit.
Arguments Ok {A} a.
Arguments Exit {A}.

Definition bind {A B} (r : res A) (f : A -> res B) : res B :=
  match r with Ok a => f a | Exit => Exit end.

Notation "'do' x <- r ; f" := (bind r (fun x => f)) (at level 100, x pattern, r at level 99, f at level 200).

(** ** The environment of the process *)
Record fsys : Type := FS {
  is_file : string -> bool;           (* FileSystemManager::IsFile *)
  is_dir : string -> bool;            (* FileSystemManager::IsDirectory *)
  content : string -> option value    (* json::parse of the file, FromJson *)
}.

Record env : Type := Env {
  home : string;                      (* FileSystemManager::GetUserHome *)
  canon : string -> string;           (* std::filesystem::weakly_canonical *)
  can_write : string -> bool          (* can an ofstream to this path be opened *)
}.

(** operator/ of std::filesystem::path on POSIX: an absolute right-hand side
    replaces everything; an empty left-hand side adds no separator. *)
Definition absolute (p : string) : bool :=
  match p with String c _ => Ascii.eqb c "/"%char | EmptyString => false end.

Fixpoint ends_in_slash (p : string) : bool :=
  match p with
  | EmptyString => false
  | String c EmptyString => Ascii.eqb c "/"%char
  | String _ r => ends_in_slash r
  end.

Definition join (a b : string) : string :=
  if absolute b then b
  else match a with
       | EmptyString => b
       | _ => if ends_in_slash a then (a ++ b)%string else (a ++ "/" ++ b)%string
       end.

(** location.cpp:22-54 [ReadLocationObject]. [json::contains] is false on
    anything but an object; [get<std::string>] throws on anything but a
    string. A root that is none of the three known words leaves [root_path]
    empty (location.cpp:34). *)
Definition read_location_object (E : env) (ws : option string) (loc : value)
  : res (option (string * string)) :=
  match loc with
  | VMap m =>
      match find "path" m, find "root" m with
      | Some (VStr path), Some (VStr root) =>
          match (match find "base" m with
                 | Some (VStr b) => Some b
                 | Some _ => None
                 | None => Some "."
                 end) with
          | None => Exit
          | Some base =>
              let at_root r := Ok (Some (canon E (join r path), canon E (join r base))) in
              if String.eqb root "workspace"
              then match ws with None => Ok None | Some w => at_root w end
              else if String.eqb root "home" then at_root (home E)
              else if String.eqb root "system" then at_root "/"
              else at_root ""
          end
      | _, _ => Exit
      end
  | _ => Exit
  end.

(** rc.cpp:48-61 [ReadLocation] on an expression: none is no location. *)
Definition read_location (E : env) (ws : option string) (loc : value)
  : res (option (string * string)) :=
  match loc with VNone => Ok None | _ => read_location_object E ws loc end.

(** rc.cpp:90-95, 586-598, 670-691: the first location in a list that is an
    existing file. *)
Fixpoint first_file (E : env) (F : fsys) (ws : option string) (l : list value)
  : res (option (string * string)) :=
  match l with
  | [] => Ok None
  | v :: r =>
      do p <- read_location E ws v;
      match p with
      | Some (a, b) => if is_file F a then Ok (Some (a, b)) else first_file E F ws r
      | None => first_file E F ws r
      end
  end.

(** rc.cpp:76-97 [ReadOptionalLocationList]. *)
Definition read_optional_location_list (E : env) (F : fsys) (ws : option string) (v : value)
  : res (option string) :=
  match v with
  | VNone => Ok None
  | VList l => do p <- first_file E F ws l; Ok (option_map fst p)
  | _ => Exit
  end.

(** rc_merge.cpp:27-29. *)
Definition k_accumulating : list string := ["distdirs"].
Definition k_local_merge : list string := ["just args"; "just files"; "invocation log"].

Definition as_list (v : value) : list value := match v with VList l => l | _ => [] end.
Definition as_map (v : value) : list (string * value) := match v with VMap m => m | _ => [] end.

(** rc_merge.cpp:33-74 [MergeMRRC]. *)
Definition merge_mrrc (base delta : list (string * value)) : list (string * value) :=
  let r0 := update base delta in
  let r1 := fold_left (fun r f =>
      update r [(f, VList (as_list (get f delta) ++ as_list (get f base)))])
      k_accumulating r0 in
  fold_left (fun r f =>
      update r [(f, VMap (update (update [] (as_map (get f base))) (as_map (get f delta))))])
      k_local_merge r1.

(** rc.cpp:99-140 [ObtainRCConfig]; the file at the default path may be
    missing, an explicitly given one may not. *)
Definition obtain_rc_config (E : env) (F : fsys) (norc : bool) (rc_path : option string)
  : res (list (string * value)) :=
  if norc then Ok []
  else
    do p <- (match rc_path with
             | None => Ok (canon E (join (home E) ".just-mrrc"))
             | Some p => if is_file F p then Ok p else Exit
             end);
    if is_file F p
    then match content F p with Some (VMap m) => Ok m | _ => Exit end
    else Ok [].

(** rc.cpp:151-193: merge in the files named by "rc files" of the first one.
    The list is fixed before the first merge. *)
Fixpoint merge_extra (E : env) (F : fsys) (ws : option string) (l : list value)
    (rc : list (string * value)) : res (list (string * value)) :=
  match l with
  | [] => Ok rc
  | v :: r =>
      do p <- read_location E ws v;
      match p with
      | Some (a, _) =>
          if is_file F a
          then match content F a with
               | Some (VMap m) => merge_extra E F ws r (merge_mrrc rc m)
               | _ => Exit
               end
          else merge_extra E F ws r rc
      | None => merge_extra E F ws r rc
      end
  end.

Definition effective_rc (E : env) (F : fsys) (ws : option string) (norc : bool)
    (rc_path : option string) : res (list (string * value)) :=
  do rc <- obtain_rc_config E F norc rc_path;
  match get "rc files" rc with
  | VNone => Ok rc
  | VList l => merge_extra E F ws l rc
  | _ => Exit
  end.

(** rc.cpp:195-201: with --dump-rc the effective configuration, without the
    key "rc files", is written to the file. A stream that cannot be opened is
    silently ignored. *)
Definition erase (k : string) (m : list (string * value)) : list (string * value) :=
  filter (fun e => negb (String.eqb k (fst e))) m.

Definition write_file (F : fsys) (p : string) (v : value) : fsys :=
  FS (fun q => if String.eqb q p then true else is_file F q)
     (fun q => if String.eqb q p then false else is_dir F q)
     (fun q => if String.eqb q p then Some v else content F q).

Definition dump (E : env) (F : fsys) (d : option string) (rc : list (string * value)) : fsys :=
  match d with
  | None => F
  | Some p => if can_write E p then write_file F p (VMap (erase "rc files" rc)) else F
  end.

(** ** The settings *)

(** cli.hpp:85-102 [InvocationLogArguments] of just-mr. *)
Record invlog : Type := InvLog {
  il_directory : option string;
  il_project_id : option string;
  il_metadata : option string;
  il_graph : option string;
  il_graph_plain : option string;
  il_to_build : option string;
  il_artifacts : option string;
  il_profile : option string;
  il_message : option string;
  il_context : list string
}.

(** The arguments of just-mr (cli.hpp:43-130, [CommandLineArguments]) that the
    rc file may set. *)
Record args : Type := Args {
  a_root : option string;
  a_checkout : option string;
  a_distdirs : list string;
  a_just : option string;
  a_git : option string;
  a_config : option string;              (* just files: config *)
  a_endpoint : option string;            (* just files: endpoint-configuration *)
  a_just_args : list (string * list string);
  a_props : list string;
  a_attempts : option Z;
  a_initial : option Z;
  a_max : option Z;
  a_launcher : option (list string);
  a_log_limit : option Z;
  a_restrict : option Z;
  a_log_files : list string;
  a_remote : option string;
  a_instance : option string;
  a_compatible : bool;
  a_serve : option string;
  a_ca : option string;
  a_cert : option string;
  a_key : option string;
  a_absent : option string;
  a_invlog : invlog;
  a_setup_root : option string;          (* the base of the configuration found *)
  a_repos : option string                (* the returned configuration file *)
}.

(** rc.cpp:203-211 and the like: a location, unless already given. *)
Definition opt_location (E : env) (ws : option string) (given : option string) (v : value)
  : res (option string) :=
  match given with
  | Some x => Ok (Some x)
  | None => do p <- read_location E ws v; Ok (option_map fst p)
  end.

(** rc.cpp:212-226: the checkout locations have to exist. *)
Definition opt_checkout (E : env) (F : fsys) (ws : option string) (given : option string)
    (v : value) : res (option string) :=
  match given with
  | Some x => Ok (Some x)
  | None =>
      do p <- read_location E ws v;
      match p with
      | Some (a, _) => if is_file F a then Ok (Some a) else Exit
      | None => Ok None
      end
  end.

(** rc.cpp:227-253. *)
Fixpoint add_distdirs (E : env) (F : fsys) (ws : option string) (l : list value)
    (acc : list string) : res (list string) :=
  match l with
  | [] => Ok acc
  | v :: r =>
      do p <- read_location E ws v;
      match p with
      | Some (a, _) => add_distdirs E F ws r (if is_dir F a then acc ++ [a] else acc)
      | None => add_distdirs E F ws r acc
      end
  end.

Definition read_distdirs (E : env) (F : fsys) (ws : option string) (given : list string)
    (v : value) : res (list string) :=
  match v with
  | VNone => Ok given
  | VList l => add_distdirs E F ws l given
  | _ => Exit
  end.

(** rc.cpp:270-289. Both are overwritten, whatever they were. *)
Definition read_just_files (E : env) (F : fsys) (ws : option string)
    (c e : option string) (v : value) : res (option string * option string) :=
  match v with
  | VNone => Ok (c, e)
  | VMap m =>
      do c' <- read_optional_location_list E F ws (get "config" m);
      do e' <- read_optional_location_list E F ws (get "endpoint-configuration" m);
      Ok (c', e')
  | _ => Exit
  end.

(** A list of strings (rc.cpp:301-325, 340-351, 405-417). *)
Fixpoint strings (l : list value) : res (list string) :=
  match l with
  | [] => Ok []
  | VStr s :: r => do t <- strings r; Ok (s :: t)
  | _ :: _ => Exit
  end.

(** rc.cpp:290-328. *)
Fixpoint read_arg_lists (m : list (string * value)) : res (list (string * list string)) :=
  match m with
  | [] => Ok []
  | (c, VList l) :: r =>
      do s <- strings l;
      do t <- read_arg_lists r;
      Ok ((c, s) :: t)
  | _ :: _ => Exit
  end.

Definition read_just_args (given : list (string * list string)) (v : value)
  : res (list (string * list string)) :=
  match v with
  | VNone => Ok given
  | VMap m => do t <- read_arg_lists m; Ok (t ++ given)
  | _ => Exit
  end.

(** rc.cpp:329-352. *)
Definition read_props (given : list string) (v : value) : res (list string) :=
  match v with
  | VNone => Ok given
  | VList l => do s <- strings l; Ok (given ++ s)
  | _ => Exit
  end.

(** rc.cpp:353-395: static_cast of the rounded number to unsigned int. *)
Definition to_unsigned (z : Z) : Z := (z mod 4294967296)%Z.

Definition opt_unsigned (given : option Z) (v : value) : res (option Z) :=
  match given with
  | Some x => Ok (Some x)
  | None => match v with
            | VNone => Ok None
            | VNum z => Ok (Some (to_unsigned z))
            | _ => Exit
            end
  end.

(** rc.cpp:396-424; clidefaults.hpp:24-25 [kDefaultLauncher]. *)
Definition opt_launcher (given : option (list string)) (v : value)
  : res (option (list string)) :=
  match given with
  | Some x => Ok (Some x)
  | None => match v with
            | VNone => Ok (Some ["env"; "--"])
            | VList l => do s <- strings l; Ok (Some s)
            | _ => Exit
            end
  end.

(** rc.cpp:425-453; log_level.hpp:39-60 [ToLogLevel]: the levels are 0 to 6. *)
Definition to_log_level (z : Z) : Z := Z.min (Z.max z 0) 6.

Definition opt_level (given : option Z) (v : value) : res (option Z) :=
  match given with
  | Some x => Ok (Some x)
  | None => match v with
            | VNone => Ok None
            | VNum z => Ok (Some (to_log_level z))
            | _ => Exit
            end
  end.

(** rc.cpp:454-474. *)
Fixpoint add_log_files (E : env) (ws : option string) (l : list value) (acc : list string)
  : res (list string) :=
  match l with
  | [] => Ok acc
  | v :: r =>
      do p <- read_location E ws v;
      match p with
      | Some (a, _) => add_log_files E ws r (acc ++ [a])
      | None => add_log_files E ws r acc
      end
  end.

Definition read_log_files (E : env) (ws : option string) (given : list string) (v : value)
  : res (list string) :=
  match v with
  | VNone => Ok given
  | VList l => add_log_files E ws l given
  | _ => Exit
  end.

(** rc.cpp:484-507, 535-546. *)
Definition opt_string (given : option string) (v : value) : res (option string) :=
  match given with
  | Some x => Ok (Some x)
  | None => match v with
            | VNone => Ok None
            | VStr s => Ok (Some s)
            | _ => Exit
            end
  end.

(** rc.cpp:508-522. The flag of the command line can only be set. *)
Definition opt_flag (given : bool) (v : value) : res bool :=
  if given then Ok true
  else match v with
       | VNone => Ok false
       | VBool b => Ok b
       | _ => Exit
       end.

(** rc.cpp:475-524, 525-548 and 549-583: an object of options; when the key is
    absent nothing changes. *)
Definition sub_map (v : value) : res (list (string * value)) :=
  match v with
  | VNone => Ok []
  | VMap m => Ok m
  | _ => Exit
  end.

(** rc.cpp:584-598. Anything but a list is ignored. *)
Definition opt_absent (E : env) (F : fsys) (ws : option string) (given : option string)
    (v : value) : res (option string) :=
  match given with
  | Some x => Ok (Some x)
  | None => match v with
            | VList l => do p <- first_file E F ws l; Ok (option_map fst p)
            | _ => Ok None
            end
  end.

Definition str_or_none (v : value) : option string :=
  match v with VStr s => Some s | _ => None end.

(** rc.cpp:599-669. Entries of other types are ignored; without a directory
    the rest is not read. The members are not settable on the command line. *)
Definition no_invlog : invlog :=
  InvLog None None None None None None None None None [].

Definition read_invlog (E : env) (ws : option string) (v : value) : res invlog :=
  match v with
  | VNone => Ok no_invlog
  | VMap m =>
      do p <- read_location E ws (get "directory" m);
      match p with
      | None => Ok no_invlog
      | Some (d, _) =>
          let s k := str_or_none (get k m) in
          Ok (InvLog (Some d) (s "project id") (s "metadata") (s "--dump-graph")
                (s "--dump-plain-graph") (s "--dump-artifacts-to-build")
                (s "--dump-artifacts") (s "--profile") (s "invocation message")
                (flat_map (fun x => match x with VStr t => [t] | _ => [] end)
                   (as_list (get "context variables" m))))
      end
  | _ => Exit
  end.

(** utils.hpp:156-160 [kDefaultConfigLocations]. *)
Definition loc (root path : string) : value :=
  VMap [("root", VStr root); ("path", VStr path)].

Definition default_config_locations : list value :=
  [loc "workspace" "repos.json"; loc "workspace" "etc/repos.json";
   loc "home" ".just-repos.json"; loc "system" "etc/just-repos.json"].

(** rc.cpp:670-692. [List()] throws on anything but a list. *)
Definition find_config (E : env) (F : fsys) (ws : option string) (v : value)
  : res (option (string * string)) :=
  match v with
  | VNone => first_file E F ws default_config_locations
  | VList l => first_file E F ws l
  | _ => Exit
  end.

(** rc.cpp:144-693 [ReadJustMRRC], with [given] the arguments of the command
    line. The members [a_setup_root] and [a_repos] of [given] are not used. *)
Definition read_settings (E : env) (F : fsys) (ws : option string) (given : args)
    (rc : list (string * value)) : res args :=
  do root <- opt_location E ws (a_root given) (get "local build root" rc);
  do checkout <- opt_checkout E F ws (a_checkout given) (get "checkout locations" rc);
  do distdirs <- read_distdirs E F ws (a_distdirs given) (get "distdirs" rc);
  do just <- opt_location E ws (a_just given) (get "just" rc);
  do git <- opt_location E ws (a_git given) (get "git" rc);
  do files <- read_just_files E F ws (a_config given) (a_endpoint given) (get "just files" rc);
  do jargs <- read_just_args (a_just_args given) (get "just args" rc);
  do props <- read_props (a_props given) (get "remote-execution properties" rc);
  do attempts <- opt_unsigned (a_attempts given) (get "max attempts" rc);
  do initial <- opt_unsigned (a_initial given) (get "initial backoff seconds" rc);
  do max <- opt_unsigned (a_max given) (get "max backoff seconds" rc);
  do launcher <- opt_launcher (a_launcher given) (get "local launcher" rc);
  do limit <- opt_level (a_log_limit given) (get "log limit" rc);
  do restrict <- opt_level (a_restrict given) (get "restrict stderr log limit" rc);
  do log_files <- read_log_files E ws (a_log_files given) (get "log files" rc);
  do remote <- sub_map (get "remote execution" rc);
  do address <- opt_string (a_remote given) (get "address" remote);
  do instance <- opt_string (a_instance given) (get "instance name" remote);
  do compatible <- opt_flag (a_compatible given) (get "compatible" remote);
  do serve <- sub_map (get "remote serve" rc);
  do serve_address <- opt_string (a_serve given) (get "address" serve);
  do auth <- sub_map (get "authentication" rc);
  do ca <- opt_location E ws (a_ca given) (get "ca cert" auth);
  do cert <- opt_location E ws (a_cert given) (get "client cert" auth);
  do key <- opt_location E ws (a_key given) (get "client key" auth);
  do absent <- opt_absent E F ws (a_absent given) (get "absent" rc);
  do il <- read_invlog E ws (get "invocation log" rc);
  do conf <- find_config E F ws (get "config lookup order" rc);
  Ok (Args root checkout distdirs just git (fst files) (snd files) jargs props
        attempts initial max launcher limit restrict log_files address instance
        compatible serve_address ca cert key absent il
        (option_map snd conf) (option_map fst conf)).

(** The command line: what it gives for the settings, and the three options
    that say which rc file is read and where the result is written
    (just_mr/cli.hpp:54-57). *)
Record cmdline : Type := Cmdline {
  c_norc : bool;
  c_rc : option string;
  c_dump : option string;
  c_given : args
}.

(** The outcome of [ReadJustMRRC]: the settings and the file system after. *)
Definition read_just_mrrc (E : env) (F : fsys) (ws : option string) (c : cmdline)
  : res (args * fsys) :=
  do rc <- effective_rc E F ws (c_norc c) (c_rc c);
  let F' := dump E F (c_dump c) rc in
  do a <- read_settings E F' ws (c_given c) rc;
  Ok (a, F').
