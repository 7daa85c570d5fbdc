(** Builds on an action cache that others use as well: the processing of actions (Executor/Process.v, Build.v) with the
    local execution api (Executor/Local.v), which looks the action up in the action cache when its processing begins,
    and, if it had to run the command, writes the result to the cache when it ends. In between, and before the build,
    anybody else can run actions, write to the cache and remove entries from it. *)
From Coq Require Import String Ascii List Bool Arith NArith ZArith.
From Verif Require Import Common.Strs Path.Model Describe.Model Executor.Wire Executor.Local Dag.Traverse Executor.Process Executor.Build.
Import ListNotations.
Local Open Scope string_scope.
Local Open Scope list_scope.

Section Incremental.
Variable hash : string -> string.
Variable t : hash_type.
(** [force_legacy] of [LocalApi::CreateAction], local_api.cpp:62-85. *)
Variable legacy : bool.
(** [LocalCasReader::IsDirectoryValid], used by [LocalResponse::Populate]. *)
Variable valid : digest -> option bool.
(** Everything else: [UploadTree], overlays, transfers, and the other endpoints. *)
Variable rest : api.
Variable X : context.
(** The executions that take place, here or elsewhere: an action with what running it did. *)
Variable happens : local_action -> world -> Prop.
(** The ids of actions whose entries in the cache are not removed. *)
Variable keep : string -> Prop.

(** The arguments of [CreateAction], executor.hpp:231-249, handed to [LocalApi::CreateAction]. *)
Definition action_of (o : order) : local_action :=
  CreateAction t (o_root o) (o_command o) (o_cwd o) (o_files o) (o_dirs o) (o_env o) (o_props o) (o_timeout o) legacy.

(** [LocalResponse]: [ExitCode], [Artifacts], [HasUpwardsSymlinks], local_response.hpp:60-146. *)
Definition reply_of (p : response) : reply :=
  match Populate hash t valid (p_result p) with
  | Some (m, up) => mkReply (r_exit (p_result p)) (Some m) (Some up)
  | None => mkReply (r_exit (p_result p)) None None
  end.

(** The api of the executor when the cache is [ac] and commands do what [w] says. *)
Definition local_api (ac : cache) (w : local_action -> world) : api :=
  mkApi (upload_tree rest) (empty_tree rest) (tree_overlay rest) (sync rest)
    (fun e o =>
       match e with
       | Some _ => execute rest e o
       | None =>
           match fst (fst (Execute hash t ac (o_flag o) (action_of o) (w (action_of o)))) with
           | Some p => Some (reply_of p)
           | None => None
           end
       end).

(** What the processing of an action asks of the local api, executor.hpp:145-249; nothing for trees, and nothing if the
    inputs cannot be uploaded or another endpoint is responsible. *)
Definition asked (n : act) (ins : list (string * object_info)) : option (cache_flag * local_action) :=
  match n_kind n with
  | Command =>
      let props := MergeProperties (x_props X) (n_props n) in
      match CreateRootDigest rest ins, GetAlternativeEndpoint (x_dispatch X) props with
      | Some root, None =>
          let f := if n_no_cache n then DoNotCacheOutput else CacheOutput in
          Some (f, action_of (order_of n props f root))
      | _, _ => None
      end
  | _ => None
  end.

(** The write at the end of [LocalAction::Run], local_action.cpp:219-232. *)
Definition stored (f : cache_flag) (a : local_action) (w : world) (ac : cache) : cache :=
  match CreateActionDigest hash t a (negb (CacheEnabled f)) with
  | Some id => snd (Run t id f a w ac)
  | None => ac
  end.

(** What others do to the cache: run actions, by whatever tool and with whatever flag, or remove entries (garbage
    collection, see Storage). *)
Inductive by_others (ac : cache) : cache -> Prop :=
| o_nothing : by_others ac ac
| o_run ac' f a w : by_others ac ac' -> happens a w -> by_others ac (stored f a w ac')
| o_forget ac' id : by_others ac ac' -> ~ keep id -> by_others ac (filter (fun x => negb (String.eqb (fst x) id)) ac').

(** A build under way: the cache, the build, what is being executed (with what running it does, if it is run), and a
    record of what was asked (and whether a command was run for it) and what is done. *)
Record system := mkSystem {
  y_cache : cache;
  y_build : build;
  y_running : nat -> option (cache_flag * local_action * option world);
  y_asked : list (nat * cache_flag * local_action * bool);
  y_done : list (nat * cache_flag * local_action)
}.

Variable acts : nat -> act.
Variable source : nat -> option object_info.

Definition asks (s : system) (e : event) : option (nat * (cache_flag * local_action)) :=
  match e with
  | EStart (Act c) =>
      match read_inputs (b_infos (y_build s)) (n_inputs (acts c)) with
      | Some ins => match asked (acts c) ins with Some r => Some (c, r) | None => None end
      | None => None
      end
  | _ => None
  end.
Definition runs_command (s : system) (f : cache_flag) (a : local_action) (w : world) : bool :=
  snd (Execute hash t (y_cache s) f a w).

(** An event of the build. *)
Definition proceed (s : system) (e : event) (w : world) (b : build) : system :=
  match e with
  | EStart (Act c) =>
      match asks s e with
      | Some (_, (f, a)) =>
          let x := runs_command s f a w in
          mkSystem (y_cache s) b (fun y => if Nat.eqb y c then Some (f, a, if x then Some w else None) else y_running s y)
            ((c, f, a, x) :: y_asked s) (y_done s)
      | None => mkSystem (y_cache s) b (fun y => if Nat.eqb y c then None else y_running s y) (y_asked s) (y_done s)
      end
  | EEnd (Act c) _ =>
      match y_running s c with
      | Some (f, a, o) =>
          mkSystem (match o with Some w => stored f a w (y_cache s) | None => y_cache s end) b (y_running s) (y_asked s) ((c, f, a) :: y_done s)
      | None => mkSystem (y_cache s) b (y_running s) (y_asked s) (y_done s)
      end
  | _ => mkSystem (y_cache s) b (y_running s) (y_asked s) (y_done s)
  end.

(** A build with the log [l] (newest first) that began on the cache [ac]. *)
Inductive building (ac : cache) : list event -> system -> Prop :=
| b_begin : building ac [] (mkSystem ac (mkBuild (fun _ => None) (fun _ => None)) (fun _ => None) [] [])
| b_others l s ac' : building ac l s -> by_others (y_cache s) ac' ->
    building ac l (mkSystem ac' (y_build s) (y_running s) (y_asked s) (y_done s))
| b_event l s e w b : building ac l s ->
    (forall c f a, asks s e = Some (c, (f, a)) -> runs_command s f a w = true -> happens a w) ->
    replay_event X (local_api (y_cache s) (fun _ => w)) acts source (y_build s) e = Fine b ->
    building ac (e :: l) (proceed s e w b).
End Incremental.
