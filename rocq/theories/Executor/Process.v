(** Model of the processing of action nodes: ExecutorImpl and Executor in
    src/buildtool/execution_engine/executor/executor.hpp.

    The execution api (UploadTree, ComputeTreeOverlay, CreateAction with Execute, and the transfer of the
    input root to another endpoint) is a record of functions, so it is assumed to answer the same request
    always in the same way; for the local api see Local.v, for UploadTree the area Upload, for overlays
    the area TreeOps. Statistics, progress, profile and messages are not modelled. *)
From Coq Require Import String Ascii List Bool NArith ZArith.
From Verif Require Import Common.Strs Path.Model Describe.Model Executor.Wire Executor.Local.
Import ListNotations.
Local Open Scope string_scope.

(** [Action::IsTreeOverlayAction] (with [IsOverlayDisjoint]), [IsTreeAction], other actions. *)
Inductive kind := Overlay (disjoint : bool) | TreeAction | Command.

(** An action node: [Action] (action.hpp) and the linked artifact nodes (dag.hpp), the latter as numbers.
    [n_timeout] is the timeout after [ScaleTime] (floating point, 884-888). *)
Record act := mkAct {
  n_kind : kind;
  n_inputs : list (string * nat);
  n_files : list (string * nat);
  n_dirs : list (string * nat);
  n_command : list string;
  n_cwd : string;
  n_env : list (string * string);
  n_props : list (string * string);
  n_timeout : Z;
  n_may_fail : bool;
  n_no_cache : bool
}.

(** What is asked of the api: the arguments of [CreateAction], [SetCacheFlag] and [SetTimeout]. *)
Record order := mkOrder {
  o_root : digest;
  o_command : list string;
  o_cwd : string;
  o_files : list string;
  o_dirs : list string;
  o_env : list (string * string);
  o_props : list (string * string);
  o_flag : cache_flag;
  o_timeout : Z
}.

(** [IExecutionResponse]: exit code, [Artifacts], [HasUpwardsSymlinks] ([None] for errors). *)
Record reply := mkReply {
  y_exit : Z;
  y_artifacts : option (list (string * object_info));
  y_upwards : option bool
}.

(** The endpoints are the regular one ([None]) and those for dispatching, numbered. *)
Record api := mkApi {
  upload_tree : list (string * object_info) -> option digest;
  empty_tree : option digest;
  tree_overlay : bool -> digest -> object_info -> option digest;
  sync : nat -> digest -> bool;
  execute : option nat -> order -> option reply
}.

(** The context: hash type, platform properties of the configuration, dispatch list. *)
Record context := mkContext {
  x_type : hash_type;
  x_props : list (string * string);
  x_dispatch : list (list (string * string) * nat)
}.

(** [MergeProperties], executor.hpp:890-898; [ExecutionProperties] is a [std::map]. *)
Definition MergeProperties (base overlay : list (string * string)) : list (string * string) :=
  fold_left (fun m e => ainsert (fst e) (snd e) m) overlay base.

(** [GetAlternativeEndpoint], executor.hpp:904-936. *)
Definition matches (props pred : list (string * string)) : bool :=
  forallb (fun e => match alookup (fst e) props with Some v => String.eqb v (snd e) | None => false end) pred.
Definition GetAlternativeEndpoint (dispatch : list (list (string * string) * nat)) (props : list (string * string)) : option nat :=
  match find (fun e => matches props (fst e)) dispatch with Some (_, n) => Some n | None => None end.

(** [CreateRootDigest], executor.hpp:638-653. *)
Definition CreateRootDigest (A : api) (ins : list (string * object_info)) : option digest :=
  match ins with
  | [(p, i)] =>
      if (String.eqb p "." || String.eqb p "") && (match i_type i with Tree => true | _ => false end)
      then Some (i_digest i) else upload_tree A ins
  | _ => upload_tree A ins
  end.

Definition any_failed (ins : list (string * object_info)) : bool := existsb (fun e => i_failed (snd e)) ins.

(** [std::sort] by path, executor.hpp:93-95. Input paths of an action differ, so the order is unique. *)
Fixpoint insert_input (e : string * object_info) (l : list (string * object_info)) :=
  match l with
  | [] => [e]
  | x :: r => if str_ltb (fst x) (fst e) then x :: insert_input e r else e :: l
  end.
Definition sort_inputs (l : list (string * object_info)) : list (string * object_info) := fold_right insert_input [] l.

(** The loop over the overlays, executor.hpp:119-132. *)
Fixpoint overlays (A : api) (disjoint : bool) (tree : digest) (ins : list (string * object_info)) : option digest :=
  match ins with
  | [] => Some tree
  | (_, i) :: r =>
      match tree_overlay A disjoint tree i with
      | None => None
      | Some t => overlays A disjoint t r
      end
  end.

(** [ExecuteAction] gives no response (trees, with the digest and the flag of the output), a null pointer,
    or a response. *)
Inductive executed_action := NoResponse (d : digest) (failed : bool) | NullResponse | Response (y : reply).

(** [ExecuteTreeOverlayAction], executor.hpp:84-140. *)
Definition ExecuteTreeOverlayAction (A : api) (disjoint : bool) (ins : list (string * object_info)) : executed_action :=
  match empty_tree A with
  | None => NullResponse
  | Some e =>
      match overlays A disjoint e (sort_inputs ins) with
      | None => NullResponse
      | Some t => NoResponse t (any_failed ins)
      end
  end.

(** [RebasePathStringRelativeTo], path_rebase.hpp:22-26. *)
Definition rebase (base path : string) : string := lexically_relative path base.

(** What is sent to the endpoint, executor.hpp:225-249. *)
Definition order_of (n : act) (props : list (string * string)) (flag : cache_flag) (root : digest) : order :=
  mkOrder root (n_command n) (n_cwd n) (map (fun e : string * nat => rebase (n_cwd n) (fst e)) (n_files n))
    (map (fun e : string * nat => rebase (n_cwd n) (fst e)) (n_dirs n)) (n_env n) props flag (n_timeout n).

(** [ExecuteAction], executor.hpp:145-294. That outputs cannot be fetched back from another endpoint is
    only reported (284-288). *)
Definition ExecuteAction (X : context) (A : api) (n : act) (props : list (string * string)) (flag : cache_flag)
    (ins : list (string * object_info)) : executed_action :=
  match n_kind n with
  | Overlay disjoint => ExecuteTreeOverlayAction A disjoint ins
  | k =>
      match CreateRootDigest A ins with
      | None => NullResponse
      | Some root =>
          match k with
          | Command =>
              let alt := GetAlternativeEndpoint (x_dispatch X) props in
              if match alt with Some e => sync A e root | None => true end then
                match execute A alt (order_of n props flag root) with
                | None => NullResponse
                | Some y =>
                    if match x_type X with
                       | GitSHA1 => true
                       | PlainSHA256 => match y_upwards y with Some false => true | _ => false end
                       end
                    then match alt, y_artifacts y with Some _, None => NullResponse | _, _ => Response y end
                    else NullResponse
                end
              else NullResponse
          | _ => NoResponse root (any_failed ins)
          end
      end
  end.

(** [CheckOutputsExist], executor.hpp:656-677. *)
Definition CheckOutputsExist (is_tree : bool) (artifacts : list (string * object_info)) (outputs : list (string * nat))
    (base : string) : bool :=
  forallb (fun e : string * nat =>
    match alookup (rebase base (fst e)) artifacts with
    | Some i => match i_type i with
                | Tree => is_tree
                | Symlink => true
                | File | Executable => negb is_tree
                end
    | None => false
    end) outputs.

(** [Artifact::SetObjectInfo], artifact.hpp:154-164. *)
Definition set_info (i : object_info) (fail : bool) : object_info :=
  if fail then mkInfo (i_digest i) (i_type i) true else i.

(** What processing leaves: the result and the infos written to artifact nodes, in order. *)
Definition writes : Type := list (nat * object_info).

(** [SaveObjectInfo], executor.hpp:618-633. All lookups succeed after [CheckOutputsExist]. *)
Fixpoint save (artifacts : list (string * object_info)) (base : string) (fail : bool) (outputs : list (string * nat)) : writes :=
  match outputs with
  | [] => []
  | (p, a) :: r =>
      match alookup (rebase base p) artifacts with
      | Some i => (a, set_info i fail) :: save artifacts base fail r
      | None => save artifacts base fail r
      end
  end.

(** [ParseResponse], executor.hpp:681-784. *)
Definition ParseResponse (n : act) (ins : list (string * object_info)) (y : reply) : bool * writes :=
  if negb (Z.eqb (y_exit y) 0) && negb (n_may_fail n) then (false, [])
  else
    let fail := any_failed ins || negb (Z.eqb (y_exit y) 0) in
    match y_artifacts y with
    | None => (false, [])
    | Some m =>
        match m with
        | [] => (false, [])
        | _ =>
            if CheckOutputsExist false m (n_files n) (n_cwd n) && CheckOutputsExist true m (n_dirs n) (n_cwd n)
            then (true, save m (n_cwd n) fail (n_files n ++ n_dirs n)%list)
            else (false, [])
        end
    end.

(** [Executor::Process] for actions, executor.hpp:961-1037; [ins] are the inputs with their infos. The
    output of trees is the first output directory. *)
Definition Process (X : context) (A : api) (n : act) (ins : list (string * object_info)) : bool * writes :=
  match ExecuteAction X A n (MergeProperties (x_props X) (n_props n))
          (if n_no_cache n then DoNotCacheOutput else CacheOutput) ins with
  | NoResponse d f =>
      (true, match n_dirs n with (_, a) :: _ => [(a, mkInfo d Tree f)] | [] => [] end)
  | NullResponse => (false, [])
  | Response y => ParseResponse n ins y
  end.
