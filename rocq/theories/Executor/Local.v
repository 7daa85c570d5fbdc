(** Model of the execution of actions by the local api:
    src/buildtool/execution_api/local/local_action.{hpp,cpp}, local_response.hpp, the caching flags of
    common/execution_action.hpp and utils/outputscheck.hpp.

    The file system and the command are an oracle: what running an action does is a [world], which
    tells the exit code and what is found afterwards at each output path (with the digest under which
    the storage took it, if it did). The action cache is a map from the hash of action ids to results;
    storing and reading back the bytes of a result (LocalAC, modelled in Storage) is assumed to return
    what was stored. *)
From Coq Require Import String Ascii List Bool NArith ZArith.
From Verif Require Import Common.Strs Path.Model Describe.Model Executor.Wire.
Import ListNotations.
Local Open Scope string_scope.

(** [IExecutionAction::CacheFlag], execution_action.hpp:32-37. *)
Inductive cache_flag := CacheOutput | DoNotCacheOutput | FromCacheOnly | PretendCached.

(** [CacheEnabled], execution_action.hpp:41-43. *)
Definition CacheEnabled (f : cache_flag) : bool :=
  match f with CacheOutput | FromCacheOnly => true | _ => false end.
(** [ExecutionEnabled], execution_action.hpp:45-49. *)
Definition ExecutionEnabled (f : cache_flag) : bool :=
  match f with CacheOutput | DoNotCacheOutput | PretendCached => true | _ => false end.

(** [LocalAction::RequestMode], local_action.hpp:48-52. *)
Inductive mode := V2_0 | V2_1 | BestEffort.

(** The members of [LocalAction], local_action.hpp:83-95. *)
Record local_action := mkAction {
  a_root : digest;
  a_command : list string;
  a_cwd : string;
  a_files : list string;
  a_dirs : list string;
  a_paths : list string;
  a_env : list (string * string);
  a_props : list (string * string);
  a_timeout : Z;
  a_mode : mode
}.

(** [std::sort] on strings. *)
Fixpoint insert (s : string) (l : list string) : list string :=
  match l with
  | [] => [s]
  | x :: r => if str_ltb x s then x :: insert s r else s :: l
  end.
Definition sort (l : list string) : list string := fold_right insert [] l.

(** The constructors, local_action.hpp:97-146, followed by [SetTimeout] (79-81). [env] and [props] are
    [std::map]s. *)
Definition new_action (root : digest) (command : list string) (cwd : string) (files dirs : list string)
    (env props : list (string * string)) (timeout : Z) (best_effort : bool) : local_action :=
  let files := sort files in
  let dirs := sort dirs in
  mkAction root command cwd files dirs (if best_effort then sort (files ++ dirs)%list else []) env props timeout
    (if best_effort then BestEffort else V2_0).
Definition new_action_paths (root : digest) (command : list string) (cwd : string) (paths : list string)
    (env props : list (string * string)) (timeout : Z) : local_action :=
  mkAction root command cwd [] [] (sort paths) env props timeout V2_1.

(** [LocalApi::CreateAction], local_api.cpp:62-85. *)
Definition CreateAction (t : hash_type) (root : digest) (command : list string) (cwd : string)
    (files dirs : list string) (env props : list (string * string)) (timeout : Z) (force_legacy : bool) : local_action :=
  let force_legacy := match t with GitSHA1 => true | PlainSHA256 => force_legacy end in
  new_action root command cwd files dirs env props timeout (negb force_legacy).

(** [bazel_re::ActionResult]: exit code, output files (path, digest, executable), output directories,
    output symlinks of the kinds file, directory and unspecified (path, target), stdout, stderr. *)
Record result := mkResult {
  r_exit : Z;
  r_files : list (string * (digest * bool));
  r_dirs : list (string * digest);
  r_flinks : list (string * string);
  r_dlinks : list (string * string);
  r_links : list (string * string);
  r_stdout : option digest;
  r_stderr : option digest
}.

(** What [FileSystemManager::Type] with upwards symlinks allowed tells about a path
    (file_system_manager.hpp:646-681) and what becomes of its content: a file with its executable
    permission and the digest under which it was stored, a symlink with its content (unless it could not be
    read) and whether storing it worked, a directory with the digest of the stored tree (none if it has
    invalid entries or storing failed). *)
Inductive found :=
  | FFile (exec : bool) (stored : option digest)
  | FLink (content : option string) (stored : bool)
  | FDir (stored : option digest).

(** The effects of running the action. [w_exit] is [None] if the execution directory could not be set up
    or the command could not be started. [w_store] is the result of [StoreResult]. *)
Record world := mkWorld {
  w_exit : option Z;
  w_at : string -> option found;
  w_stdout : option digest;
  w_stderr : option digest;
  w_store : bool
}.

Inductive collected :=
  | CFile (d : digest) (exec : bool)
  | CLink (target : string)
  | CDir (d : digest).

Section Local.
Variable hash : string -> string.
Variable t : hash_type.

(** The part about symlinks common to local_action.cpp:352-376, 408-431 and 473-496. *)
Definition collect_link (content : option string) (stored : bool) : option collected :=
  match content with
  | Some c =>
      if (match t with GitSHA1 => true | PlainSHA256 => false end) && negb (PathIsNonUpwards c) then None
      else if stored then Some (CLink c) else None
  | None => None
  end.

(** [CollectOutputFileOrSymlink], local_action.cpp:346-396. *)
Definition CollectOutputFileOrSymlink (w : world) (path : string) : option collected :=
  match w_at w path with
  | Some (FLink c st) => collect_link c st
  | Some (FFile x (Some d)) => Some (CFile d x)
  | _ => None
  end.

(** [CollectOutputDirOrSymlink], local_action.cpp:398-449. *)
Definition CollectOutputDirOrSymlink (w : world) (path : string) : option collected :=
  match w_at w path with
  | Some (FLink c st) => collect_link c st
  | Some (FDir (Some d)) => Some (CDir d)
  | _ => None
  end.

(** [CollectOutputPath], local_action.cpp:451-517. *)
Definition CollectOutputPath (w : world) (path : string) : option collected :=
  match w_at w path with
  | Some (FLink c st) => collect_link c st
  | Some (FFile x (Some d)) => Some (CFile d x)
  | Some (FDir (Some d)) => Some (CDir d)
  | _ => None
  end.

Definition add_file (p : string) (d : digest) (x : bool) (r : result) : result :=
  mkResult (r_exit r) (r_files r ++ [(p, (d, x))])%list (r_dirs r) (r_flinks r) (r_dlinks r) (r_links r) (r_stdout r) (r_stderr r).
Definition add_dir (p : string) (d : digest) (r : result) : result :=
  mkResult (r_exit r) (r_files r) (r_dirs r ++ [(p, d)])%list (r_flinks r) (r_dlinks r) (r_links r) (r_stdout r) (r_stderr r).
Definition add_flink (p c : string) (r : result) : result :=
  mkResult (r_exit r) (r_files r) (r_dirs r) (r_flinks r ++ [(p, c)])%list (r_dlinks r) (r_links r) (r_stdout r) (r_stderr r).
Definition add_dlink (p c : string) (r : result) : result :=
  mkResult (r_exit r) (r_files r) (r_dirs r) (r_flinks r) (r_dlinks r ++ [(p, c)])%list (r_links r) (r_stdout r) (r_stderr r).
Definition add_link (p c : string) (r : result) : result :=
  mkResult (r_exit r) (r_files r) (r_dirs r) (r_flinks r) (r_dlinks r) (r_links r ++ [(p, c)])%list (r_stdout r) (r_stderr r).

(** A loop of [CollectAndStoreOutputs]: the result so far and whether all were found. *)
Fixpoint collect (get : string -> option collected) (add : string -> collected -> result -> result)
    (paths : list string) (r : result) : result * bool :=
  match paths with
  | [] => (r, true)
  | p :: ps =>
      match get p with
      | None => (r, false)
      | Some c => collect get add ps (add p c r)
      end
  end.

(** What is added for an output: local_action.cpp:578-600, 613-632, 643-663. The cases of a directory
    found for a file and conversely do not arise. *)
Definition add_path (p : string) (c : collected) (r : result) : result :=
  match c with CLink x => add_link p x r | CFile d x => add_file p d x r | CDir d => add_dir p d r end.
Definition add_for_file (m : mode) (p : string) (c : collected) (r : result) : result :=
  match c with
  | CLink x => add_flink p x (match m with BestEffort => add_link p x r | _ => r end)
  | CFile d x => add_file p d x r
  | CDir d => r
  end.
Definition add_for_dir (m : mode) (p : string) (c : collected) (r : result) : result :=
  match c with
  | CLink x => add_dlink p x (match m with BestEffort => add_link p x r | _ => r end)
  | CDir d => add_dir p d r
  | CFile d x => r
  end.

(** [CollectAndStoreOutputs], local_action.cpp:564-669. *)
Definition CollectAndStoreOutputs (a : local_action) (w : world) (r : result) : result * bool :=
  match a_mode a with
  | V2_1 => collect (CollectOutputPath w) add_path (a_paths a) r
  | m =>
      let '(r, ok) := collect (CollectOutputFileOrSymlink w) (add_for_file m) (a_files a) r in
      if ok then collect (CollectOutputDirOrSymlink w) (add_for_dir m) (a_dirs a) r else (r, false)
  end.

(** [LocalAction::CreateActionDigest], local_action.hpp:148-169. *)
Definition request_of (a : local_action) (do_not_cache : bool) : request :=
  mkRequest (a_command a) (a_cwd a) (a_files a) (a_dirs a) (a_paths a) (a_env a) (a_props a) (a_root a)
    (a_timeout a) do_not_cache.
Definition CreateActionDigest (a : local_action) (do_not_cache : bool) : option digest :=
  CreateActionDigestFromCommandLine hash t (request_of a do_not_cache).

(** The action cache. *)
Definition cache : Type := list (string * result).

(** [LocalAction::Run], local_action.cpp:177-235: the result, if any, and the action cache afterwards. *)
Definition Run (id : digest) (f : cache_flag) (a : local_action) (w : world) (ac : cache) : option result * cache :=
  match w_exit w with
  | None => (None, ac)
  | Some code =>
      match a_command a with
      | [] => (None, ac)
      | _ =>
          let r := mkResult code [] [] [] [] [] (w_stdout w) (w_stderr w) in
          let '(r, ok) := CollectAndStoreOutputs a w r in
          (Some r,
           if ok && (match f with CacheOutput => true | _ => false end) && w_store w
           then ainsert (d_hash id) r ac else ac)
      end
  end.

Definition mem (s : string) (l : list string) : bool := existsb (String.eqb s) l.

(** [ActionResultContainsExpectedOutputs] for files and directories, outputscheck.hpp:28-63. *)
Definition contains_outputs (r : result) (files dirs : list string) : bool :=
  forallb (fun p => mem p (keys (r_files r) ++ keys (r_flinks r) ++ keys (r_dlinks r))%list) files &&
  forallb (fun p => mem p (keys (r_dirs r))) dirs.
(** The overload for paths, outputscheck.hpp:66-92. *)
Definition contains_paths (r : result) (paths : list string) : bool :=
  forallb (fun p => mem p (keys (r_files r) ++ keys (r_flinks r) ++ keys (r_dlinks r) ++ keys (r_dirs r))%list) paths.

(** [LocalResponse]: action id, result, [is_cached]. *)
Record response := mkResponse { p_id : string; p_result : result; p_cached : bool }.

(** [LocalAction::Execute], local_action.cpp:94-175: the response, the action cache afterwards, and
    whether [Run] was called. *)
Definition Execute (ac : cache) (f : cache_flag) (a : local_action) (w : world) : option response * cache * bool :=
  let do_cache := CacheEnabled f in
  match CreateActionDigest a (negb do_cache) with
  | None => (None, ac, false)
  | Some id =>
      let hit :=
        if do_cache then
          match alookup (d_hash id) ac with
          | Some r =>
              if Z.eqb (r_exit r) 0 &&
                 (match a_mode a with
                  | V2_1 => contains_paths r (a_paths a)
                  | _ => contains_outputs r (a_files a) (a_dirs a)
                  end)
              then Some (mkResponse (d_hash id) r true) else None
          | None => None
          end
        else None in
      match hit with
      | Some p => (Some p, ac, false)
      | None =>
          if ExecutionEnabled f then
            let '(o, ac') := Run id f a w ac in
            match o with
            | Some r =>
                match f with
                | PretendCached =>
                    match CreateActionDigest a false with
                    | Some id' => (Some (mkResponse (d_hash id') r true), ac', true)
                    | None => (None, ac', true)
                    end
                | _ => (Some (mkResponse (d_hash id) r false), ac', true)
                end
            | None => (None, ac', true)
            end
          else (None, ac, false)
      end
  end.

(** [LocalResponse::Populate], local_response.hpp:155-318: the map of artifacts (the first entry for a path
    stays) and, in compatible mode only, whether there are upwards symlinks. [valid] is
    [LocalCasReader::IsDirectoryValid]: [None] for an error. The digests in results are valid, being
    written by [ToBazel]. *)
Definition link_info (c : string) : object_info := mkInfo (blob_digest hash c) Symlink false.
Definition populate_entries (r : result) : list (string * object_info) :=
  (map (fun x : string * (digest * bool) => (fst x, mkInfo (fst (snd x)) (if snd (snd x) then Executable else File) false)) (r_files r) ++
   map (fun x : string * string => (fst x, link_info (snd x))) (r_links r ++ r_flinks r ++ r_dlinks r) ++
   map (fun x : string * digest => (fst x, mkInfo (snd x) Tree false)) (r_dirs r))%list.
Definition artifacts_of (r : result) : list (string * object_info) :=
  fold_left (fun m e => aemplace (fst e) (snd e) m) (populate_entries r) (@nil (string * object_info)).

Definition native : bool := match t with GitSHA1 => true | PlainSHA256 => false end.
Definition links_upwards (r : result) : bool :=
  negb native && existsb (fun x : string * string => negb (PathIsNonUpwards (snd x))) (r_links r ++ r_flinks r ++ r_dlinks r)%list.
Fixpoint dirs_upwards (valid : digest -> option bool) (ds : list (string * digest)) (up : bool) : option bool :=
  match ds with
  | [] => Some up
  | (_, d) :: r =>
      if negb up && negb native then
        match valid d with
        | None => None
        | Some v => dirs_upwards valid r (negb v)
        end
      else dirs_upwards valid r up
  end.
Definition Populate (valid : digest -> option bool) (r : result) : option (list (string * object_info) * bool) :=
  match dirs_upwards valid (r_dirs r) (links_upwards r) with
  | None => None
  | Some up => Some (artifacts_of r, up)
  end.

(** ** Histories *)

(** An execution of an action, or the removal of an entry of the action cache (garbage collection). *)
Inductive event := Exec (f : cache_flag) (a : local_action) (w : world) | Forget (id : string).

Definition step (ac : cache) (e : event) : cache :=
  match e with
  | Exec f a w => snd (fst (Execute ac f a w))
  | Forget id => filter (fun x => negb (String.eqb (fst x) id)) ac
  end.
Definition after (es : list event) : cache := fold_left step es [].
End Local.
