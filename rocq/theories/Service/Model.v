(** The execution service, src/buildtool/execution_api/execution_service/execution_server.cpp, the action cache service,
    ac_server.cpp, and their client, src/buildtool/execution_api/remote/bazel/{bazel_action,bazel_response}.cpp.

    The server executes actions by its local api (Executor/Local.v), on the storage it shares with other users of the
    same machine. *)
From Coq Require Import String Ascii List Bool Arith NArith ZArith Permutation.
From Verif Require Import Common.Strs Describe.Model Executor.Wire Executor.Local Rehash.Directory Remote.Names Executor.Process Incremental.Model Service.Messages Executor.LocalSpec.
Import ListNotations.
Local Open Scope string_scope.
Local Open Scope list_scope.

(** The storage: blobs by their content, the hashes of the trees, and the action cache. *)
Record store := mkStore { st_blobs : list string; st_trees : list string; st_ac : cache }.

Section Service.
Variable hash : string -> string.
Variable t : hash_type.
Variable utf8 : string -> bool.
(** Compatible mode: [LocalCasReader::MakeTree] of a directory, serialised, local_cas_reader.cpp:62-98. *)
Variable make_tree : store -> digest -> option string.
(** Compatible mode: [LocalCasReader::IsDirectoryValid]. *)
Variable valid : digest -> option bool.

(** [CAS().BlobPath] and reading the file; objects are content-addressed (C25). *)
Definition blob (s : store) (d : digest) : option string := find (fun c => String.eqb (hash c) (d_hash d)) (st_blobs s).
Definition has_tree (s : store) (d : digest) : bool := existsb (String.eqb (d_hash d)) (st_trees s).

(** [ToBazelAction], execution_server.cpp:494-529. *)
Definition ToBazelAction (s : store) (d : digest) : option action_msg :=
  match blob s d with
  | Some c =>
      match ParseAction utf8 c with
      | Some m =>
          match FromBazel t (am_root m) with
          | Some root =>
              if (match t with GitSHA1 => has_tree s root | PlainSHA256 => match blob s root with Some _ => true | None => false end end)
              then Some m else None
          | None => None
          end
      | None => None
      end
  | None => None
  end.
(** [ToBazelCommand], execution_server.cpp:531-552. *)
Definition ToBazelCommand (s : store) (m : action_msg) : option command_msg :=
  match FromBazel t (am_command m) with
  | Some d => match blob s d with Some c => ParseCommand utf8 c | None => None end
  | None => None
  end.

(** [IExecutionAction::kDefaultTimeout], execution_action.hpp:39, in milliseconds. *)
Definition kDefaultTimeout : Z := 1000.

(** [ToIExecutionAction], execution_server.cpp:87-136: neither the platform properties nor the timeout are passed on. *)
Definition ToIExecutionAction (am : action_msg) (cm : command_msg) : option (cache_flag * local_action) :=
  match FromBazel t (am_root am) with
  | Some root =>
      let env := fold_left (fun m (x : string * string) => ainsert (fst x) (snd x) m) (cm_env cm) [] in
      let flag := if am_no_cache am then DoNotCacheOutput else CacheOutput in
      match cm_paths cm with
      | [] => Some (flag, CreateAction t root (cm_args cm) (cm_cwd cm) (cm_files cm) (cm_dirs cm) env [] kDefaultTimeout true)
      | paths => Some (flag, new_action_paths root (cm_args cm) (cm_cwd cm) paths env [] kDefaultTimeout)
      end
  | None => None
  end.

(** [LocalResponse::DirectorySymlinks], local_response.hpp:117-136. *)
Definition DirectorySymlinks (r : result) : option (list string) :=
  if negb (match r_links r with [] => true | _ => false end) &&
     match r_flinks r, r_dlinks r with [], [] => true | _, _ => false end
  then None else Some (keys (r_dlinks r)).

(** [ToBazelOutputDirectory], execution_server.cpp:361-397: the digest, and the blob that is stored in compatible mode. *)
Definition ToBazelOutputDirectory (s : store) (d : digest) : option (digest * list string) :=
  match t with
  | GitSHA1 => Some (d, [])
  | PlainSHA256 => match make_tree s d with Some m => Some (blob_digest hash m, [m]) | None => None end
  end.
Definition add_output_link (legacy : bool) (dirs : option (list string)) (p c : string) (r : result) : result :=
  let r := if legacy then r else add_link p c r in
  match dirs with
  | Some ds => if mem p ds then add_dlink p c r else add_flink p c r
  | None => r
  end.
(** The loop of [ToBazelActionResult], execution_server.cpp:461-491, over the map of artifacts, in any order. *)
Fixpoint to_result (s : store) (legacy : bool) (dirs : option (list string)) (arts : list (string * object_info)) (r : result) :
  option (result * list string) :=
  match arts with
  | [] => Some (r, [])
  | (p, i) :: rest =>
      match i_type i with
      | Tree =>
          match ToBazelOutputDirectory s (i_digest i) with
          | Some (d, new) =>
              match to_result s legacy dirs rest (add_dir p d r) with Some (r', new') => Some (r', new ++ new') | None => None end
          | None => None
          end
      | Symlink =>
          match blob s (i_digest i) with
          | Some c => to_result s legacy dirs rest (add_output_link legacy dirs p c r)
          | None => None
          end
      | ty => to_result s legacy dirs rest (add_file p (i_digest i) (match ty with Executable => true | _ => false end) r)
      end
  end.
(** Standard output and error, execution_server.cpp:168-192: read, and stored again; if reading fails, the empty string
    is stored. *)
Definition stream (s : store) (d : option digest) : option digest :=
  match d with
  | Some x =>
      if (d_size x =? 0)%N then None
      else Some (blob_digest hash (match blob s x with Some c => c | None => "" end))
  | None => None
  end.
(** [ToBazelExecuteResponse], execution_server.cpp:138-198, for the result [r0] of the local response, the map of
    artifacts being enumerated as [arts]. The result, and the blobs stored. *)
Definition ToBazelExecuteResponse (s : store) (legacy : bool) (r0 : result) (arts : list (string * object_info)) : option (result * list string) :=
  let dirs := DirectorySymlinks r0 in
  match legacy, dirs with
  | true, None => None
  | _, _ => to_result s legacy dirs arts (mkResult (r_exit r0) [] [] [] [] [] (stream s (r_stdout r0)) (stream s (r_stderr r0)))
  end.

(** A request under way: its digest, whether the client asked not to cache, whether it is a legacy client, the local
    action with its flag, the local response, and what running did, if the command was run. *)
Record job := mkJob {
  j_id : digest;
  j_no_cache : bool;
  j_legacy : bool;
  j_flag : cache_flag;
  j_action : local_action;
  j_response : response;
  j_ran : option world
}.
(** [ExecutionServiceImpl::Execute] up to the execution, execution_server.cpp:215-283. *)
Definition accept (s : store) (d : wire_digest) : option (digest * bool * bool * cache_flag * local_action) :=
  match FromBazel t d with
  | Some id =>
      match ToBazelAction s id with
      | Some am =>
          match ToBazelCommand s am with
          | Some cm =>
              match ToIExecutionAction am cm with
              | Some (f, a) => Some (id, am_no_cache am, match cm_paths cm with [] => true | _ => false end, f, a)
              | None => None
              end
          | None => None
          end
      | None => None
      end
  | None => None
  end.

(** ** What happens to a storage with a server *)

(** The executions that take place. *)
Variable happens : local_action -> world -> Prop.
(** The texts whose hashes occur. *)
Variable text : string -> Prop.
(** Those of an action. *)
Definition texts_of (a : local_action) : Prop := text (command_message a) /\ forall x, text (action_message hash t a x).
(** Actions that can be expressed as messages: strings are valid UTF-8 (as all strings from JSON are), the environment is a
    map, and the digest of the inputs is one. *)
Definition expressible (a : local_action) : Prop :=
  good_command utf8 (request_of a false) /\ sorted_keys (a_env a) /\
  valid_input t (d_hash (a_root a)) (d_tree (a_root a)) = true /\ (d_size (a_root a) < 2 ^ 64)%N /\ (- 2 ^ 63 <= a_timeout a < 2 ^ 63)%Z.

(** The storage, the requests under way, and the answers given by the server so far. *)
Record system := mkService { z_store : store; z_jobs : list job; z_answers : list (digest * result) }.
Definition with_ac (s : store) (ac : cache) : store := mkStore (st_blobs s) (st_trees s) ac.

Inductive history : system -> Prop :=
| h_start : history (mkService (mkStore [] [] []) [] [])
(** Blobs and trees are stored, by uploads, by actions that are run, or by anybody else. *)
| h_put z c : history z -> text c ->
    history (mkService (mkStore (c :: st_blobs (z_store z)) (st_trees (z_store z)) (st_ac (z_store z))) (z_jobs z) (z_answers z))
| h_tree z h : history z ->
    history (mkService (mkStore (st_blobs (z_store z)) (h :: st_trees (z_store z)) (st_ac (z_store z))) (z_jobs z) (z_answers z))
(** Objects and entries of the cache are removed. *)
| h_lose z bs ts : history z -> incl bs (st_blobs (z_store z)) -> incl ts (st_trees (z_store z)) ->
    history (mkService (mkStore bs ts (st_ac (z_store z))) (z_jobs z) (z_answers z))
| h_forget z id : history z ->
    history (mkService (with_ac (z_store z) (filter (fun x => negb (String.eqb (fst x) id)) (st_ac (z_store z)))) (z_jobs z) (z_answers z))
(** Others use the storage for local builds. *)
| h_run z f root command cwd files dirs env props timeout legacy w : history z ->
    let a := CreateAction t root command cwd files dirs env props timeout legacy in
    texts_of a -> expressible a -> happens a w ->
    history (mkService (with_ac (z_store z) (stored hash t f a w (st_ac (z_store z)))) (z_jobs z) (z_answers z))
(** A request is accepted, the action is looked up or run. *)
| h_begin z d id nc lg f a w p ac x : history z ->
    accept (z_store z) d = Some (id, nc, lg, f, a) -> texts_of a ->
    Execute hash t (st_ac (z_store z)) f a w = (Some p, ac, x) -> (x = true -> happens a w) ->
    history (mkService (z_store z) (mkJob id nc lg f a p (if x then Some w else None) :: z_jobs z) (z_answers z))
(** The local action writes its result to the cache. *)
| h_write z j w : history z -> In j (z_jobs z) -> j_ran j = Some w ->
    history (mkService (with_ac (z_store z) (stored hash t (j_flag j) (j_action j) w (st_ac (z_store z)))) (z_jobs z) (z_answers z))
(** The request is answered, execution_server.cpp:297-332; before, the result is stored under the digest of the request. *)
| h_finish z j m up arts r new : history z -> In j (z_jobs z) ->
    Populate hash t valid (p_result (j_response j)) = Some (m, up) -> Permutation m arts ->
    ToBazelExecuteResponse (z_store z) (j_legacy j) (p_result (j_response j)) arts = Some (r, new) ->
    (forall c, In c new -> text c) ->
    history (mkService (mkStore (new ++ st_blobs (z_store z)) (st_trees (z_store z))
                 (if Z.eqb (r_exit r) 0 && negb (j_no_cache j) then ainsert (d_hash (j_id j)) r (st_ac (z_store z)) else st_ac (z_store z)))
               (z_jobs z) ((j_id j, r) :: z_answers z)).

(** ** The client *)

(** [BazelApi::CreateAction], bazel_api.cpp:154-191, for a server supporting RBEv2.0 and RBEv2.1: the same as for the local api. *)

(** What [GetCachedActionResult] and [ExecuteBazelActionSync] can give: [ActionCacheServiceImpl::GetActionResult],
    ac_server.cpp:28-62, an entry of the cache; the execution service (or waiting for the operation with this name, C88),
    an answer for this action. *)
Definition known_result (z : system) (id : digest) (r : result) : Prop := alookup (d_hash id) (st_ac (z_store z)) = Some r.
Definition answered (z : system) (id : digest) (r : result) : Prop :=
  exists id', In (id', r) (z_answers z) /\ w_hash (ToBazel t id') = w_hash (ToBazel t id).

(** [BazelAction::Execute], bazel_action.cpp:62-149: the response, given states of the service in which it was asked;
    no response (errors of any kind) is always possible. *)
Definition expected (a : local_action) (r : result) : bool :=
  match a_mode a with V2_0 => contains_outputs r (a_files a) (a_dirs a) | _ => contains_paths r (a_paths a) end.
Inductive responds (z : system) (f : cache_flag) (a : local_action) : response -> Prop :=
| r_cached id r : CacheEnabled f = true -> CreateActionDigest hash t a false = Some id -> known_result z id r ->
    r_exit r = 0%Z -> expected a r = true -> responds z f a (mkResponse (d_hash id) r true)
| r_executed id r : ExecutionEnabled f = true -> f <> PretendCached -> CreateActionDigest hash t a (negb (CacheEnabled f)) = Some id ->
    answered z id r -> forall cached, responds z f a (mkResponse (d_hash id) r cached)
| r_pretended id id' r : f = PretendCached -> CreateActionDigest hash t a true = Some id -> answered z id r ->
    CreateActionDigest hash t a false = Some id' -> responds z f a (mkResponse (d_hash id') r true).

(** [BazelResponse::Populate], bazel_response.cpp:126-289, in native mode: digests are those received. *)
Definition received (d : digest) : option digest := FromBazel t (ToBazel t d).
Fixpoint received_all {A} (f : A -> option (string * object_info)) (l : list A) : option (list (string * object_info)) :=
  match l with
  | [] => Some []
  | x :: r => match f x, received_all f r with Some e, Some m => Some (e :: m) | _, _ => None end
  end.
Definition client_entries (r : result) : option (list (string * object_info)) :=
  match received_all (fun x : string * (digest * bool) =>
          match received (fst (snd x)) with Some d => Some (fst x, mkInfo d (if snd (snd x) then Executable else File) false) | None => None end) (r_files r),
        received_all (fun x : string * digest =>
          match received (snd x) with Some d => Some (fst x, mkInfo d Tree false) | None => None end) (r_dirs r) with
  | Some fs, Some ds => Some (fs ++ map (fun x : string * string => (fst x, link_info hash (snd x))) (r_links r ++ r_flinks r ++ r_dlinks r) ++ ds)
  | _, _ => None
  end.
Definition client_artifacts (r : result) : option (list (string * object_info)) :=
  match client_entries r with
  | Some es => Some (fold_left (fun m e => aemplace (fst e) (snd e) m) es [])
  | None => None
  end.
End Service.
