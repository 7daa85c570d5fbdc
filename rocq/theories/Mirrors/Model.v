(** Model of choosing and trying the places to fetch from,
    src/other_tools/just_mr/mirrors.hpp, src/other_tools/utils/content.hpp,
    src/other_tools/ops_maps/content_cas_map.cpp and
    src/other_tools/root_maps/commit_git_map.cpp; and of waiting between
    repeated attempts, src/buildtool/common/remote/retry_config.hpp and
    src/buildtool/common/remote/retry.cpp. *)
From Coq Require Import String NArith List Bool.
Import ListNotations.
Open Scope string_scope.
Open Scope list_scope.

(** JSON values, as far as they are told apart here: [JOther] are numbers and
    booleans. *)
Inductive json :=
| JNull
| JString (s : string)
| JOther
| JArray (l : list json)
| JObject (m : list (string * json)).

(** nlohmann::json::items(): the values iterated over.  null has none, other
    scalars have themselves as the only value. *)
Definition items (j : json) : list json :=
  match j with
  | JNull => []
  | JArray l => l
  | JObject m => map snd m
  | JString _ | JOther => [j]
  end.

Fixpoint obj_find (k : string) (m : list (string * json)) : option json :=
  match m with
  | [] => None
  | (k', v) :: m' => if String.eqb k k' then Some v else obj_find k m'
  end.

(** struct Mirrors, mirrors.hpp:34-38; filled from the checkout-locations file
    without a check of the types, just_mr/main.cpp:315-324. *)
Record Mirrors := mkMirrors {
  local_mirrors : json;
  preferred_hostnames : json;
  extra_inherit_env : json
}.

(** The loops over a list of JSON values that give up at the first value that
    is not a string (mirrors.hpp:54-65 and 86-98).  Warnings are not modelled. *)
Fixpoint all_strings (l : list json) : option (list string) :=
  match l with
  | [] => Some []
  | JString s :: l' =>
      match all_strings l' with Some r => Some (s :: r) | None => None end
  | _ :: _ => None
  end.

(** GetLocalMirrors, mirrors.hpp:45-79.  contains() is false for anything but
    an object.  No exception arises, as dump() does not throw on parsed JSON. *)
Definition GetLocalMirrors (M : Mirrors) (url : string) : list string :=
  match local_mirrors M with
  | JObject m =>
      match obj_find url m with
      | Some (JArray l) =>
          match all_strings l with Some r => r | None => [] end
      | _ => []
      end
  | _ => []
  end.

(** GetPreferredHostnames, mirrors.hpp:82-106. *)
Definition GetPreferredHostnames (M : Mirrors) : list string :=
  match all_strings (items (preferred_hostnames M)) with
  | Some r => r
  | None => []
  end.

(** GetInheritEnv, mirrors.hpp:109-137: entries that are not strings are
    skipped. *)
Definition GetInheritEnv (M : Mirrors) (base : list string) : list string :=
  base ++ flat_map (fun v => match v with JString s => [s] | _ => [] end)
            (items (extra_inherit_env M)).

(** The unordered_map of SortByHostname as an association list. *)
Definition hmap := list (string * list string).

Fixpoint hm_find (k : string) (h : hmap) : option (list string) :=
  match h with
  | [] => None
  | (k', v) :: h' => if String.eqb k k' then Some v else hm_find k h'
  end.

Fixpoint hm_set (k : string) (v : list string) (h : hmap) : hmap :=
  match h with
  | [] => [(k, v)]
  | (k', v') :: h' =>
      if String.eqb k k' then (k', v) :: h' else (k', v') :: hm_set k v h'
  end.

Section Fetch.
(** CurlURLHandle::GetHostname, curl_url_handle.cpp:798-844: parsing of URLs is
    done by curl. *)
Variable hostname : string -> option string.

(** mirrors.hpp:147-155: std::inserter does not replace present entries. *)
Fixpoint init_map (hs : list string) (h : hmap) : hmap :=
  match hs with
  | [] => h
  | x :: hs' =>
      init_map hs' (match hm_find x h with Some _ => h | None => hm_set x [] h end)
  end.

(** mirrors.hpp:158-169. *)
Definition value_or_empty (o : option string) : string :=
  match o with Some s => s | None => "" end.

Definition fill_one (h : hmap) (m : string) : hmap :=
  let hn := value_or_empty (hostname m) in
  match hm_find hn h with
  | Some l => hm_set hn (l ++ [m]) h
  | None =>
      hm_set "" (match hm_find "" h with Some l => l | None => [] end ++ [m]) h
  end.

(** mirrors.hpp:175-185: the list of a host is cleared once it is used. *)
Fixpoint collect (hs : list string) (h : hmap) (ordered : list string)
  : list string * hmap :=
  match hs with
  | [] => (ordered, h)
  | x :: hs' =>
      match hm_find x h with
      | Some l => collect hs' (hm_set x [] h) (ordered ++ l)
      | None => collect hs' h ordered
      end
  end.

(** SortByHostname, mirrors.hpp:140-197. *)
Definition SortByHostname (mirrors hs : list string) : list string :=
  let h := fold_left fill_one mirrors (init_map hs []) in
  let (ordered, h') := collect hs h [] in
  match hm_find "" h' with
  | Some l => ordered ++ l
  | None => ordered
  end.

(** The list of all places, content.hpp:60-77, and in the same way
    commit_git_map.cpp:398-414. *)
Definition all_mirrors (M : Mirrors) (url : string) (mirrors : list string)
  : list string :=
  let all := url :: mirrors in
  let hs := GetPreferredHostnames M in
  let all := match hs with [] => all | _ => SortByHostname all hs end in
  GetLocalMirrors M url ++ all.

(** The loop over all places, content.hpp:79-89: the content obtained or the
    places tried, in order.  [download] is NetworkFetch, content.hpp:35-45. *)
Fixpoint try_all {A} (download : string -> option A) (l tried : list string)
  : A + list string :=
  match l with
  | [] => inr tried
  | m :: l' =>
      match download m with
      | Some d => inl d
      | None => try_all download l' (tried ++ [m])
      end
  end.

Definition NetworkFetchWithMirrors (download : string -> option string)
    (M : Mirrors) (url : string) (mirrors : list string)
  : string + list string :=
  try_all download (all_mirrors M url mirrors) [].

(** What is asked for, content_cas_map.hpp:38-51 (ArchiveContent), without distfile and origin. *)
Record Archive := mkArchive {
  a_content : string;
  a_url : string;
  a_mirrors : list string;
  a_sha256 : option string;
  a_sha512 : option string
}.

Inductive fetched :=
| Stored (data : string)           (* the content is in CAS, success *)
| NoUrl                            (* failed to provide archive fetch url *)
| NoRemote (tried : list string)   (* failed to fetch from provided remotes *)
| Mismatch (data : string)         (* SHA256 or SHA512 mismatch *)
| NotFound (data : string).        (* content was not found at location *)

(** FetchFromNetwork, content_cas_map.cpp:38-108, with the three hash
    functions as parameters.  [in_cas] tells what native CAS already has: the
    last check only asks whether the blob wanted is there.  Failing to write to
    CAS is not modelled. *)
Definition FetchFromNetwork (sha256 sha512 hash : string -> string)
    (in_cas : string -> bool)
    (download : string -> option string) (M : Mirrors) (a : Archive) : fetched :=
  if String.eqb (a_url a) "" then NoUrl else
  match NetworkFetchWithMirrors download M (a_url a) (a_mirrors a) with
  | inr tried => NoRemote tried
  | inl data =>
      if match a_sha256 a with
         | Some s => negb (String.eqb (sha256 data) s)
         | None => false
         end
      then Mismatch data
      else if match a_sha512 a with
              | Some s => negb (String.eqb (sha512 data) s)
              | None => false
              end
      then Mismatch data
      else if in_cas (a_content a) || String.eqb (hash data) (a_content a)
      then Stored data
      else NotFound data
  end.

Inductive commit_fetched :=
| Present                          (* the commit is there after the fetch *)
| NoCommit                         (* could not fetch commit from branch *)
| NoGitRemote (tried : list string).

(** NetworkFetchAndSetPresentRoot, commit_git_map.cpp:377-470: [fetch] is
    FetchViaTmpRepo on the branch, giving the commits that are in the repository
    afterwards.  That paths are made absolute is not modelled. *)
Definition FetchCommit (fetch : string -> option (list string)) (M : Mirrors)
    (url : string) (mirrors : list string) (commit : string) : commit_fetched :=
  match try_all fetch (all_mirrors M url mirrors) [] with
  | inr tried => NoGitRemote tried
  | inl commits => if existsb (String.eqb commit) commits then Present else NoCommit
  end.
End Fetch.

(** * Repeated attempts *)

Local Open Scope N_scope.

(** unsigned int *)
Definition u32 (n : N) : N := n mod 2 ^ 32.

Record RetryConfig := mkRetry { initial : N; maximal : N; attempts : N }.

(** RetryConfig::Builder::Build, retry_config.hpp:113-152, with the defaults of
    retry_config.hpp:27-29. *)
Definition checked (o : option N) (default : N) : option N :=
  match o with
  | Some x => if x <? 1 then None else Some x
  | None => Some default
  end.

Definition Build (i m a : option N) : option RetryConfig :=
  match checked i 1 with
  | None => None
  | Some i =>
      match checked m 60 with
      | None => None
      | Some m =>
          match checked a 1 with
          | None => None
          | Some a => Some (mkRetry i m a)
          end
      end
  end.

(** The loop in GetSleepTimeSeconds, retry_config.hpp:51-57; [n] is the number
    of rounds left. *)
Fixpoint doubled (n : nat) (backoff m : N) : N :=
  match n with
  | O => backoff
  | S n' =>
      let b := u32 (2 * backoff) in
      if m <=? b then m else doubled n' b m
  end.

Definition Backoff (c : RetryConfig) (attempt : N) : N :=
  doubled (N.to_nat (attempt - 1)) (initial c) (maximal c).

(** GetSleepTimeSeconds, retry_config.hpp:46-59; [jitter] is the random value,
    between 0 and three times the backoff (retry_config.hpp:75-86; the type of
    the distribution is wide enough not to wrap). *)
Definition GetSleepTimeSeconds (c : RetryConfig) (attempt jitter : N) : N :=
  u32 (Backoff c attempt + jitter).

Inductive response := Ok | Fatal | Again.

Inductive event := Call (r : response) | Sleep (seconds : N).

Section Loop.
(** What the k-th call returns, and the jitter drawn after it. *)
Variable call : nat -> response.
Variable jitter : nat -> N -> N.

(** WithRetry, retry.cpp:25-69; [attempt] is an unsigned int and wraps.  [None]:
    still not finished after [fuel] rounds. *)
Fixpoint WithRetry (fuel k : nat) (c : RetryConfig) (attempt : N)
  : option (bool * list event) :=
  match fuel with
  | O => None
  | S fuel' =>
      if attempts c <? attempt then Some (false, [])
      else
        match call k with
        | Ok => Some (true, [Call Ok])
        | Fatal => Some (false, [Call Fatal])
        | Again =>
            match WithRetry fuel' (S k) c (u32 (attempt + 1)) with
            | None => None
            | Some (b, es) =>
                Some (b, Call Again ::
                         (if attempt <? attempts c
                          then Sleep (GetSleepTimeSeconds c attempt
                                        (jitter k (Backoff c attempt))) :: es
                          else es))
            end
        end
  end.
End Loop.
