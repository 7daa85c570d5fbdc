(** Keys of the target cache, and the writing of its entries after a build. *)
From Coq Require Import String List Bool Arith.
From Verif Require Import Common.Strs GitTree.Model Storage.Model Storage.Spec Expr.Json Expr.Model.
Import ListNotations.
Local Open Scope string_scope.
Local Open Scope list_scope.
Local Infix "^^" := String.append (at level 60, right associativity).

(** The line break and the indentation [nlohmann::json::dump(2)] uses. *)
Definition newline : string := String (Ascii.ascii_of_nat 10) "".

(** The text hashed by TargetCache::ComputeKey, storage/target_cache.tpp:47-69: an object of three
    strings, printed by [dump(2)]; the members are sorted by name, as nlohmann::json keeps objects in a
    std::map. [Configuration::ToString], expression/configuration.hpp:59-61, is Expression::ToString.
    Not modelled: [dump] throwing for strings that are not UTF-8; then there is no key. *)
Definition target_name_text (ndump : num -> string) (m t : string) : string :=
  dump ndump (JArr [JStr m; JStr t]).
Definition key_text (ndump : num -> string) (H : string -> string) (repo_key m t : string) (config : expr) : string :=
  "{" ^^ newline ^^
  "  " ^^ quote "effective_config" ^^ ": " ^^ quote (Expr.Model.ToString ndump H config) ^^ "," ^^ newline ^^
  "  " ^^ quote "repo_key" ^^ ": " ^^ quote repo_key ^^ "," ^^ newline ^^
  "  " ^^ quote "target_name" ^^ ": " ^^ quote (target_name_text ndump m t) ^^ newline ^^
  "}".
(** The key is the digest of the blob stored. *)
Definition ComputeKey (C : config) (ndump : num -> string) (H : string -> string) (repo_key m t : string) (c : expr) : id :=
  cfg_hash C KBlob (key_text ndump H repo_key m t c).

(** ** Writing entries: WriteTargetCacheEntries and CreateTargetCacheWriterMap,
    main/build_utils.cpp:77-203 (with a strategy other than "disable").

    The map runs its function once for each key requested, on several threads, while other threads and
    processes use the storage. What has become of a key: *)
Inductive progress :=
| Untouched             (* its function has not run yet *)
| Reading (th : nat)    (* tc.Read runs, as thread [th] of the storage *)
| Waiting               (* the implied targets are requested (subcaller) *)
| Fetched               (* the downloader reported success *)
| Storing (th : nat)    (* the storing of the entry runs *)
| Written               (* setter called *)
| Failed.               (* logger called, fatal *)

(** The keys of [cache_targets] with the text of TargetCacheEntry::FromTarget, if there is one. *)
Definition to_write := list (id * option bytes).
Fixpoint find_entry (l : to_write) (k : id) : option (option bytes) :=
  match l with
  | [] => None
  | (k', e) :: r => if String.eqb k k' then Some e else find_entry r k
  end.

Record writing := mkWriting {
  w_sys : system;                (* the storage, with everybody using it *)
  w_done : list action;          (* what happened to it so far *)
  w_at : id -> progress
}.
Definition set_at (f : id -> progress) (k : id) (p : progress) : id -> progress :=
  fun k' => if String.eqb k' k then p else f k'.

Section Writing.
Variable C : config.
Variable targets : to_write.

(** The storage does [a], and [k] gets to [p]. *)
Definition act_on (s : writing) (a : action) (k : id) (p : progress) : writing :=
  mkWriting (perform C (w_sys s) a) (w_done s ++ [a]) (set_at (w_at s) k p).
Definition become (s : writing) (k : id) (p : progress) : writing :=
  mkWriting (w_sys s) (w_done s) (set_at (w_at s) k p).
Definition next_thread (s : writing) : nat := length (threads (w_sys s)).

(** What can happen next. Which keys are requested is left open: at least those of [cache_targets] and the
    implied ones are. *)
Inductive wstep (s : writing) : writing -> Prop :=
(** build_utils.cpp:96-104: the key is not among those to write *)
| w_request k : w_at s k = Untouched -> find_entry targets k = None ->
    wstep s (act_on s (Start (OReadTarget k)) k (Reading (next_thread s)))
| w_found k th x : w_at s k = Reading th -> returned (w_sys s) th (OReadTarget k) (ATarget (Some x)) ->
    wstep s (become s k Written)
| w_not_found k th : w_at s k = Reading th -> returned (w_sys s) th (OReadTarget k) (ATarget None) ->
    wstep s (become s k Failed)
(** build_utils.cpp:111-120, 145-149: no entry, or its implied targets cannot be read *)
| w_no_entry k : w_at s k = Untouched -> find_entry targets k = Some None ->
    wstep s (become s k Failed)
| w_bad_entry k b : w_at s k = Untouched -> find_entry targets k = Some (Some b) -> cfg_parse_target C b = None ->
    wstep s (become s k Failed)
(** build_utils.cpp:121-123 *)
| w_wait k b x : w_at s k = Untouched -> find_entry targets k = Some (Some b) -> cfg_parse_target C b = Some x ->
    wstep s (become s k Waiting)
(** build_utils.cpp:124-134, target_cache.tpp:33-35: all implied targets are done, the downloader runs and says
    that all the artifacts are in the local CAS. What it does to the storage is [w_elsewhere]; it is assumed here
    that what it says is right. *)
| w_fetched k b implied refs : w_at s k = Waiting -> find_entry targets k = Some (Some b) ->
    cfg_parse_target C b = Some (implied, refs) ->
    (forall j, In j implied -> j <> k -> w_at s j = Written) ->
    refs_avail (gen_at (disk (w_sys s)) 0) refs ->
    wstep s (become s k Fetched)
| w_not_fetched k : w_at s k = Waiting -> wstep s (become s k Failed)
(** target_cache.tpp:36-43 *)
| w_store k b : w_at s k = Fetched -> find_entry targets k = Some (Some b) ->
    wstep s (act_on s (Start (OStoreTarget k b)) k (Storing (next_thread s)))
(** build_utils.cpp:134-143 *)
| w_stored k b th : w_at s k = Storing th -> returned (w_sys s) th (OStoreTarget k b) (ADone true) ->
    wstep s (become s k Written)
| w_not_stored k b th : w_at s k = Storing th -> returned (w_sys s) th (OStoreTarget k b) (ADone false) ->
    wstep s (become s k Failed)
(** Any thread makes its next access. *)
| w_access th : wstep s (mkWriting (perform C (w_sys s) (Step th true)) (w_done s ++ [Step th true]) (w_at s))
(** Others, or other parts of this process, start an operation as they may. No garbage collection starts, as this
    process holds the lock. *)
| w_elsewhere o : contract C (disk (w_sys s)) o ->
    wstep s (mkWriting (perform C (w_sys s) (Start o)) (w_done s ++ [Start o]) (w_at s)).

Inductive wsteps (s : writing) : writing -> Prop :=
| ws_none : wsteps s s
| ws_more s1 s2 : wsteps s s1 -> wstep s1 s2 -> wsteps s s2.

(** WriteTargetCacheEntries starts, after all that happened to the storage before. *)
Definition begin_writing (n : nat) (before : list action) : writing :=
  mkWriting (reached C n before) before (fun _ => Untouched).
End Writing.
