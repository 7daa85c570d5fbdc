(** Builds that execute their actions at a remote endpoint. *)
From Coq Require Import String Ascii List Bool Arith NArith ZArith.
From Verif Require Import Common.Strs Describe.Model Executor.Wire Executor.Local Dag.Traverse Executor.Process Executor.Build Incremental.Model Service.Model.
Import ListNotations.
Local Open Scope string_scope.
Local Open Scope list_scope.

Section R.
Variable hash : string -> string.
Variable t : hash_type.
Variable legacy : bool.
Variable utf8 : string -> bool.
Variable make_tree : store -> digest -> option string.
Variable valid : digest -> option bool.
Variable happens : local_action -> world -> Prop.
Variable text : string -> Prop.
(** Everything else: [UploadTree], overlays, transfers, and the other endpoints. *)
Variable rest : api.
Variable X : context.
Variable acts : nat -> act.
Variable source : nat -> option object_info.

(** [BazelResponse]: [ExitCode], [Artifacts], [HasUpwardsSymlinks] (in native mode), bazel_response.cpp:83-121. *)
Definition client_reply (p : response) : reply :=
  match client_artifacts hash t (p_result p) with
  | Some m => mkReply (r_exit (p_result p)) (Some m) (Some false)
  | None => mkReply (r_exit (p_result p)) None None
  end.
(** [BazelApi], as used by the executor. *)
Definition remote_api (answer : order -> option reply) : api :=
  mkApi (upload_tree rest) (empty_tree rest) (tree_overlay rest) (sync rest)
    (fun e o => match e with Some _ => execute rest e o | None => answer o end).

(** A build with the log [l] (newest first). For each action the service is in any of the states it can get into; it
    answers with one of the responses it can give, or not at all. *)
Inductive remote_building : list event -> build -> Prop :=
| rb_begin : remote_building [] (mkBuild (fun _ => None) (fun _ => None))
| rb_event l b e z answer b' : remote_building l b ->
    history hash t utf8 make_tree valid happens text z ->
    (forall o y, answer o = Some y ->
       texts_of hash t text (action_of t legacy o) /\ expressible t utf8 (action_of t legacy o) /\
       exists p, responds hash t z (o_flag o) (action_of t legacy o) p /\ y = client_reply p) ->
    replay_event X (remote_api answer) acts source b e = Fine b' ->
    remote_building (e :: l) b'.
End R.
