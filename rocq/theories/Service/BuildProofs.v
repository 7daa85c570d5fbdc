(** Proofs about remote builds. *)
From Coq Require Import String Ascii List Bool Arith NArith ZArith Lia.
From Verif Require Import Common.Strs Describe.Model Executor.Wire Executor.Local Executor.LocalSpec Executor.LocalProofs Dag.Traverse Executor.Process Executor.Build
  Incremental.Model Incremental.Proofs Service.Messages Service.Model Service.Spec Service.Proofs Service.Backed Service.Build.
Import ListNotations.
Local Open Scope string_scope.
Local Open Scope list_scope.

Section R.
Variable hash : string -> string.
Variable legacy : bool.
Variable utf8 : string -> bool.
Variable make_tree : store -> digest -> option string.
Variable valid : digest -> option bool.
Variable happens : local_action -> world -> Prop.
Variable text : string -> Prop.
Variable rest : api.
Variable X : context.
Variable acts : nat -> act.
Variable source : nat -> option object_info.
Notation t := GitSHA1.
Hypothesis GH : good_hash hash t utf8 text.
Hypothesis WS : well_stored t text happens.
Notation history := (history hash t utf8 make_tree valid happens text).
Notation texts_of := (texts_of hash t text).
Notation expressible := (expressible t utf8).
Notation responds := (responds hash t).

Definition flag_of (f : cache_flag) : cache_flag := match f with CacheOutput | FromCacheOnly => CacheOutput | _ => DoNotCacheOutput end.
Lemma responds_id z f a p : responds z f a p -> exists id, CreateActionDigest hash t a (negb (CacheEnabled (flag_of f))) = Some id.
Proof.
  intros [id r CE D _ _ _|id r EE NP D _ c|id id' r -> D _ _]; exists id; [| |exact D]; destruct f; try discriminate; exact D.
Qed.
Lemma execute_fresh_true f a w id r ok : CreateActionDigest hash t a (negb (CacheEnabled (flag_of f))) = Some id -> ran t a w r ok ->
  exists p ac, Execute hash t [] (flag_of f) a w = (Some p, ac, true) /\ p_result p = r.
Proof.
  intros D (code & E & N & C). unfold Execute. rewrite D. cbn [alookup].
  assert ((if CacheEnabled (flag_of f) then None else None) = @None response) as -> by now destruct (CacheEnabled (flag_of f)).
  assert (ExecutionEnabled (flag_of f) = true) as -> by (destruct f; reflexivity).
  unfold Run. rewrite E. destruct (a_command a) as [|x xs]; [congruence|]. rewrite C. destruct f; cbn [flag_of]; eexists _, _; split; reflexivity.
Qed.

Theorem responds_executed z f a p : history z -> usual a -> expressible a -> texts_of a -> responds z f a p ->
  exists b w p' ac, same_work a b /\ happens b w /\ Execute hash t [] (flag_of f) a w = (Some p', ac, true) /\
    r_exit (p_result p) = r_exit (p_result p') /\ client_artifacts hash t (p_result p) = Some (artifacts_of hash (p_result p')).
Proof.
  intros Hz U EX T R. destruct (responds_id _ _ _ _ R) as [id D].
  destruct (responds_backed hash utf8 make_tree valid happens text GH WS z f a p Hz U EX T R) as (b & w & S & Hb & F).
  pose proof (client_same hash happens text WS _ _ _ Hb F) as CS. destruct F as (r' & ok & RN & X0 & _ & LK).
  destruct (execute_fresh_true f a w id r' ok D (ran_work _ _ _ _ _ _ (work_sym _ _ S) RN)) as (p' & ac & E & Q).
  exists b, w, p', ac. rewrite Q. repeat split; auto; try apply S. rewrite CS. f_equal. now apply artifacts_same.
Qed.

(** ** Builds *)
Variable does : local_action -> world.
Hypothesis D1 : forall a w, happens a w -> w = does a.
Hypothesis D2 : forall a b, same_work a b -> does a = does b.
Notation local := (local_api hash t legacy valid rest [] does).

Lemma reply_same z o p : (o_flag o = CacheOutput \/ o_flag o = DoNotCacheOutput) -> history z -> texts_of (action_of t legacy o) -> expressible (action_of t legacy o) ->
  responds z (o_flag o) (action_of t legacy o) p -> execute local None o = Some (client_reply hash t p).
Proof.
  intros F Hz T EX R. assert (U0 : usual (action_of t legacy o)) by apply usual_create.
  destruct (responds_executed z _ _ p Hz U0 EX T R) as (b & w & p' & ac & S & Hb & E & X0 & CA).
  assert (w = does (action_of t legacy o)) as -> by (rewrite (D1 _ _ Hb); symmetry; now apply D2).
  cbn [execute local_api]. assert (flag_of (o_flag o) = o_flag o) as FL by (destruct F as [-> | ->]; reflexivity). rewrite FL in E. rewrite E. cbn [fst].
  unfold reply_of, client_reply. rewrite CA. unfold Populate.
  assert (forall ds, dirs_upwards t valid ds false = Some false) as U.
  { induction ds as [|[q d] ds IH]; cbn [dirs_upwards]; [reflexivity|]. cbn. exact IH. }
  change (links_upwards t (p_result p')) with false. rewrite U. now rewrite X0.
Qed.

Lemma process_true z answer n ins ws : history z ->
  (forall o y, answer o = Some y -> texts_of (action_of t legacy o) /\ expressible (action_of t legacy o) /\
       exists p, responds z (o_flag o) (action_of t legacy o) p /\ y = client_reply hash t p) ->
  Process X (remote_api rest answer) n ins = (true, ws) -> Process X local n ins = (true, ws).
Proof.
  intros Hz HA. unfold Process. set (props := MergeProperties (x_props X) (n_props n)). set (f := if n_no_cache n then DoNotCacheOutput else CacheOutput).
  assert (FF : f = CacheOutput \/ f = DoNotCacheOutput) by (unfold f; destruct (n_no_cache n); auto).
  intros E. enough (Q : ExecuteAction X local n props f ins = ExecuteAction X (remote_api rest answer) n props f ins) by now rewrite Q.
  revert E. unfold ExecuteAction. destruct (n_kind n) as [d| |] eqn:K.
  - intros _. unfold ExecuteTreeOverlayAction. assert (O : forall l e, overlays local d e l = overlays (remote_api rest answer) d e l).
    { induction l as [|[p i] l IH]; intros e; cbn [overlays]; [reflexivity|]. change (tree_overlay (remote_api rest answer) d e i) with (tree_overlay local d e i). destruct (tree_overlay local d e i); [apply IH|reflexivity]. }
    change (empty_tree (remote_api rest answer)) with (empty_tree local). destruct (empty_tree local); [rewrite O|]; reflexivity.
  - intros _. reflexivity.
  - change (CreateRootDigest local ins) with (CreateRootDigest rest ins). change (CreateRootDigest (remote_api rest answer) ins) with (CreateRootDigest rest ins).
    destruct (CreateRootDigest rest ins) as [root|]; [|reflexivity]. cbv zeta. destruct (GetAlternativeEndpoint (x_dispatch X) props) as [e|]; [reflexivity|].
    change (execute (remote_api rest answer) None (order_of n props f root)) with (answer (order_of n props f root)).
    destruct (answer (order_of n props f root)) as [y|] eqn:A; [|discriminate]. intros _.
    destruct (HA _ _ A) as (T & EX & p & R & ->). now rewrite (reply_same z (order_of n props f root) p FF Hz T EX R).
Qed.

(** A remote build without failures is a local build. *)
Theorem remote_replay l b : remote_building hash t legacy utf8 make_tree valid happens text rest X acts source l b ->
  (forall c, ~ In (EEnd (Act c) false) l) ->
  exists pend, replay X local acts source l = Fine (mkBuild (b_infos b) pend) /\ forall c ws, b_pending b c = Some (true, ws) -> pend c = Some (true, ws).
Proof.
  induction 1 as [|l b e z answer b' B IH Hz HA E]; intros NF.
  - eexists. split; [reflexivity|]. discriminate.
  - destruct IH as (pend & IH & PE); [intros c I; apply (NF c); now right|]. cbn [replay]. rewrite IH.
    destruct e as [[a|c]|[a|c] ok]; cbn [replay_event b_infos b_pending] in *.
    + injection E as <-. exists pend. auto.
    + destruct (read_inputs (b_infos b) (n_inputs (acts c))) as [ins|]; [|discriminate]. injection E as <-. eexists. split; [reflexivity|].
      cbn [b_pending]. intros x ws Q. destruct (Nat.eqb x c); [|auto]. injection Q as Q. f_equal. exact (process_true z answer _ _ _ Hz HA Q).
    + destruct (source a) as [i|], ok; try discriminate; injection E as <-; exists pend; auto.
    + destruct (b_pending b c) as [[ok' ws]|] eqn:Q; [|discriminate]. destruct ok; [|destruct (NF c (or_introl eq_refl))].
      destruct ok'; [|discriminate]. rewrite (PE _ _ Q). injection E as <-. exists pend. auto.
Qed.
End R.
