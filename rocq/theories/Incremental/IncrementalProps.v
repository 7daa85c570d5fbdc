(** C104, C105, C106: building on an action cache. *)
From Coq Require Import String Ascii List Bool Arith NArith ZArith Lia.
From Verif Require Import Common.Strs Describe.Model Executor.Wire Executor.Local Executor.LocalSpec Executor.LocalProofs Dag.Traverse Dag.TraverseInv Dag.TraverseProps
  Executor.Process Executor.Build Executor.BuildSpec Executor.BuildProofs Executor.BuildProps
  Incremental.Model Incremental.Spec Incremental.Proofs Incremental.Backed Incremental.Again.
Import ListNotations.
Local Open Scope string_scope.
Local Open Scope list_scope.

Section P.
Variable hash : string -> string.
Variable t : hash_type.
Variable legacy : bool.
Variable valid : digest -> option bool.
Variable rest : api.
Variable X : context.
Notation from_scratch does := (local_api hash t legacy valid rest [] does).
Notation building happens keep acts source := (building hash t legacy valid rest X happens keep acts source).

Lemma empty_sound happens : sound hash t happens [].
Proof. intros k r E. discriminate. Qed.

(** ** C104: with deterministic commands, whatever the cache contains, and whatever others do to it meanwhile, what a build
    finds is what the commands give when there is no cache. *)
Theorem C104_as_from_scratch : forall happens keep U does g acts source targets ac0 l gs s a,
  tame hash t U -> deterministic happens U does -> wf g -> linked g acts -> (forall c, tree_shape (acts c)) ->
  by_others hash t happens keep [] ac0 -> run g (init g targets) l = Some gs -> building happens keep acts source ac0 (log gs) s -> in_play happens s U ->
  provided g (log gs) a ->
  exists i, b_infos (y_build s) a = Some i /\ value X (from_scratch does) g acts source a i.
Proof.
  intros happens keep U does g acts source targets ac0 l gs s a TM DT W LK TS O R B P Pa.
  assert (S : sound hash t happens ac0) by (eapply others_sound; [exact O|apply empty_sound]).
  pose proof (same_replay hash t legacy valid rest X happens keep acts source U TM does DT _ _ _ B S P) as E.
  apply (C58_values X _ g acts source targets l gs (b_infos (y_build s)) a W LK TS R); [|exact Pa].
  exists (b_pending (y_build s)). rewrite E. now destruct (y_build s).
Qed.

(** So the outcome for given targets is always the same: two complete builds, on whatever caches, in whatever schedule, both
    fail or both succeed, with the same results. *)
Theorem C104_same_outcome : forall happens keep U does g acts source targets ac l gs s ac' l' gs' s',
  tame hash t U -> deterministic happens U does -> wf g -> linked g acts -> (forall c, tree_shape (acts c)) -> acyclic g ->
  by_others hash t happens keep [] ac -> run g (init g targets) l = Some gs -> building happens keep acts source ac (log gs) s -> in_play happens s U ->
  by_others hash t happens keep [] ac' -> run g (init g targets) l' = Some gs' -> building happens keep acts source ac' (log gs') s' -> in_play happens s' U ->
  finished gs -> finished gs' ->
  (success gs <-> success gs') /\ (success gs -> forall a, In a targets -> b_infos (y_build s') a = b_infos (y_build s) a /\ b_infos (y_build s) a <> None).
Proof.
  intros happens keep U does g acts source targets ac l gs s ac' l' gs' s' TM DT W LK TS AC O R B P O' R' B' P' F F'.
  assert (E : infos_after X (from_scratch does) acts source (log gs) (b_infos (y_build s))).
  { exists (b_pending (y_build s)). rewrite (same_replay hash t legacy valid rest X happens keep acts source U TM does DT _ _ _ B (others_sound _ _ _ _ _ _ O (empty_sound _)) P).
    now destruct (y_build s). }
  assert (E' : infos_after X (from_scratch does) acts source (log gs') (b_infos (y_build s'))).
  { exists (b_pending (y_build s')). rewrite (same_replay hash t legacy valid rest X happens keep acts source U TM does DT _ _ _ B' (others_sound _ _ _ _ _ _ O' (empty_sound _)) P').
    now destruct (y_build s'). }
  split; [split; intros SU|intros SU].
  - exact (proj1 (C58_same_outcome X _ g acts source targets l gs _ l' gs' _ W LK TS AC R E F SU R' E' F')).
  - exact (proj1 (C58_same_outcome X _ g acts source targets l' gs' _ l gs _ W LK TS AC R' E' F' SU R E F)).
  - exact (proj2 (C58_same_outcome X _ g acts source targets l gs _ l' gs' _ W LK TS AC R E F SU R' E' F')).
Qed.

(** ** C105: even if commands are not deterministic, everything a build finds was made by executions that took place, of
    just these actions on just these inputs. *)
Theorem C105_made : forall happens keep U acts source ac0 l s a i,
  tame hash t U -> by_others hash t happens keep [] ac0 -> building happens keep acts source ac0 l s -> in_play happens s U ->
  b_infos (y_build s) a = Some i -> made hash t legacy valid rest X happens acts source a i.
Proof.
  intros happens keep U acts source ac0 l s a i TM O B P E.
  refine (proj1 (all_made hash t legacy valid rest X happens keep acts source U TM _ _ _ B _ P) a i E).
  eapply others_sound; [exact O|apply empty_sound].
Qed.

(** ** C106: commands are not run again. *)
(** Once an action was done for some build, and its entry not removed from the cache, it is not run for another build, of
    whatever graph, in whose inputs and definition nothing changed for this action; unless it is not to be cached. *)
Theorem C106_not_again : forall happens keep keep0 U acts source acts' source' ac0 l s ac' l' s' a b c c',
  tame hash t U -> by_others hash t happens keep0 [] ac0 -> building happens keep acts source ac0 l s -> in_play happens s U ->
  by_others hash t happens keep (y_cache s) ac' -> building happens keep acts' source' ac' l' s' -> in_play happens s' U ->
  In (c, CacheOutput, a) (y_done s) -> U a -> same_action a b ->
  reliable t happens a -> a_command a <> [] ->
  (exists id, CreateActionDigest hash t a false = Some id /\ keep (d_hash id)) ->
  ~ In (c', CacheOutput, b, true) (y_asked s').
Proof.
  intros happens keep keep0 U acts source acts' source' ac0 l s ac' l' s' a b c c' TM O0 B P O1 B' P' D Ua SA RL CM (id & ID & K).
  assert (KP : forall id', CreateActionDigest hash t a false = Some id' -> keep (d_hash id')) by (intros id' E; rewrite ID in E; injection E as <-; exact K).
  assert (S0 : sound hash t happens ac0) by (eapply others_sound; [exact O0|apply empty_sound]).
  assert (S1 : sound hash t happens ac') by (eapply others_sound; [exact O1|exact (proj1 (building_fair _ _ _ _ _ _ _ _ _ _ _ _ _ B S0))]).
  assert (M : remembered hash t a (y_cache s)).
  { refine (proj2 (done_remembered hash t legacy valid rest X happens keep acts source U TM a Ua RL KP (proj1 P) _ CM _ _ _ B S0) c a D (same_refl a) Ua).
    congruence. }
  apply (not_run hash t legacy valid rest X happens keep acts' source' U TM a Ua RL KP (proj1 P) _ _ _ B' S1 P'); [|exact SA].
  exact (others_remembered hash t happens keep U TM a Ua RL KP (proj1 P) _ _ O1 M).
Qed.

(** In particular, after a successful build another one for the same targets, or some of them, runs no command but those whose
    results are not to be cached. *)
Theorem C106_nothing_to_do : forall happens keep0 U does g acts source targets targets' ac0 l gs s ac' l' gs' s' c b,
  tame hash t U -> deterministic happens U does -> wf g -> linked g acts -> (forall c, tree_shape (acts c)) -> acyclic g ->
  (forall a, U a -> reliable t happens a /\ a_command a <> [] /\ CreateActionDigest hash t a false <> None) ->
  by_others hash t happens keep0 [] ac0 ->
  run g (init g targets) l = Some gs -> finished gs -> success gs -> building happens (fun _ => True) acts source ac0 (log gs) s -> in_play happens s U ->
  by_others hash t happens (fun _ => True) (y_cache s) ac' ->
  incl targets' targets -> run g (init g targets') l' = Some gs' -> building happens (fun _ => True) acts source ac' (log gs') s' -> in_play happens s' U ->
  ~ In (c, CacheOutput, b, true) (y_asked s').
Proof.
  intros happens keep0 U does g acts source targets targets' ac0 l gs s ac' l' gs' s' c b TM DT W LK TS AC RL O0 R F SU B P O1 IN R' B' P' I.
  assert (S0 : sound hash t happens ac0) by (eapply others_sound; [exact O0|apply empty_sound]).
  assert (S1 : sound hash t happens ac') by (eapply others_sound; [exact O1|exact (proj1 (building_fair _ _ _ _ _ _ _ _ _ _ _ _ _ B S0))]).
  destruct (consistently hash t legacy valid rest X happens _ g acts source U does W LK TS TM DT _ _ _ B S0 (run_good g W _ _ _ R) P) as (_ & _ & C3).
  destruct (consistently hash t legacy valid rest X happens _ g acts source U does W LK TS TM DT _ _ _ B' S1 (run_good g W _ _ _ R') P') as (_ & C2 & _).
  destruct (C2 _ _ _ _ I) as (St & ins & V & A).
  destruct (C35_only_needed g targets' l' gs' (Act c) W R' St) as [N _].
  assert (N' : needed g targets (Act c)).
  { clear - N IN. revert N; generalize (Act c); intros k N; induction N as [x J|x y N IH E|x y N IH E]; [apply n_target; auto|eapply n_builder; eauto|eapply n_dep; eauto]. }
  destruct (C36_all_built g targets l gs W AC R F SU) as (_ & _ & ACT). destruct (C3 c true (ACT c N')) as (ins' & V' & D).
  pose proof (inputs_fun X _ g acts source W LK TS c ins ins' V V') as <-. specialize (D _ _ A).
  assert (Ub : U b) by (eapply P'; exact I). destruct (RL b Ub) as (RB & CB & IB).
  refine (C106_not_again happens (fun _ => True) keep0 U acts source acts source ac0 _ s ac' _ s' b b c c TM O0 B P O1 B' P' D Ub (same_refl b) RB CB _ I).
  destruct (CreateActionDigest hash t b false) as [id|]; [|congruence]. eauto.
Qed.
End P.

(** ** A concrete build, twice: action 0 runs a command, action 1 makes a tree; the second build runs no command. *)
Definition ex_hash (s : string) : string := s.
Definition ex_does : world :=
  mkWorld (Some 0%Z) (fun p => if String.eqb p "out" then Some (FFile true (Some (ex_digest "result" false))) else None) None None true.
Definition ex_run : local_action := action_of GitSHA1 true (order_of (ex_acts 0) [] CacheOutput (ex_digest "tree insrc" true)).
Definition ex_happens (a : local_action) (w : world) : Prop := a = ex_run /\ w = ex_does.
Definition ex_valid (d : digest) : option bool := Some true.

Fixpoint advance (ac : cache) (l : list event) : option system :=
  match l with
  | [] => Some (mkSystem ac (mkBuild (fun _ => None) (fun _ => None)) (fun _ => None) [] [])
  | e :: l =>
      match advance ac l with
      | Some s =>
          match replay_event ex_context (local_api ex_hash GitSHA1 true ex_valid ex_api (y_cache s) (fun _ => ex_does)) ex_acts ex_source (y_build s) e with
          | Fine b => Some (proceed ex_hash GitSHA1 true ex_api ex_context ex_acts s e ex_does b)
          | _ => None
          end
      | None => None
      end
  end.
Lemma advance_building ac l s : advance ac l = Some s -> (forall c f a x, In (c, f, a, x) (y_asked s) -> a = ex_run) ->
  building ex_hash GitSHA1 true ex_valid ex_api ex_context ex_happens (fun _ => True) ex_acts ex_source ac l s.
Proof.
  revert s. induction l as [|e l IH]; intros s E Q; cbn [advance] in E.
  - injection E as <-. constructor.
  - destruct (advance ac l) as [s0|] eqn:E0; [|discriminate].
    destruct (replay_event _ _ _ _ _ e) as [b0| |] eqn:R; try discriminate. injection E as <-.
    constructor; [|intros c f a A _|exact R].
    + apply IH; [reflexivity|]. intros c f a x I. eapply Q. apply asked_grows. exact I.
    + split; [|reflexivity]. apply (Q c f a (runs_command ex_hash GitSHA1 s0 f a ex_does)). unfold proceed.
      destruct e as [[?|d]|[?|?] ?]; try discriminate. rewrite A. assert (c = d) as <-.
      { unfold asks in A. destruct (read_inputs _ _); [|discriminate]. destruct (asked _ _ _ _ _ _); [|discriminate]. congruence. }
      now left.
Qed.

Example C104_nonvacuous : exists U does l gs s s',
  tame ex_hash GitSHA1 U /\ deterministic ex_happens U does /\
  wf ex_graph /\ linked ex_graph ex_acts /\ (forall c, tree_shape (ex_acts c)) /\ acyclic ex_graph /\
  (forall a, U a -> reliable GitSHA1 ex_happens a /\ a_command a <> [] /\ CreateActionDigest ex_hash GitSHA1 a false <> None) /\
  run ex_graph (init ex_graph [2]) l = Some gs /\ finished gs /\ success gs /\
  building ex_hash GitSHA1 true ex_valid ex_api ex_context ex_happens (fun _ => True) ex_acts ex_source [] (log gs) s /\
  in_play ex_happens s U /\
  building ex_hash GitSHA1 true ex_valid ex_api ex_context ex_happens (fun _ => True) ex_acts ex_source (y_cache s) (log gs) s' /\
  in_play ex_happens s' U /\
  y_asked s = [(0, CacheOutput, ex_run, true)] /\ y_asked s' = [(0, CacheOutput, ex_run, false)] /\ y_done s = [(0, CacheOutput, ex_run)] /\
  b_infos (y_build s) 2 = Some (mkInfo (ex_digest "tree tresult" true) Tree false) /\
  b_infos (y_build s') 2 = Some (mkInfo (ex_digest "tree tresult" true) Tree false).
Proof.
  destruct ex_wf as (W & L & T & AC).
  exists (fun a => a = ex_run), (fun _ => ex_does), (play ex_graph 100 (init ex_graph [2])). eexists. eexists. eexists.
  split; [split|].
  { intros a ->. split; [split; [discriminate|vm_compute; intuition discriminate]|]. left. repeat eexists. }
  { intros a b -> ->. intros [[N _]|[N _]]; now apply N. }
  split; [split; [intros a w [_ E]; exact E|reflexivity]|]. repeat (split; [assumption|]).
  split.
  { intros a ->. split; [|split; vm_compute; discriminate]. intros b w _ [-> ->]. split; [reflexivity|]. split; [|reflexivity].
    split; cbn; [|intros p []]. intros p [<-|[]]. left. eexists _, _. reflexivity. }
  split; [vm_compute; reflexivity|].
  split; [intros t J; cbn in J; repeat (destruct J as [<-|J]; [reflexivity|]); destruct J|].
  split; [reflexivity|]. 
  split; [apply advance_building; [vm_compute; reflexivity|]; vm_compute; intros c f a x [I|[]]; congruence|].
  split; [split; [intros a w [E _]; exact E|vm_compute; intros c f a x [I|[]]; congruence]|].
  split; [apply advance_building; [vm_compute; reflexivity|]; vm_compute; intros c f a x [I|[]]; congruence|].
  split; [split; [intros a w [E _]; exact E|vm_compute; intros c f a x [I|[]]; congruence]|].
  repeat split; vm_compute; reflexivity.
Qed.

Print Assumptions C104_as_from_scratch.
Print Assumptions C104_same_outcome.
Print Assumptions C105_made.
Print Assumptions C106_not_again.
Print Assumptions C106_nothing_to_do.
