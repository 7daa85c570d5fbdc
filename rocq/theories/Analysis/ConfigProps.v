(** C60: the result of an analysis depends only on the configuration variables it reports. *)
From Coq Require Import String Ascii List Bool Arith.
From Verif Require Import Common.Strs LinkedMap.Model LinkedMap.Proofs Path.Model Expr.Json Expr.Model Expr.OpsProofs Describe.Model.
From Verif Require Import Analysis.Stage Analysis.Model Analysis.Spec Analysis.Proofs Analysis.Crash Analysis.Examples.
Import ListNotations.
Local Open Scope string_scope.
Local Open Scope list_scope.
Local Open Scope nat_scope.

(** An analysis has at most one result. *)
Theorem C60_one_result (W : world) (k : key) (a a' : analysed) :
  analyses W k a -> analyses W k a' -> a = a'.
Proof. intros H H'. exact (analyses_det W k a H a' H'). Qed.
Print Assumptions C60_one_result.

(** In any configuration with the same values for the reported variables the analysis succeeds with the
    same result: artifacts, runfiles, providers, actions, blobs, trees, taints, everything. *)
Theorem C60_only_reported_variables (W : world) (t : target) (c c' : env) (a : analysed) :
  faithful_equality W ->
  analyses W (t, c) a ->
  (forall x, In x (an_vars a) -> env_get c x = env_get c' x) ->
  analyses W (t, c') a.
Proof. intros FE H Ha. exact (independent W FE (t, c) a H c' Ha). Qed.
Print Assumptions C60_only_reported_variables.

(** Sharing: two analyses of a target with the same configuration after restriction to the variables each
    of them reports have the same result. *)
Theorem C60_sharing (W : world) (t : target) (c1 c2 : env) (a1 a2 : analysed) :
  faithful_equality W ->
  analyses W (t, c1) a1 -> analyses W (t, c2) a2 ->
  (forall x, Find (Prune c1 (an_vars a1)) x = Find (Prune c2 (an_vars a2)) x) ->
  a1 = a2.
Proof. intros FE H1 H2. exact (sharing W FE t c1 c2 a1 a2 H1 H2). Qed.
Print Assumptions C60_sharing.

(** The node shown in the target graph is the target with the configuration restricted to the reported
    variables (source targets have none). *)
Theorem C60_graph_node (W : world) (t : target) (c : env) (a : analysed) :
  analyses W (t, c) a ->
  an_node a = None \/ an_node a = Some (t, Prune c (an_vars a)).
Proof. intros H. exact (node_of_result W (t, c) a H). Qed.
Print Assumptions C60_graph_node.

(** Whatever has been analysed before and in which order, adding a result to the map of results (under the
    target and the restricted configuration) gives that very result back. *)
Definition result_key (e : key * analysed) : key := (fst (fst e), Prune (snd (fst e)) (an_vars (snd e))).
Definition history (W : world) (l : list (key * analysed)) : result_map :=
  fold_left (fun m e => fst (result_add W m (result_key e) (snd e))) l [].

Lemma history_go W l : forall m, (forall e, In e m -> exists k, analyses W k (snd e) /\ fst e = result_key (k, snd e)) ->
  (forall e, In e l -> analyses W (fst e) (snd e)) ->
  forall e, In e (fold_left (fun m e => fst (result_add W m (result_key e) (snd e))) l m) ->
  exists k, analyses W k (snd e) /\ fst e = result_key (k, snd e).
Proof.
  induction l as [|x r IH]; intros m Hm Hl e He; cbn [fold_left] in He; auto.
  apply (IH (fst (result_add W m (result_key x) (snd x)))); auto.
  - intros e0 He0. unfold result_add in He0. destruct (find _ m); cbn in He0; auto.
    apply in_app_or in He0 as [He0|[<-|[]]]; auto. exists (fst x). cbn. split; [apply Hl; now left|reflexivity].
  - intros e0 He0. apply Hl. now right.
Qed.

Theorem C60_result_map (W : world) (l : list (key * analysed)) (t : target) (c : env) (a : analysed) :
  faithful_equality W ->
  (forall e, In e l -> analyses W (fst e) (snd e)) ->
  analyses W (t, c) a ->
  snd (result_add W (history W l) (t, Prune c (an_vars a)) a) = a.
Proof.
  intros FE Hl Ha. unfold result_add. destruct (find _ (history W l)) as [e|] eqn:E; [|reflexivity].
  apply find_some in E as [Hin Hk]. unfold same_key in Hk. apply andb_prop in Hk as [H1 H2]. cbn [fst snd] in H1, H2.
  destruct (history_go W l [] (fun _ H => match H with end) Hl e Hin) as [[t' c'] [Ha' Ek]].
  rewrite Ek in H1, H2. unfold result_key in H1, H2. cbn [fst snd] in H1, H2.
  apply (fe_target W FE) in H1. subst t'. cbn [snd].
  apply (sharing W FE t c' c (snd e) a Ha' Ha). exact (fe_same W FE _ _ H2).
Qed.
Print Assumptions C60_result_map.

(** A compiled program whose library depends on OS (and on MODE, which the rule fixes): it reports ARCH and
    OS; changing MODE and adding other variables does not matter, changing ARCH does. *)
Lemma got (t : string) (c : env) a : result_of t c = ODone a -> analyses ex_world (JStr t, c) a.
Proof. apply analyse_sound. Qed.
Example C60_nonvacuous :
  faithful_equality ex_world /\
  (exists a, analyses ex_world (JStr "bin", on_x86) a /\ an_vars a = ["ARCH"; "OS"] /\ actions_of (ODone a) = [(["out"], ["cc"; "x86"])]) /\
  (forall x, In x ["ARCH"; "OS"] -> env_get on_x86 x = env_get on_x86' x) /\
  (exists a, analyses ex_world (JStr "bin", on_arm) a /\ actions_of (ODone a) = [(["out"], ["cc"; "arm"])]) /\
  (exists a, analyses ex_world (JStr "out", on_x86) a /\ an_vars a = ["ARCH"]).
Proof.
  split; [exact ex_faithful|]. split; [|split; [|split]].
  - destruct (result_of "bin" on_x86) as [a| | |] eqn:E; try (vm_compute in E; discriminate).
    exists a. split; [now apply got|]. rewrite <- E. change (an_vars a) with (vars_of (ODone a)). rewrite <- E. vm_compute. auto.
  - intros x [<-|[<-|[]]]; reflexivity.
  - destruct (result_of "bin" on_arm) as [a| | |] eqn:E; try (vm_compute in E; discriminate).
    exists a. split; [now apply got|]. rewrite <- E. vm_compute. auto.
  - destruct (result_of "out" on_x86) as [a| | |] eqn:E; try (vm_compute in E; discriminate).
    exists a. split; [now apply got|]. change (an_vars a) with (vars_of (ODone a)). rewrite <- E. vm_compute. auto.
Qed.
