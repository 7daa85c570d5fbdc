(** C68 and C69: from analysed targets to finished builds. *)
From Coq Require Import String Ascii List Bool Arith NArith ZArith Lia Sorted.
From Verif Require Import Dag.Graph Dag.GraphInv Dag.GraphAdd Dag.GraphProps Dag.Traverse Dag.TraverseInv Dag.TraverseProps.
From Verif Require Import Executor.Local Executor.Process Executor.Build Executor.BuildSpec Executor.BuildProofs Executor.BuildProps.
From Verif Require Import Common.Strs LinkedMap.Model Expr.Json Expr.Model Describe.Model.
From Verif Require Import Analysis.Stage Analysis.Model Analysis.Spec Analysis.HonestSpec Analysis.Taint Analysis.ActionShape Analysis.StageProps.
From Verif Require Import Traverser.Model Traverser.Spec Traverser.GraphFacts Traverser.Values Traverser.Proofs Traverser.Gather.
Import ListNotations.
Local Open Scope string_scope.
Local Open Scope list_scope.
Local Open Scope nat_scope.

(** * C68 *)

Lemma sorted_map_fst {A} (l : list (string * A)) : sorted_keys l -> Sorted str_lt (map fst l).
Proof.
  intros S. apply StronglySorted_Sorted. induction S as [|p l S IH F]; cbn; constructor; auto.
  apply Forall_forall. intros k H. apply in_map_iff in H as (q & <- & H). rewrite Forall_forall in F. exact (F q H).
Qed.
Lemma by_id_sorted {A} (id : A -> string) l : Sorted str_lt (map id (by_id id l)).
Proof.
  rewrite by_id_keys. apply sorted_map_fst. apply (by_id_inv id); [constructor|intros p []].
Qed.

Lemma sorted_strings_ext l l' : Sorted str_lt l -> Sorted str_lt l' -> (forall x, In x l <-> In x l') -> l = l'.
Proof.
  intros S S'. apply Sorted_StronglySorted in S; [|exact str_lt_trans]. apply Sorted_StronglySorted in S'; [|exact str_lt_trans].
  revert l' S'. induction S as [|a l S IH F]; intros l' S' E.
  - destruct l' as [|b l']; [reflexivity|]. destruct (proj2 (E b)); now left.
  - destruct S' as [|b l' S' F']; [destruct (proj1 (E a)); now left|]. rewrite Forall_forall in F, F'.
    assert (a = b) as <-.
    { destruct (proj1 (E a) (or_introl eq_refl)) as [Q|Q]; [now symmetry|]. destruct (proj2 (E b) (or_introl eq_refl)) as [Q'|Q']; [exact Q'|].
      exfalso. exact (str_lt_asym _ _ (F b Q') (F' a Q)). }
    f_equal. apply IH; auto. intros x. split; intros H.
    + destruct (proj1 (E x) (or_intror H)) as [<-|Q]; [exfalso; exact (str_lt_irrefl _ (F _ H))|exact Q].
    + destruct (proj2 (E x) (or_intror H)) as [<-|Q]; [exfalso; exact (str_lt_irrefl _ (F' _ H))|exact Q].
Qed.

(** What is handed over to the build is exactly what the targets recorded: for each identifier of an action,
    tree or overlay that is recorded, one with that identifier; and all blobs. *)
Theorem C68_gathered : forall W ts, let g := ToResult W (map snd ts) in
  (forall x, In x (g_actions g) -> recorded ts (RAction x)) /\
  (forall x, In x (g_trees g) -> recorded ts (RTree x)) /\
  (forall x, In x (g_overlays g) -> recorded ts (ROverlay x)) /\
  (forall x, recorded ts (RAction x) -> exists y, In y (g_actions g) /\ ra_id y = ra_id x) /\
  (forall x, recorded ts (RTree x) -> exists y, In y (g_trees g) /\ t_id W y = t_id W x) /\
  (forall x, recorded ts (ROverlay x) -> exists y, In y (g_overlays g) /\ o_id W y = o_id W x) /\
  (forall s, In s (g_blobs g) <-> recorded_blob ts s).
Proof.
  intros W ts g. subst g. cbn [g_actions g_trees g_overlays g_blobs ToResult].
  split; [intros x H; now apply in_all, (by_id_In ra_id)|]. split; [intros x H; now apply in_all, (by_id_In (t_id W))|].
  split; [intros x H; now apply in_all, (by_id_In (o_id W))|].
  split; [intros x H; apply in_all in H; now apply by_id_all|]. split; [intros x H; apply in_all in H; now apply by_id_all|].
  split; [intros x H; apply in_all in H; now apply by_id_all|].
  intros s. rewrite In_sorted_set. apply in_all.
Qed.
Print Assumptions C68_gathered.

(** Each is there once, in the order of identifiers. *)
Theorem C68_sorted : forall W (ts : list analysed), let g := ToResult W ts in
  Sorted str_lt (map ra_id (g_actions g)) /\ Sorted str_lt (map (t_id W) (g_trees g)) /\
  Sorted str_lt (map (o_id W) (g_overlays g)) /\ Sorted str_lt (g_blobs g).
Proof.
  intros W ts g. subst g. cbn [g_actions g_trees g_overlays g_blobs ToResult]. repeat split; try apply by_id_sorted.
  apply StageProps.sorted_set_sorted.
Qed.
Print Assumptions C68_sorted.

(** So the order in which targets are taken from the result map, and how often a target is met, do not matter. *)
Theorem C68_order : forall W ts ts', ids_determine W ts -> (forall x, In x ts <-> In x ts') ->
  ToResult W (map snd ts) = ToResult W (map snd ts').
Proof.
  intros W ts ts' U E. unfold ToResult.
  assert (AE : forall {B} (f : analysed -> list B) x, In x (flat_map f (map snd ts)) <-> In x (flat_map f (map snd ts'))).
  { intros B f x. rewrite !in_all. split; intros (k & a & H & J); exists k, a; (split; [now apply E|exact J]). }
  f_equal.
  - apply by_id_same; [|apply AE]. intros x y Hx Hy Q.
    assert (RAction x = RAction y) as R; [|now injection R]. apply U; auto; apply in_all.
    + destruct Hx; [|apply AE]; assumption. + destruct Hy; [|apply AE]; assumption.
  - apply sorted_strings_ext; [apply StageProps.sorted_set_sorted..|]. intros x. rewrite !In_sorted_set. apply AE.
  - apply by_id_same; [|apply AE]. intros x y Hx Hy Q.
    assert (RTree x = RTree y) as R; [|now injection R]. apply U; auto; apply in_all.
    + destruct Hx; [|apply AE]; assumption. + destruct Hy; [|apply AE]; assumption.
  - apply by_id_same; [|apply AE]. intros x y Hx Hy Q.
    assert (ROverlay x = ROverlay y) as R; [|now injection R]. apply U; auto; apply in_all.
    + destruct Hx; [|apply AE]; assumption. + destruct Hy; [|apply AE]; assumption.
Qed.
Print Assumptions C68_order.

(** * C69 *)

(** The graph of what analysed targets recorded is accepted, and has the artifacts asked for. *)
Theorem C69_graph : forall W code leaf ts js, build_setting W ts js -> (forall a b, code a = code b -> a = b) ->
  exists s, BuildGraph W code leaf (ToResult W (map snd ts)) js = Some s /\
    forall j, In j js -> artifact_node s (aid_of code leaf j) <> None.
Proof.
  intros W code leaf ts js S CI.
  destruct (graph_built W code leaf CI (ToResult W (map snd ts)) js (unique_ids W ts js S) (recipes_nodup W ts) (all_acts_shaped W ts js S))
    as (s & E & F & K).
  exists s. split; [exact E|]. intros j J. destruct (art_node_of _ _ _ (f_R _ _ F) (K j J)) as [n [_ [-> _]]]. discriminate.
Qed.
Print Assumptions C69_graph.

(** Building it: every traversal ends, without getting stuck. It succeeds exactly if all artifacts asked for
    come out as something, and then it has found just that for them. *)
Theorem C69_build : forall W code leaf scale ts js s X A src source,
  build_setting W ts js -> (forall a b, code a = code b -> a = b) ->
  BuildGraph W code leaf (ToResult W (map snd ts)) js = Some s ->
  (forall j, source_like j -> artifact_node s (aid_of code leaf j) <> None -> source (node_of_artifact code leaf s j) = src j) ->
  let g := to_graph s in
  let acts := node_act W code leaf scale (ToResult W (map snd ts)) s in
  let targets := map (node_of_artifact code leaf s) js in
  exists bound, forall l t, Traverse.run g (init g targets) l = Some t ->
    length l <= bound /\ (finished t \/ exists k, Traverse.step g t (Do k true) <> None) /\
    forall m, infos_after X A acts source (log t) m -> finished t ->
      (success t <-> forall j, In j js -> exists i, comes_out X A W scale ts src j i) /\
      (success t -> forall j, In j js -> exists i, m (node_of_artifact code leaf s j) = Some i /\ comes_out X A W scale ts src j i).
Proof.
  intros W code leaf scale ts js s X A src source S CI E SRC. cbv zeta.
  pose proof (unique_ids W ts js S) as UN. pose proof (all_acts_shaped W ts js S) as SH. pose proof (all_inputs W ts js S) as BI.
  destruct (graph_built W code leaf CI (ToResult W (map snd ts)) js UN (recipes_nodup W ts) SH) as (s' & E' & F & K).
  assert (s' = s) as -> by congruence. clear E'.
  assert (SRC' : forall j, source_like j -> a_known s (aid_of code leaf j) -> source (aidx s (aid_of code leaf j)) = src j).
  { intros j HS HK. apply SRC; [exact HS|]. destruct (art_node_of _ _ _ (f_R _ _ F) HK) as [n [_ [-> _]]]. discriminate. }
  pose proof (graph_wf W code leaf _ js s F) as WF.
  pose proof (graph_acyclic W code leaf CI _ js UN (recipes_nodup W ts) BI s F) as AC.
  pose proof (graph_linked W code leaf scale CI _ js UN (recipes_nodup W ts) s F) as LK.
  pose proof (graph_shape W code leaf scale CI _ js UN s F) as SP.
  assert (KT : forall a, In a (map (node_of_artifact code leaf s) js) -> a < length (arts s)).
  { intros a H. apply in_map_iff in H as (j & <- & J). exact (aidx_bound _ _ _ (f_R _ _ F) (K j J)). }
  destruct (C36_ends (to_graph s) (map (node_of_artifact code leaf s) js) _ WF (fun n => needed_nodes _ _ _ n (f_R _ _ F) KT)) as [b B].
  exists b. intros l t R. destruct (B l t R) as [B1 B2]. split; [exact B1|]. split; [exact B2|]. intros m IM FI.
  assert (VC : forall j i, In j js -> value X A (to_graph s) (node_act W code leaf scale (ToResult W (map snd ts)) s) source (node_of_artifact code leaf s j) i ->
    comes_out X A W scale ts src j i).
  { intros j i J V. refine (val_comes W code leaf scale CI _ js UN BI s F X A ts (recorded_iff W ts js S) src source SRC' _ i V j _ (K j J) eq_refl).
    exact (all_asked W ts js S j J). }
  split.
  - assert (KN : forall a, In a (map (node_of_artifact code leaf s) js) -> Traverse.known (to_graph s) a = true)
      by (intros a H; cbn; apply Nat.ltb_lt; auto).
    rewrite (success_values X A (to_graph s) _ source _ l t m WF LK SP AC KN R IM FI).
    split.
    + intros H j J. destruct (H (node_of_artifact code leaf s j)) as (i & V); [now apply in_map|]. eauto.
    + intros H a Ha. apply in_map_iff in Ha as (j & <- & J). destruct (H j J) as (i & C). exists i.
      exact (comes_val W code leaf scale CI _ js UN s F X A ts (recorded_iff W ts js S) src source SRC' j i C (K j J)).
  - intros SU j J. destruct (C36_all_built _ _ _ _ WF AC R FI SU) as (_ & ART & _).
    destruct (ART _ (n_target _ _ _ (in_map _ _ _ J))) as [_ P].
    destruct (C58_values X A _ _ source _ l t m _ WF LK SP R IM P) as (i & Q & V). exists i. split; [exact Q|eauto].
Qed.
Print Assumptions C69_build.

Lemma code_exists : exists code : string -> nat, forall a b, code a = code b -> a = b.
Proof.
  exists (fix code s := match s with EmptyString => 0 | String c r => 1 + nat_of_ascii c + 256 * code r end).
  induction a as [|c a IH]; intros [|d b] H; try (cbn in H; lia); [reflexivity|].
  pose proof (nat_ascii_bounded c). pose proof (nat_ascii_bounded d).
  assert (nat_of_ascii c = nat_of_ascii d /\ (fix code s := match s with EmptyString => 0 | String c r => 1 + nat_of_ascii c + 256 * code r end) a =
    (fix code s := match s with EmptyString => 0 | String c r => 1 + nat_of_ascii c + 256 * code r end) b) as [E1 E2].
  { revert H. generalize ((fix code s := match s with EmptyString => 0 | String c r => 1 + nat_of_ascii c + 256 * code r end) a) as x.
    generalize ((fix code s := match s with EmptyString => 0 | String c r => 1 + nat_of_ascii c + 256 * code r end) b) as y. intros y x H. lia. }
  f_equal; [|now apply IH]. rewrite <- (ascii_nat_embedding c), <- (ascii_nat_embedding d). now f_equal.
Qed.

(** What an artifact comes out as is determined by what the targets recorded. *)
Theorem C69_determined : forall X A W scale ts js src, build_setting W ts js ->
  forall j i i', comes_out X A W scale ts src j i -> comes_out X A W scale ts src j i' -> i = i'.
Proof.
  intros X A W scale ts js src S j i i' C. revert i'. destruct code_exists as [code CI].
  pose proof (unique_ids W ts js S) as UN. pose proof (all_acts_shaped W ts js S) as SH. pose proof (recorded_iff W ts js S) as RI.
  assert (NS : forall r o, ~ source_like (out_artifact W r o)).
  { intros r o H. exact (source_not_out W code (fun _ => 0) _ r o H eq_refl). }
  revert j i C. apply (comes_ind W scale X A ts src (fun j i => forall i', comes_out X A W scale ts src j i' -> i = i')).
  - intros j i HS E i' C. inversion C as [? ? ? E'|r n o ins ws ? R N F P H Q]; subst; [congruence|]. destruct (NS _ _ HS).
  - intros r n o ins ws i R N IH P H i' C.
    inversion C as [? ? HS|r' n' o' ins' ws' ? R' N' F' P' H' Q]; subst; [destruct (NS _ _ HS)|].
    destruct (out_inj W code (fun _ => 0) CI _ UN r' r o' o) as [-> ->]; try (now apply RI); try (eapply nth_error_In; eassumption); [now f_equal|].
    assert (ins = ins') as <-.
    { clear -IH F'. revert ins' F'. induction IH as [|x [p y] l ins [E1 E2] F IH]; intros ins' F'; inversion F' as [|? [p' y'] ? ? [E3 E4] F'']; subst; [reflexivity|].
      cbn in *. f_equal; [f_equal; [congruence|auto]|auto]. }
    assert (ws' = ws) as -> by congruence.
    assert (n' = n) as ->.
    { assert (NoDup (routs r)) as ND by (destruct r as [x|c|q]; [apply SH, RI; exact R|constructor; [intros []|constructor]..]).
      apply (proj1 (NoDup_nth_error (routs r)) ND); [apply nth_error_Some; congruence|congruence]. }
    pose proof (standalone_outs scale X A r ins ws P) as ES.
    assert (NoDup (map fst ws)) as NW by (rewrite ES; apply seq_NoDup).
    clear -NW H H'. induction ws as [|[b k] ws IH]; [destruct H|]. cbn in NW. inversion NW as [|? ? N1 N2]; subst.
    destruct H as [H|H], H' as [K|K]; [congruence| | |auto].
    + injection H as -> ->. exfalso. apply N1. apply in_map_iff. exists (n, i'). auto.
    + injection K as -> ->. exfalso. apply N1. apply in_map_iff. exists (n, i). auto.
Qed.
Print Assumptions C69_determined.

(** Analysing (and recording) more does not change it. *)
Theorem C69_more : forall X A W scale ts ts' src, incl ts ts' ->
  forall j i, comes_out X A W scale ts src j i -> comes_out X A W scale ts' src j i.
Proof.
  intros X A W scale ts ts' src IN. apply (comes_ind W scale X A ts src (comes_out X A W scale ts' src)).
  - intros j i HS E. now apply co_source.
  - intros r n o ins ws i (k & a & J & R) N IH P H. apply (co_made X A W scale ts' src r n o ins ws i); auto.
    exists k, a. auto.
Qed.
Print Assumptions C69_more.
