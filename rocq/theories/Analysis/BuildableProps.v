(** C67: everything in a result, and everything needed to build it, can be built. *)
From Coq Require Import String Ascii List Bool Arith ZArith.
From Verif Require Import Common.Strs LinkedMap.Model Path.Model Expr.Json Expr.Model Describe.Model.
From Verif Require Import Analysis.Stage Analysis.Model Analysis.Spec Analysis.HonestSpec Analysis.Proofs Analysis.Honest Analysis.Taint.
From Verif Require Import Analysis.Buildable Analysis.Crash Analysis.Examples Analysis.StageExamples.
Import ListNotations.
Local Open Scope string_scope.
Local Open Scope list_scope.
Local Open Scope nat_scope.

(** The artifacts of the result: the staged ones, the runfiles, and those anywhere in the provided values. *)
Theorem C67_result : forall W, honest_evaluator W -> plain_definitions W -> typed_world W ->
  forall k a, plain_env (snd k) -> analyses W k a ->
  typed (an_result a) /\ forall j, in_result (an_result a) j -> buildable W (given W) (all_recipes W k a) j.
Proof.
  intros W HE PD TW k a Hc Ha. destruct (all_good W HE PD TW k a Ha Hc) as [(S1 & S2 & S3) _]. split.
  - split; [eapply stage_typed; eauto|]. split; [eapply stage_typed; eauto|]. intros x Hx. specialize (S3 x Hx). destruct x; cbn in *; auto.
  - intros j [Hj|[Hj|Hj]].
    + exact (stage_within W _ _ S1 (EArt j) Hj).
    + exact (stage_within W _ _ S2 (EArt j) Hj).
    + exact (S3 (EArt j) Hj).
Qed.
Print Assumptions C67_result.

Lemma reached_clean W : honest_evaluator W -> plain_definitions W -> forall k d v, reaches W k d v -> plain_env (snd k) ->
  plain_env (snd d) /\ analyses W d v /\ sub (all_recipes W d v) (below W k).
Proof.
  intros HE PD k d v H. induction H as [k d v Hd|k d v d' v' Hd Hr IH]; intros Hc.
  - split; [exact (requests_clean W HE PD k d v Hc Hd)|]. split; [exact (requested_analysed W _ _ _ Hd)|apply of_dep; exact Hd].
  - destruct (IH (requests_clean W HE PD k d v Hc Hd)) as (A & B & C). split; [exact A|]. split; [exact B|].
    eapply sub_trans; [exact C|]. repeat split; cbn; intros x (d1 & v1 & Hr1 & Hin); exists d1, v1; (split; [eapply reach_step; eauto|exact Hin]).
Qed.

(** The inputs of all actions, the entries of all trees and the parts of all overlays, of the target and of
    everything it depends on. *)
Theorem C67_recipes : forall W, honest_evaluator W -> plain_definitions W -> typed_world W ->
  forall k a, plain_env (snd k) -> analyses W k a ->
  forall v, of_or_below W k a v ->
  (forall x, In x (an_actions v) -> forall i, In i (ra_inputs x) -> buildable W (given W) (all_recipes W k a) (snd i)) /\
  (forall c, In c (an_trees v) -> forall i, In i c -> buildable W (given W) (all_recipes W k a) (snd i)) /\
  (forall o, In o (an_overlays v) -> forall p, In p (fst o) -> buildable W (given W) (all_recipes W k a) p).
Proof.
  intros W HE PD TW k a Hc Ha v [->|[d Hr]].
  - exact (proj2 (all_good W HE PD TW k a Ha Hc)).
  - destruct (reached_clean W HE PD k d v Hr Hc) as (Hd & Hv & HS).
    assert (HS' : sub (all_recipes W d v) (all_recipes W k a)).
    { eapply sub_trans; [exact HS|]. eapply sub_trans; [apply sub_plus|apply below_all]. }
    exact (effects_mono W _ _ _ HS' (proj2 (all_good W HE PD TW d v Hv Hd))).
Qed.
Print Assumptions C67_recipes.

(** The hypotheses are met by a world in which nothing is given, and a target with an action; what no recipe
    yields cannot be built. *)
Lemma stage_world_typed : typed_world stage_world.
Proof.
  constructor.
  - intros t st H. exfalso. cbn in H. unfold ex_definition in H.
    repeat match type of H with context [match ?x with _ => _ end] => destruct x; try discriminate H end.
  - intros t st H. exfalso. cbn in H. unfold ex_definition in H.
    repeat match type of H with context [match ?x with _ => _ end] => destruct x; try discriminate H end.
  - intros t r H. exfalso. cbn in H. unfold ex_definition in H.
    repeat match type of H with context [match ?x with _ => _ end] => destruct x; try discriminate H end.
  - intros k r im [H|H]; discriminate.
Qed.
Lemma stage_world_nothing j : ~ given stage_world j.
Proof.
  intros H. destruct H as [t st j H _|t sts st j H _ _|t n j H|t r j H _|k r im j H _|k r im j H _]; try discriminate H;
    cbn in H; unfold ex_definition in H;
    repeat match type of H with context [match ?x with _ => _ end] => destruct x; try discriminate H end.
Qed.
Example C67_nonvacuous :
  honest_evaluator stage_world /\ plain_definitions stage_world /\ typed_world stage_world /\ plain_env on_x86 /\
  (forall j, ~ given stage_world j) /\
  (exists a x i, analyses stage_world (JStr "bin", on_x86) a /\ In x (an_actions a) /\ In i (ra_inputs x) /\ fst i = "lib.c" /\
     in_result (an_result a) (art_ToJson (AAction (ra_id x) "out"))) /\
  (forall R, ~ buildable stage_world (given stage_world) R JNull).
Proof.
  split; [exact (stage_world_honest _)|]. split; [exact stage_world_plain|]. split; [exact stage_world_typed|]. split; [now apply plain_flat|].
  split; [exact stage_world_nothing|]. split.
  - destruct (analyse stage_world 5 (JStr "bin", on_x86)) as [a| | |] eqn:E; try (vm_compute in E; discriminate).
    assert (S : map (fun x => keys (ra_inputs x)) (an_actions a) = [["lib.c"; "work"]] /\
      t_stage (an_result a) = map (fun x => ("./out", EArt (art_ToJson (AAction (ra_id x) "out")))) (an_actions a) \/
      t_stage (an_result a) = map (fun x => ("out", EArt (art_ToJson (AAction (ra_id x) "out")))) (an_actions a) /\
      map (fun x => keys (ra_inputs x)) (an_actions a) = [["lib.c"; "work"]])
      by (vm_compute in E |- *; injection E as <-; vm_compute; auto).
    assert (S' : map (fun x => keys (ra_inputs x)) (an_actions a) = [["lib.c"; "work"]] /\ exists p,
      t_stage (an_result a) = map (fun x => (p, EArt (art_ToJson (AAction (ra_id x) "out")))) (an_actions a))
      by (destruct S as [[A B]|[B A]]; split; auto; eexists; exact B).
    clear S. destruct S' as [A (p & B)]. destruct (an_actions a) as [|x [|]] eqn:Ex; try discriminate. cbn in A, B.
    destruct (ra_inputs x) as [|i l] eqn:Ei; [discriminate|]. injection A as A _.
    exists a, x, i. split; [exact (analyse_sound _ _ _ _ E)|]. rewrite Ex, Ei. split; [now left|]. split; [now left|]. split; [exact A|].
    left. rewrite B. cbn. now left.
  - intros R H. inversion H as [j Hg Ej| | | |]. exact (stage_world_nothing _ Hg).
Qed.
