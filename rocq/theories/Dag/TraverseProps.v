(** C35, C36: the traversal of the action graph.

    Statements are about states [s] reachable from the call of [Traverse] with
    given targets by any sequence of actions, that is, for any interleaving of
    the tasks, any results of processing and any tasks skipped after a failure.
    The graph is arbitrary; [wf] says that it is linked in both directions as
    DependencyGraph does it (C37). *)

From Coq Require Import List Arith Bool ZArith Lia.
From Verif Require Import Async.Lists Dag.Traverse Dag.TraverseInv Dag.TraverseEnd.
Import ListNotations.

(** ** Specification *)

Definition event_dec : forall x y : event, {x = y} + {x <> y}.
Proof. decide equality; try apply bool_dec; decide equality; apply Nat.eq_dec. Defined.

(** In what happened so far, artifact [d] was provided: its action, or the
    artifact itself if no action builds it, was processed with success. *)
Definition provided (g : graph) (past : list event) (d : nat) : Prop :=
  In (EEnd (match builder g d with Some c => Act c | None => Art d end) true) past.

(** No action depends on itself: dependencies can be numbered. *)
Definition acyclic (g : graph) : Prop :=
  exists rank : nat -> nat, forall c d c', In d (deps g c) -> builder g d = Some c' ->
    rank c' < rank c.

(** The result of [Traverse], [not failed_] (traverser.hpp 154). *)
Definition success (s : state) : Prop := failed s = false.

(** ** C35 *)

Lemma starts_count : forall n s, starts n s = count_occ event_dec (log s) (EStart n).
Proof.
  intros n s. unfold starts. induction (log s) as [|e l IH]; cbn [sum count_occ]; [reflexivity|].
  rewrite IH. destruct (event_dec e (EStart n)) as [->|N].
  - now rewrite nn_refl.
  - destruct e as [m|m ok]; [|reflexivity]. unfold nn. destruct (node_eqb_spec n m); [congruence|reflexivity].
Qed.

Lemma started_queued : forall g targets s n, Inv g targets s -> In (EStart n) (log s) -> queued s n = true.
Proof.
  intros g targets s n V J. pose proof (j_queued _ _ _ V n) as K. rewrite starts_count in K.
  apply (count_occ_In event_dec) in J. destruct (queued s n); [reflexivity|cbn in K; lia].
Qed.

Theorem C35_at_most_once : forall g targets l s n, wf g -> run g (init g targets) l = Some s ->
  count_occ event_dec (log s) (EStart n) <= 1.
Proof.
  intros g targets l s n W R. pose proof (inv_run _ _ _ _ _ W (inv_init g targets) R) as V.
  rewrite <- starts_count. pose proof (j_queued _ _ _ V n) as K. destruct (queued s n); cbn in K; lia.
Qed.

Theorem C35_inputs_first : forall g targets l s past c later, wf g ->
  run g (init g targets) l = Some s ->
  log s = later ++ EStart (Act c) :: past ->
  forall d, In d (deps g c) -> provided g past d.
Proof.
  intros g targets l s past c later W R E d J.
  pose proof (inv_run _ _ _ _ _ W (inv_init g targets) R) as V.
  apply (j_ord _ _ _ V _ _ _ E _ J).
Qed.

Theorem C35_only_needed : forall g targets l s n, wf g -> run g (init g targets) l = Some s ->
  In (EStart n) (log s) ->
  needed g targets n /\ (forall a, n = Art a -> builder g a = None).
Proof.
  intros g targets l s n W R J. pose proof (inv_run _ _ _ _ _ W (inv_init g targets) R) as V.
  pose proof (started_queued _ _ _ _ V J) as Q. split.
  - apply (j_need _ _ _ V). right. now apply (j_req _ _ _ V).
  - intros a ->. now apply (j_leaf _ _ _ V).
Qed.

(** A processing that was reported ended was begun, once. *)
Theorem C35_ends_once : forall g targets l s n, wf g -> run g (init g targets) l = Some s ->
  count_occ event_dec (log s) (EEnd n true) + count_occ event_dec (log s) (EEnd n false)
    <= count_occ event_dec (log s) (EStart n).
Proof.
  intros g targets l s n W R. pose proof (inv_run _ _ _ _ _ W (inv_init g targets) R) as V.
  rewrite <- starts_count. rewrite (j_ends _ _ _ V n).
  enough (count_occ event_dec (log s) (EEnd n true) + count_occ event_dec (log s) (EEnd n false)
    = ends n s) by lia.
  unfold ends. induction (log s) as [|e l' IH]; cbn [sum count_occ]; [reflexivity|]. rewrite <- IH.
  destruct (event_dec e (EEnd n true)) as [->|N1], (event_dec _ (EEnd n false)) as [E|N2];
    try subst e; try discriminate; rewrite ?nn_refl; try lia.
  destruct e as [m|m ok]; [reflexivity|]. unfold nn. destruct (node_eqb_spec n m) as [->|]; [|reflexivity].
  destruct ok; congruence.
Qed.

(** ** C36 *)

Lemma finished_cnt : forall s f, finished s -> cnt f s = 0.
Proof.
  intros s f F. unfold cnt. apply sum_zero. intros t J. now rewrite (F t J).
Qed.

Lemma ends_split : forall n s, fails s = 0 -> ends n s = okends n s.
Proof.
  intros n s. unfold fails, ends, okends. induction (log s) as [|e l IH]; cbn [sum]; intros H; [reflexivity|].
  destruct e as [m|m [|]]; cbn in *; try discriminate; rewrite IH; lia.
Qed.

Lemma fails_in : forall s, 0 < fails s <-> exists n, In (EEnd n false) (log s).
Proof.
  intros s. unfold fails. induction (log s) as [|e l IH]; cbn [sum In].
  - split; [lia|intros [n []]].
  - split.
    + intros H. destruct e as [m|m [|]]; try (destruct IH as [IH _]; destruct IH as [n K]; [lia|eauto]). eauto.
    + intros [n [->|J]]; [lia|]. destruct IH as [_ IH]. enough (0 < sum (fun e0 => match e0 with EEnd _ false => 1 | _ => 0 end) l) by lia.
      apply IH. eauto.
Qed.

Section AtEnd.
Context (g : graph) (targets : list nat) (s : state).
Context (V : Inv g targets s) (FI : finished s) (SU : failed s = false).

Lemma no_fails : fails s = 0.
Proof.
  pose proof (j_fails _ _ _ V) as K. rewrite (finished_cnt _ _ FI), SU in K.
  destruct (fails s); [reflexivity|]. destruct K as [K|K]; [lia|discriminate|lia].
Qed.

Lemma queued_ok : forall n, queued s n = true -> okends n s = 1.
Proof.
  intros n Q. pose proof (j_queued _ _ _ V n) as K1. pose proof (j_queued2 _ _ _ V SU n Q) as K2.
  pose proof (j_ends _ _ _ V n) as K3. rewrite (finished_cnt _ _ FI) in K1, K2.
  rewrite (finished_cnt _ _ FI) in K3. rewrite Q in K1. cbn in K1.
  rewrite <- (ends_split _ _ no_fails). lia.
Qed.

Lemma ok_avail : forall a, okends (owner g a) s = 1 -> avail s a = true.
Proof.
  intros a H. pose proof (j_oks _ _ _ V a) as K. rewrite (finished_cnt _ _ FI), H in K.
  destruct (avail s a); [reflexivity|discriminate].
Qed.

Lemma disc_req : forall n, disc s n = true -> req s n = true.
Proof.
  intros n D. destruct (j_disc _ _ _ V SU n D) as [K|K]; [|exact K].
  rewrite (finished_cnt _ _ FI) in K. lia.
Qed.

Lemma act_ok : forall rank : nat -> nat,
  (forall c d c', In d (deps g c) -> builder g d = Some c' -> rank c' < rank c) ->
  forall k c, rank c < k -> disc s (Act c) = true -> okends (Act c) s = 1.
Proof.
  intros rank RK. induction k as [|k IH]; intros c L D; [lia|].
  apply disc_req in D. apply queued_ok.
  assert (missing g s c = 0) as M.
  { unfold missing. apply sum_zero. intros d J.
    enough (avail s d = true) as -> by reflexivity.
    destruct (j_act _ _ _ V SU c d D J) as [K|[K|[K|K]]]; [exact K| | |];
      try (rewrite (finished_cnt _ _ FI) in K; lia).
    apply disc_req in K. destruct (j_art _ _ _ V SU d K) as [A|[A|A]]; [exact A| |];
      [rewrite (finished_cnt _ _ FI) in A; lia|].
    destruct (builder g d) as [c'|] eqn:B.
    - destruct A as [A|A]; [rewrite (finished_cnt _ _ FI) in A; lia|].
      apply ok_avail. unfold owner. rewrite B. apply IH; [|exact A].
      specialize (RK c d c' J B). lia.
    - destruct A as [A|A]; [rewrite (finished_cnt _ _ FI) in A; lia|].
      apply ok_avail. unfold owner. rewrite B. now apply queued_ok. }
  pose proof (j_unav _ _ _ V c) as U. rewrite M, (finished_cnt _ _ FI) in U. cbn in U.
  destruct (j_race _ _ _ V SU c D U) as [K|[K|K]]; [exact K| |];
    rewrite (finished_cnt _ _ FI) in K; lia.
Qed.

Lemma art_ok : acyclic g -> forall a, disc s (Art a) = true -> avail s a = true.
Proof.
  intros [rank RK] a D. apply disc_req in D.
  destruct (j_art _ _ _ V SU a D) as [A|[A|A]]; [exact A| |];
      [rewrite (finished_cnt _ _ FI) in A; lia|].
  destruct (builder g a) as [c|] eqn:B; (destruct A as [A|A]; [rewrite (finished_cnt _ _ FI) in A; lia|]);
    apply ok_avail; unfold owner; rewrite B.
  - eapply act_ok; eauto.
  - now apply queued_ok.
Qed.

Lemma targets_ok : acyclic g -> forall a, In a targets -> avail s a = true.
Proof.
  intros AC a J. apply art_ok; [exact AC|]. destruct (j_targets _ _ _ V SU) as [K|K].
  - rewrite (finished_cnt _ _ FI) in K. lia.
  - destruct (K a J) as [A|[A|A]]; [| |exact A]; rewrite (finished_cnt _ _ FI) in A; lia.
Qed.

Lemma ends_in_start : forall n, In (EEnd n true) (log s) -> In (EStart n) (log s).
Proof.
  intros n J. apply (count_occ_In event_dec). rewrite <- starts_count.
  rewrite (j_ends _ _ _ V n), (finished_cnt _ _ FI). cbn. unfold ends.
  induction (log s) as [|e l IH]; cbn [sum]; [destruct J|]. destruct J as [->|J].
  - rewrite nn_refl. lia.
  - apply IH in J. unfold gt in *. lia.
Qed.

Lemma avail_in : forall a, avail s a = true -> In (EEnd (owner g a) true) (log s).
Proof.
  intros a A. apply okends_in. pose proof (j_oks _ _ _ V a) as K. rewrite A in K. cbn in K.
  unfold okends in K. lia.
Qed.

Lemma end_avail : forall a, In (EEnd (owner g a) true) (log s) -> avail s a = true.
Proof.
  intros a J. pose proof (j_oks _ _ _ V a) as K. rewrite (finished_cnt _ _ FI) in K.
  destruct (avail s a); [reflexivity|]. cbn in K. exfalso. revert K J. unfold okends.
  generalize (owner g a) as n. intros n. induction (log s) as [|e l IH]; cbn [sum]; intros K J; [destruct J|].
  destruct J as [->|J]; [rewrite nn_refl in K; discriminate|]. apply IH; [lia|exact J].
Qed.

Lemma needed_ok : acyclic g -> forall n, needed g targets n ->
  match n with Art a => avail s a = true | Act c => In (EEnd (Act c) true) (log s) end.
Proof.
  intros AC n H. induction H as [a J|a c _ IH B|c d _ IH J].
  - now apply targets_ok.
  - apply avail_in in IH. unfold owner in IH. now rewrite B in IH.
  - apply ends_in_start in IH. apply in_split in IH. destruct IH as [l1 [l2 E]].
    pose proof (j_ord _ _ _ V _ _ _ E _ J) as K. apply end_avail. rewrite E. apply in_app_iff.
    right. now right.
Qed.
End AtEnd.

(** With all work done and nothing failed, every requested artifact is
    available, and so is all it depends on: every action needed was processed
    with success, and every input that no action builds too. *)
Theorem C36_all_built : forall g targets l s, wf g -> acyclic g ->
  run g (init g targets) l = Some s -> finished s -> success s ->
  (forall a, In a targets -> avail s a = true) /\
  (forall a, needed g targets (Art a) -> avail s a = true /\ provided g (log s) a) /\
  (forall c, needed g targets (Act c) -> In (EEnd (Act c) true) (log s)).
Proof.
  intros g targets l s W AC R FI SU. pose proof (inv_run _ _ _ _ _ W (inv_init g targets) R) as V.
  split; [|split].
  - intros a J. eapply targets_ok; eauto.
  - intros a N. pose proof (needed_ok _ _ _ V FI SU AC _ N) as A. cbn in A. split; [exact A|].
    eapply avail_in; eauto.
  - intros c N. apply (needed_ok _ _ _ V FI SU AC _ N).
Qed.

(** Available is only what was provided. *)
Theorem C36_available_provided : forall g targets l s a, wf g ->
  run g (init g targets) l = Some s -> avail s a = true -> provided g (log s) a.
Proof.
  intros g targets l s a W R A. pose proof (inv_run _ _ _ _ _ W (inv_init g targets) R) as V.
  eapply avail_in; eauto.
Qed.

(** The result of the traversal: it fails exactly if some processing failed or
    a target is not in the graph. *)
Definition blame (g : graph) (targets : list nat) (s : state) : Prop :=
  (exists n, In (EEnd n false) (log s)) \/ (exists a, In a targets /\ known g a = false).

Definition aborted (g : graph) (targets : list nat) (s : state) : Prop :=
  (failed s = true \/ 0 < cnt is_abort s) -> blame g targets s.

Lemma aborted_step : forall g targets s a s', wf g -> Inv g targets s -> aborted g targets s ->
  step g s a = Some s' -> aborted g targets s'.
Proof.
  intros g targets s [k ch|k] s' W V A H.
  - cbn [step] in H. destruct (nth_error (tasks s) k) as [[|i rest]|] eqn:N; try discriminate.
    destruct (exec g s ch i) as [[s1 first] new] eqn:E. injection H as <-.
    pose proof (cnt_step s k i rest first new is_abort s1 N) as D.
    assert (blame g targets s -> blame g targets s1) as B.
    { intros [[n J]|J]; [left|now right]. exists n.
      destruct i as [l|n'|a|d|c|n'|n'|n'|n'|a|c|]; cbn [exec] in E;
        try (destruct l as [|a l]); try (destruct n' as [a|c]); try (destruct (_ || _));
        injection E as <- _ _; try exact J; now right. }
    assert (instr_ok g targets i) as OK.
    { eapply j_instr; eauto. eapply nth_error_In; eauto. now left. }
    intros X.
    assert (blame g targets s1); [|destruct H as [[n J]|J]; [left; exists n; exact J|now right]].
    assert (failed s1 = true \/ 0 < cnt is_abort s + sum is_abort first + sum (sum is_abort) new) as Y.
    { destruct X as [X|X]; [now left|right; lia]. }
    clear X D. 
    assert (failed s = true \/ 0 < cnt is_abort s -> blame g targets s1) as K by (intros; now apply B, A).
    assert (forall l c, sum is_abort (map IDep l ++ [IReady c]) = 0) as M1
      by (intros l c; rewrite sum_app, sum_map; cbn; rewrite sum_zero; auto).
    assert (forall l, sum is_abort (map INotify l) = 0) as M2
      by (intros l; rewrite sum_map; apply sum_zero; auto).
    assert (forall l, sum is_abort (map IDec l) = 0) as M3
      by (intros l; rewrite sum_map; apply sum_zero; auto).
    destruct i as [l|n'|a|d|c|n'|n'|n'|n'|a|c|]; cbn [exec] in E.
    + destruct l as [|a l]; injection E as <- <- <-; cbn [sum is_abort] in Y.
      * apply K. destruct Y; auto. right. lia.
      * destruct (known g a) eqn:KN; cbn [sum is_abort] in Y.
        -- apply K. destruct Y; auto. right. lia.
        -- right. exists a. split; [apply OK; now left|exact KN].
    + destruct n' as [a|c]; injection E as <- <- <-; rewrite ?M1 in Y; cbn [sum is_abort failed set_req] in Y;
        apply K; destruct Y; auto; right; lia.
    + injection E as <- <- <-. apply K. destruct Y as [Y|Y]; auto. right.
      destruct (avail s a); [|destruct (builder g a)]; cbn [sum is_abort] in Y; lia.
    + injection E as <- <- <-. apply K. destruct Y as [Y|Y]; auto. right.
      destruct (avail s d); cbn [sum is_abort] in Y; lia.
    + injection E as <- <- <-. apply K. destruct Y as [Y|Y]; auto. right.
      destruct (Z.eqb _ _); cbn [sum is_abort] in Y; lia.
    + destruct (_ || _); injection E as <- <- <-; apply K; destruct Y as [Y|Y]; auto; right;
        cbn [sum is_abort] in Y; lia.
    + destruct (_ || _); injection E as <- <- <-; apply K; destruct Y as [Y|Y]; auto; right;
        cbn [sum is_abort] in Y; lia.
    + injection E as <- <- <-; apply K; destruct Y as [Y|Y]; auto; right;
        cbn [sum is_abort] in Y; lia.
    + injection E as <- <- <-. destruct ch.
      * apply K. destruct Y as [Y|Y]; auto. right. destruct n'; rewrite ?M2 in Y; cbn [sum is_abort] in Y; lia.
      * left. exists n'. now left.
    + injection E as <- <- <-. apply K. destruct Y as [Y|Y]; auto. right.
      rewrite M3 in Y. cbn [sum] in Y. lia.
    + injection E as <- <- <-. apply K. destruct Y as [Y|Y]; auto. right.
      destruct (Z.eqb _ _); cbn [sum is_abort] in Y; lia.
    + apply B, A. right. unfold cnt. pose proof (sum_In (sum is_abort) _ _ (nth_error_In _ _ N)) as Q.
      cbn [sum is_abort] in Q. lia.
  - cbn [step] in H.
    assert (failed s = true /\ s' = set_tasks s (upd (tasks s) k [])) as [F ->].
    { destruct (nth_error (tasks s) k) as [[|i [|]]|]; try discriminate; destruct i; try discriminate;
        destruct (failed s); try discriminate; injection H as <-; auto. }
    intros _. apply A. now left.
Qed.

Lemma aborted_run : forall g targets l s s', wf g -> Inv g targets s -> aborted g targets s ->
  run g s l = Some s' -> aborted g targets s'.
Proof.
  intros g targets l. induction l as [|a l IH]; intros s s' W V A R; cbn [run] in R.
  - now injection R as <-.
  - destruct (step g s a) as [s1|] eqn:E; [|discriminate]. eapply IH; [exact W| | |exact R].
    + eapply inv_step; eauto.
    + eapply aborted_step; eauto.
Qed.

Lemma known_run : forall g targets l s, wf g -> run g (init g targets) l = Some s -> finished s ->
  failed s = false -> forall a, In a targets -> known g a = true.
Proof.
  intros g targets l s W R FI SU.
  (* targets passed so far are known, unless a failure is pending *)
  assert (forall s0 s1 l0, run g s0 l0 = Some s1 ->
     (failed s0 = true \/ 0 < cnt is_abort s0 \/
        forall a, In a targets -> known g a = true \/ 0 < cnt (is_target a) s0) ->
     (failed s1 = true \/ 0 < cnt is_abort s1 \/
        forall a, In a targets -> known g a = true \/ 0 < cnt (is_target a) s1)) as K.
  { intros s0 s1 l0. revert s0. induction l0 as [|a l0 IH]; intros s0 R0 K; cbn [run] in R0.
    - injection R0 as <-. exact K.
    - destruct (step g s0 a) as [s2|] eqn:E; [|discriminate]. apply (IH s2 R0). clear IH R0.
      destruct a as [k ch|k]; cbn [step] in E.
      + destruct (nth_error (tasks s0) k) as [[|i rest]|] eqn:N; try discriminate.
        destruct (exec g s0 ch i) as [[s3 first] new] eqn:X. injection E as <-.
        destruct K as [K|K].
        { left. cbn [set_tasks failed]. destruct (failed s3) eqn:F; [reflexivity|].
          rewrite (exec_failed _ _ _ _ _ _ _ X F) in K. discriminate. }
        pose proof (fun f => cnt_step s0 k i rest first new f s3 N) as D.
        destruct (failed s3) eqn:F3; [now left|]. right.
        destruct K as [K|K].
        { left. specialize (D is_abort). destruct i; cbn [is_abort] in D; try lia.
          cbn in X. injection X as <- _ _. discriminate. }
        destruct i as [tl|n'|a|d|c|n'|n'|n'|n'|a|c|];
          try (right; intros b J; destruct (K b J) as [Q|Q]; [now left|right]; specialize (D (is_target b));
               cbn [is_target] in D; lia).
        cbn [exec] in X. destruct tl as [|a tl]; injection X as <- <- <-.
        * right; intros b J; destruct (K b J) as [Q|Q]; [now left|right]; specialize (D (is_target b));
               cbn [is_target sum count_occ] in D; lia.
        * destruct (known g a) eqn:KN.
          -- right; intros b J; destruct (K b J) as [Q|Q]; [now left|]; specialize (D (is_target b));
               cbn [is_target sum count_occ] in D. destruct (Nat.eq_dec a b) as [->|]; [now left|right; lia].
          -- left. specialize (D is_abort). cbn [is_abort sum] in D. lia.
      + left. destruct (nth_error (tasks s0) k) as [[|i [|]]|]; try discriminate; destruct i; try discriminate;
        destruct (failed s0) eqn:F; try discriminate; injection E as <-; exact F. }
  specialize (K _ _ _ R). destruct K as [K|[K|K]].
  - right. right. intros a J. right. unfold cnt, init. cbn [tasks sum is_target].
    apply (count_occ_In Nat.eq_dec) in J. lia.
  - congruence.
  - rewrite (finished_cnt _ _ FI) in K. lia.
  - intros a J. destruct (K a J) as [Q|Q]; [exact Q|]. rewrite (finished_cnt _ _ FI) in Q. lia.
Qed.

Theorem C36_result : forall g targets l s, wf g ->
  run g (init g targets) l = Some s -> finished s ->
  (success s <-> (forall n, ~ In (EEnd n false) (log s)) /\ (forall a, In a targets -> known g a = true)).
Proof.
  intros g targets l s W R FI. pose proof (inv_run _ _ _ _ _ W (inv_init g targets) R) as V. split.
  - intros SU. split.
    + intros n J. pose proof (no_fails _ _ _ V FI SU) as K.
      assert (0 < fails s) by (apply fails_in; eauto). lia.
    + eapply known_run; eauto.
  - intros [A B]. unfold success. destruct (failed s) eqn:F; [|reflexivity]. exfalso.
    assert (aborted g targets s) as AB.
    { eapply aborted_run; [exact W|apply inv_init| |exact R]. intros [X|X]; cbn in X; [discriminate|lia]. }
    destruct AB as [[n J]|[a [J K]]]; [now left| |].
    + eapply A; eauto.
    + rewrite (B a J) in K. discriminate.
Qed.

(** For a finite graph the traversal ends: no schedule is longer than a bound
    that depends on the graph and the targets only, and as long as work is left
    some step is possible. *)
Theorem C36_ends : forall g targets (nodes : list node), wf g ->
  (forall n, needed g targets n -> In n nodes) ->
  exists bound, forall l s, run g (init g targets) l = Some s ->
    length l <= bound /\ (finished s \/ exists k, step g s (Do k true) <> None).
Proof.
  intros g targets nodes W FN. exists (steps_left g nodes (init g targets)). intros l s R. split.
  - pose proof (run_bound _ _ _ _ _ _ W (inv_init g targets) FN R). lia.
  - assert (forall ts : list (list instr), (forall t, In t ts -> t = []) \/
              exists k i r, nth_error ts k = Some (i :: r)) as K.
    { intros ts. induction ts as [|[|i r] ts [IH|[k [i' [r' IH]]]]].
      - left. intros t [].
      - left. intros t [<-|J]; auto.
      - right. exists (S k), i', r'. exact IH.
      - right. exists 0, i, r. reflexivity.
      - right. exists 0, i, r. reflexivity. }
    destruct (K (tasks s)) as [F|[k [i [r E]]]]; [now left|]. right. exists k. cbn [step]. rewrite E.
    destruct (exec g s true i) as [[s1 first] new]. discriminate.
Qed.

(** ** Examples *)

(** Action 0 builds artifact 10 from the sources 20 and 21; action 1 builds 11
    and 12 from 10, 20 and again 10. *)
Definition ex_graph : graph :=
  mkG (fun _ => true)
      (fun a => match a with 10 => Some 0 | 11 | 12 => Some 1 | _ => None end)
      (fun a => match a with 10 => [1; 1] | 20 => [0; 1] | 21 => [0] | _ => [] end)
      (fun c => match c with 0 => [20; 21] | 1 => [10; 20; 10] | _ => [] end)
      (fun c => match c with 0 => [10] | 1 => [11; 12] | _ => [] end).

Lemma ex_wf : wf ex_graph.
Proof.
  constructor.
  - intros a c. do 22 (destruct a as [|a]; [do 2 (destruct c as [|c]; [reflexivity|]); reflexivity|]).
    do 2 (destruct c as [|c]; [reflexivity|]). reflexivity.
  - intros a c. do 13 (destruct a as [|a]; [do 2 (destruct c as [|c]; [cbn; split;
      [intros; repeat (match goal with H : _ \/ _ |- _ => destruct H | H : False |- _ => destruct H end); congruence
      |intros X; try discriminate X; auto]|]);
      cbn; split; [intros; repeat (match goal with H : _ \/ _ |- _ => destruct H | H : False |- _ => destruct H end)
      |]; discriminate|]).
    do 2 (destruct c as [|c]; [cbn; split;
      [intros; repeat (match goal with H : _ \/ _ |- _ => destruct H | H : False |- _ => destruct H end); congruence
      |discriminate]|]).
    cbn; split; [intros []|discriminate].
  - intros c. do 2 (destruct c as [|c]; [cbn; repeat constructor; cbn; intuition congruence|]). cbn. constructor.
Qed.

Lemma ex_acyclic : acyclic ex_graph.
Proof.
  exists (fun c => c). intros c d c' J B.
  do 2 (destruct c as [|c]; [cbn in J; repeat (destruct J as [<-|J]; [cbn in B; try discriminate; injection B as <-; lia|]); destruct J|]).
  destruct J.
Qed.

(** Always the last task with work left goes on. *)
Fixpoint last_busy (ts : list (list instr)) (k : nat) (found : option nat) : option nat :=
  match ts with
  | [] => found
  | [] :: ts' => last_busy ts' (S k) found
  | (_ :: _) :: ts' => last_busy ts' (S k) (Some k)
  end.

Fixpoint play (g : graph) (fuel : nat) (s : state) : list action :=
  match fuel with
  | 0 => []
  | S fuel' => match last_busy (tasks s) 0 None with
               | Some k => match step g s (Do k true) with
                           | Some s' => Do k true :: play g fuel' s'
                           | None => []
                           end
               | None => []
               end
  end.

(** A traversal for target 11: both actions and both sources are processed. *)
Example C36_nonvacuous : exists l s, run ex_graph (init ex_graph [11]) l = Some s /\
  finished s /\ success s /\
  rev (log s) = [EStart (Art 20); EEnd (Art 20) true; EStart (Art 21); EEnd (Art 21) true;
                 EStart (Act 0); EEnd (Act 0) true; EStart (Act 1); EEnd (Act 1) true].
Proof.
  exists (play ex_graph 200 (init ex_graph [11])).
  destruct (run ex_graph (init ex_graph [11]) (play ex_graph 200 (init ex_graph [11]))) as [s|] eqn:E;
    [|vm_compute in E; discriminate].
  exists s. split; [reflexivity|].
  assert (forallb (fun t : list instr => match t with [] => true | _ => false end)
            match run ex_graph (init ex_graph [11]) (play ex_graph 200 (init ex_graph [11])) with
            | Some s => tasks s | None => [[IAbort]] end = true) as F by (vm_compute; reflexivity).
  rewrite E in F. rewrite forallb_forall in F.
  assert (match run ex_graph (init ex_graph [11]) (play ex_graph 200 (init ex_graph [11])) with
            | Some s => (failed s, rev (log s)) | None => (true, []) end =
          (false, [EStart (Art 20); EEnd (Art 20) true; EStart (Art 21); EEnd (Art 21) true;
                 EStart (Act 0); EEnd (Act 0) true; EStart (Act 1); EEnd (Act 1) true])) as L
    by (vm_compute; reflexivity).
  rewrite E in L. injection L as L1 L2. split; [|split; assumption].
  intros t J. specialize (F t J). destruct t; [reflexivity|discriminate].
Qed.

(** Acyclicity cannot be dropped: for an action that needs its own output the
    traversal has no work left, reports success, and processed nothing. *)
Definition loop_graph : graph :=
  mkG (fun _ => true) (fun a => match a with 0 => Some 0 | _ => None end)
      (fun a => match a with 0 => [0] | _ => [] end)
      (fun c => match c with 0 => [0] | _ => [] end)
      (fun c => match c with 0 => [0] | _ => [] end).

Theorem C36_cyclic_silent : exists l s, wf loop_graph /\
  run loop_graph (init loop_graph [0]) l = Some s /\
  finished s /\ success s /\ log s = [] /\ avail s 0 = false.
Proof.
  exists (play loop_graph 100 (init loop_graph [0])). eexists. split; [|split; [vm_compute; reflexivity|]].
  - constructor.
    + intros [|a] [|c]; reflexivity.
    + intros [|a] [|c]; cbn; intuition congruence.
    + intros [|c]; cbn; repeat constructor; cbn; tauto.
  - split; [|repeat split; vm_compute; reflexivity].
    intros t J. cbn in J. repeat (destruct J as [<-|J]; [reflexivity|]). destruct J.
Qed.

Print Assumptions C35_at_most_once.
Print Assumptions C35_inputs_first.
Print Assumptions C35_only_needed.
Print Assumptions C35_ends_once.
Print Assumptions C36_all_built.
Print Assumptions C36_available_provided.
Print Assumptions C36_result.
Print Assumptions C36_ends.
Print Assumptions C36_cyclic_silent.
