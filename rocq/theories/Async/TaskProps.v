(** C34: the task system runs every task once, and [Finish] waits for all.

    Statements are about states [s] reachable from a task system of [n] threads
    by any sequence of actions: steps of the workers and clients in any order,
    calls of [QueueTask], [Shutdown] and [Finish], returns of tasks, failing
    [try_lock]s and spurious wake-ups.  Tasks are numbered in the order of the
    calls of [QueueTask]; [started], [completed] and [dropped] list the tasks a
    worker began to run, that returned, and that were skipped. *)

From Coq Require Import List Arith Bool Lia.
From Verif Require Import Async.Lists Async.Tasks Async.TasksInv Async.TasksStep Async.TasksLive.
Import ListNotations.

(** Thread [k] is running task [t]. *)
Definition running (s : state) (k t : nat) : Prop :=
  exists j o, nth_error (ths s) k = Some (Worker j (WRun t o)).

(** Client [k] called [QueueTask] for [t] and did not get as far as counting
    the task. *)
Definition still_queueing (s : state) (k t : nat) : Prop :=
  exists idx i q, nth_error (ths s) k = Some (Client (OTry t idx i)) \/
                  nth_error (ths s) k = Some (Client (OHeld t q)) \/
                  nth_error (ths s) k = Some (Client (OPushInc t q)).

(** Client [i] returns from [Finish] in the step from [s] to [s']. *)
Definition finish_returns (s : state) (i : nat) (s' : state) : Prop :=
  exists fail o, nth_error (ths s) i = Some (Client o) /\
    (o = OFin \/ o = OFinLock \/ exists g, o = OFinAsleep g) /\
    step s (AStep i fail) = Some s' /\ nth_error (ths s') i = Some (Client ONone).

(** Client [i] is inside of a call. *)
Definition in_call (s : state) (i : nat) : Prop :=
  exists o, nth_error (ths s) i = Some (Client o) /\ o <> ONone.

(** ** Lists as multisets *)

Lemma occ_in : forall t l, In t l <-> 0 < occ t l.
Proof.
  intros t l. unfold occ, eqn. induction l as [|a l IH]; cbn [In sum]; [split; [tauto|lia]|].
  destruct (Nat.eqb_spec t a) as [->|N]; cbn [b2n].
  - split; [lia|auto].
  - rewrite IH. split; [intros [E|]; [congruence|lia]|intros; right; lia].
Qed.

Lemma occ_nodup : forall l, (forall t, occ t l <= 1) -> NoDup l.
Proof.
  intros l. induction l as [|a l IH]; intros H; constructor.
  - intros J. apply occ_in in J. specialize (H a). unfold occ in *. cbn [sum] in H.
    rewrite eqn_refl in H. lia.
  - apply IH. intros t. specialize (H t). unfold occ in *. cbn [sum] in H. lia.
Qed.

Lemma rt_pt : forall t th, rt t th <= pt t th.
Proof. intros t th. destruct th as [j w|o]; [destruct w|]; cbn; lia. Qed.

Lemma sum_le : forall {A} (f g : A -> nat) l, (forall a, f a <= g a) -> sum f l <= sum g l.
Proof. intros A f g l H. induction l as [|a l IH]; cbn [sum]; [lia|]. specialize (H a). lia. Qed.

Lemma started_le : forall s t, Inv s -> occ t (started (sh s)) <= created t (sh s).
Proof.
  intros s t I. rewrite (k_start _ I), <- (k_task _ I t).
  pose proof (sum_le (rt t) (pt t) (ths s) (rt_pt t)). lia.
Qed.

Lemma created_le : forall t x, created t x <= 1.
Proof. intros t x. unfold created. destruct (Nat.ltb t (next x)); cbn; lia. Qed.

Lemma created_lt : forall t x, 0 < created t x <-> t < next x.
Proof.
  intros t x. unfold created. destruct (Nat.ltb_spec t (next x)); cbn; split; lia.
Qed.

(** ** Theorems *)

(** Every task is started at most once, by one worker, only after [QueueTask]
    was called for it; it returns at most once; and no two workers run the same
    task. *)
Theorem C34_started_once : forall n s, reachable n s ->
  NoDup (started (sh s)) /\ NoDup (completed (sh s)) /\
  (forall t, In t (completed (sh s)) -> In t (started (sh s))) /\
  (forall t, In t (started (sh s)) -> t < next (sh s)) /\
  (forall t, In t (dropped (sh s)) -> ~ In t (started (sh s))) /\
  (forall k l t, running s k t -> running s l t -> k = l) /\
  (forall k t, running s k t -> In t (started (sh s)) /\ ~ In t (completed (sh s))).
Proof.
  intros n s R. pose proof (reach_inv _ _ R) as I.
  assert (forall k t, running s k t -> 1 <= sum (rt t) (ths s)) as RP.
  { intros k t [j [o H]]. pose proof (sum_ge (rt t) _ _ _ H) as G. cbn [rt] in G.
    rewrite eqn_refl in G. exact G. }
  assert (forall t, sum (rt t) (ths s) <= 1) as R1.
  { intros t. pose proof (started_le s t I). pose proof (created_le t (sh s)).
    pose proof (k_start _ I t). lia. }
  split; [|split; [|split; [|split; [|split; [|split]]]]].
  - apply occ_nodup. intros t. pose proof (started_le s t I). pose proof (created_le t (sh s)). lia.
  - apply occ_nodup. intros t. pose proof (started_le s t I). pose proof (created_le t (sh s)).
    pose proof (k_start _ I t). lia.
  - intros t H. apply occ_in in H. apply occ_in. pose proof (k_start _ I t). lia.
  - intros t H. apply occ_in in H. apply created_lt. pose proof (started_le s t I). lia.
  - intros t H J. apply occ_in in H. apply occ_in in J.
    pose proof (k_start _ I t). pose proof (k_task _ I t). pose proof (created_le t (sh s)).
    pose proof (sum_le (rt t) (pt t) (ths s) (rt_pt t)). lia.
  - intros k l t [j [o Hk]] [j' [o' Hl]]. destruct (Nat.eq_dec k l) as [E|N]; [exact E|].
    pose proof (sum_two (rt t) _ _ _ _ _ N Hk Hl) as G. cbn [rt] in G. rewrite !eqn_refl in G.
    specialize (R1 t). lia.
  - intros k t H. pose proof (RP _ _ H). split.
    + apply occ_in. pose proof (k_start _ I t). lia.
    + intros C. apply occ_in in C. pose proof (started_le s t I). pose proof (created_le t (sh s)).
      pose proof (k_start _ I t). lia.
Qed.

Lemma idle_thread : forall s k th, Inv s -> count (sh s) = 0 -> nth_error (ths s) k = Some th ->
  wt th = 0.
Proof.
  intros s k th I Z H. pose proof (sum_ge wt _ _ _ H). pose proof (k_cnt _ I). lia.
Qed.

Lemma sum_items : forall t l, sum (fun Q => length (items Q)) l = 0 ->
  sum (fun Q => occ t (items Q)) l = 0.
Proof.
  intros t l. induction l as [|Q l IH]; cbn [sum]; [reflexivity|]. intros H.
  rewrite IH by lia. destruct (items Q); [reflexivity|cbn in H; lia].
Qed.

(** When [Finish] returns and the system was not shut down, no task is running,
    and every task for which [QueueTask] was called, by a client or by another
    task, has completed; except for those a client is just about to hand in. *)
Theorem C34_finish_waits : forall n s i s', reachable n s -> finish_returns s i s' ->
  shut (sh s) = false ->
  (forall k t, ~ running s k t) /\
  forall t, t < next (sh s) ->
    In t (completed (sh s)) \/ exists k, still_queueing s k t.
Proof.
  intros n s i s' R [fail [o [Hi [Ho [St Hi']]]]] S. pose proof (reach_inv _ _ R) as I.
  assert (cdone (sh s) = false) as CD.
  { destruct (cdone (sh s)) eqn:E; [|reflexivity]. rewrite (k_cdone _ I E) in S. discriminate. }
  assert (count (sh s) = 0) as Z.
  { cbn [step] in St. unfold update in St. rewrite Hi in St.
    cbn [step_thread] in St. unfold bind, step_op in St. cbv zeta in St.
    assert (i < length (ths s)) as Li by now apply nth_some_lt in Hi.
    destruct Ho as [->|[->|[g ->]]].
    - injection St as <-. cbn [ths] in Hi'. rewrite nth_upd_same in Hi' by exact Li.
      unfold is_zero in Hi'. rewrite CD, orb_false_r in Hi'.
      destruct (Nat.eqb_spec (count (sh s)) 0); [assumption|discriminate].
    - injection St as <-. cbn [ths] in Hi'. rewrite nth_upd_same in Hi' by exact Li.
      destruct (is_zero (sh s)); discriminate.
    - destruct (Nat.ltb g (cgen (sh s))); [|discriminate].
      injection St as <-. cbn [ths] in Hi'. rewrite nth_upd_same in Hi' by exact Li. discriminate. }
  pose proof (k_cnt _ I) as KC. split.
  - intros k t [j [w H]]. pose proof (idle_thread _ _ _ I Z H) as W. cbn in W. lia.
  - intros t L. apply created_lt in L. rewrite <- (k_task _ I t) in L.
    assert (inq t (sh s) = 0) as IQ.
    { apply sum_items. fold (nitems (sh s)). lia. }
    assert (occ t (dropped (sh s)) = 0) as DR.
    { destruct (dropped (sh s)) as [|d l] eqn:E; [reflexivity|].
      assert (dropped (sh s) <> []) as NE by congruence. pose proof (k_drop _ I NE). congruence. }
    destruct (occ t (completed (sh s))) eqn:C.
    + right. destruct (sum_pos (pt t) (ths s)) as [k [th [H P]]]; [lia|]. exists k.
      pose proof (idle_thread _ _ _ I Z H) as W.
      assert (forall u, 0 < eqn t u -> u = t) as EQ.
      { intros u. unfold eqn. destruct (Nat.eqb_spec t u); cbn; [congruence|lia]. }
      unfold still_queueing. destruct th as [j w|o'].
      * exfalso. destruct w; cbn in W, P; lia.
      * cbn [wt pt] in W, P.
        destruct o'; cbn [wt_op pt_op] in W, P; try lia; apply EQ in P; subst t0.
        -- exists idx, i0, 0. auto.
        -- exists 0, 0, q. auto.
        -- exists 0, 0, q. auto.
    + left. apply occ_in. lia.
Qed.

(** Without shutdown no task is skipped. *)
Theorem C34_skipped_only_after_shutdown : forall n s t, reachable n s ->
  In t (dropped (sh s)) -> shut (sh s) = true.
Proof.
  intros n s t R H. pose proof (reach_inv _ _ R) as I. apply (k_drop _ I). intros E.
  rewrite E in H. elim H.
Qed.

(** After any history, without further calls and spurious wake-ups, the threads
    come to rest once the running tasks return: a continuation that consists of
    steps of the threads and returns of tasks has a bounded length. *)
Theorem C34_comes_to_rest : forall n s, reachable n s -> exists bound, forall l s',
  (forall a, In a l -> (exists i fail, a = AStep i fail) \/ (exists i, a = ARet i)) ->
  run s l = Some s' -> length l <= bound.
Proof.
  intros n s R. apply reach_inv in R. exists (measure s). intros l. revert s R.
  induction l as [|a l IH]; intros s I s' F H; cbn [length]; [lia|].
  cbn [run] in H. destruct (step s a) as [s1|] eqn:E; [|discriminate].
  pose proof (measure_dec s a s1 I E (F a (or_introl eq_refl))) as M.
  pose proof (inv_step _ _ _ I E) as I1.
  specialize (IH s1 I1 s' (fun b J => F b (or_intror J)) H). lia.
Qed.

(** A system at rest that was not shut down: a task waits in a queue only while
    the worker of that queue is running another task, a client is inside of a
    call only if that is [Finish] and some task is running. *)
Theorem C34_no_lost_wakeup : forall n s, reachable n s -> at_rest s -> shut (sh s) = false ->
  (forall q Q, nth_error (queues (sh s)) q = Some Q -> items Q <> [] ->
     exists k t, nth_error (ths s) k = Some (Worker q (WRun t ONone))) /\
  (forall i, in_call s i -> nth_error (ths s) i = Some (Client (OFinAsleep (cgen (sh s)))) /\
     exists k t, running s k t).
Proof.
  intros n s R A S. pose proof (reach_inv _ _ R) as I. split.
  - intros q Q. now apply rest_queue.
  - intros i [o [H NE]]. split.
    + destruct (rest_client _ _ _ I A H) as [->|[-> _]]; [contradiction|exact H].
    + destruct (rest_finish _ _ _ I A H NE) as [_ [k [j [t Hk]]]]. exists k, t. unfold running. eauto.
Qed.

(** So once all tasks have returned, every task was completed, and no call of
    [QueueTask], [Finish] or [Shutdown] is left hanging. *)
Theorem C34_all_completed : forall n s, reachable n s -> at_rest s -> shut (sh s) = false ->
  (forall k t, ~ running s k t) ->
  (forall t, t < next (sh s) -> In t (completed (sh s))) /\ (forall i, ~ in_call s i).
Proof.
  intros n s R A S NR. pose proof (reach_inv _ _ R) as I.
  destruct (C34_no_lost_wakeup n s R A S) as [HQ HC]. split.
  - intros t L. apply created_lt in L. rewrite <- (k_task _ I t) in L. apply occ_in.
    assert (sum (pt t) (ths s) = 0) as P.
    { apply sum_zero. intros th J. apply In_nth_error in J. destruct J as [k J].
      destruct th as [j w|o].
      - destruct (rest_worker _ _ _ _ I A J) as [->|[[u ->]|[-> _]]]; try reflexivity.
        elim (NR k u). unfold running. eauto.
      - destruct (rest_client _ _ _ I A J) as [->|[-> _]]; reflexivity. }
    assert (inq t (sh s) = 0) as IQ.
    { apply sum_zero. intros Q J. apply In_nth_error in J. destruct J as [q J].
      destruct (items Q) as [|u r] eqn:E; [reflexivity|].
      destruct (HQ q Q J) as [k [v Hk]]; [congruence|]. elim (NR k v). unfold running. eauto. }
    assert (occ t (dropped (sh s)) = 0) as DR.
    { destruct (dropped (sh s)) as [|d l] eqn:E; [reflexivity|].
      assert (dropped (sh s) <> []) as NE by congruence. pose proof (k_drop _ I NE). congruence. }
    lia.
  - intros i C. destruct (HC i C) as [_ [k [t H]]]. now elim (NR k t).
Qed.

(** After a shutdown, once the running tasks have returned and the system is at
    rest, all workers have left their loops (so joining them succeeds) and no
    client is inside of a call. *)
Theorem C34_shutdown_ends : forall n s, reachable n s -> at_rest s -> shut (sh s) = true ->
  (forall k t, ~ running s k t) ->
  (forall k j w, nth_error (ths s) k = Some (Worker j w) -> w = WExit) /\
  (forall i, ~ in_call s i).
Proof.
  intros n s R A S NR. pose proof (reach_inv _ _ R) as I. split.
  - intros k j w H. destruct (rest_shut _ _ _ _ I A S H) as [E|[t ->]]; [exact E|].
    elim (NR k t). unfold running. eauto.
  - intros i [o [H NE]]. destruct (rest_finish _ _ _ I A H NE) as [S' _]. congruence.
Qed.

(** Steps keep what was started, unless the system is running; and a shutdown is final. *)
Lemma lock_keeps : forall x q x', lock_q x q = Some x' -> shut x' = shut x /\ started x' = started x.
Proof.
  unfold lock_q. intros x q x' H. destruct (nth_error (queues x) q) as [Q|]; [|discriminate].
  destruct (qlock Q); [discriminate|]. injection H as <-. now split.
Qed.
Lemma unlock_keeps : forall x q x', unlock_q x q = Some x' -> shut x' = shut x /\ started x' = started x.
Proof.
  unfold unlock_q. intros x q x' H. destruct (nth_error (queues x) q) as [Q|]; [|discriminate].
  injection H as <-. now split.
Qed.
Lemma notify_keeps : forall x q x', notify_q x q = Some x' -> shut x' = shut x /\ started x' = started x.
Proof.
  unfold notify_q. intros x q x' H. destruct (nth_error (queues x) q) as [Q|]; [|discriminate].
  injection H as <-. now split.
Qed.
Lemma decrement_keeps : forall x x', decrement x = Some x' -> shut x' = shut x /\ started x' = started x.
Proof.
  unfold decrement. intros x x' H. destruct (count x); [discriminate|]. injection H as <-. now split.
Qed.

Ltac keeps := repeat match goal with
  | H : lock_q _ _ = Some _ |- _ => apply lock_keeps in H; destruct H
  | H : unlock_q _ _ = Some _ |- _ => apply unlock_keeps in H; destruct H
  | H : notify_q _ _ = Some _ |- _ => apply notify_keeps in H; destruct H
  | H : decrement _ = Some _ |- _ => apply decrement_keeps in H; destruct H
  | H : Some _ = Some _ |- _ => injection H as <-
  | H : None = Some _ |- _ => discriminate H
  | H : context [bind ?o _] |- _ => destruct o eqn:?; cbn [bind] in H
  | H : (if ?b then _ else _) = Some _ |- _ => destruct b eqn:?
  | H : match ?o with _ => _ end = Some _ |- _ => destruct o eqn:?
  end.

Lemma op_keeps : forall x fail o r, shut x = true -> step_op x fail o = Some r ->
  shut (fst r) = true /\ started (fst r) = started x.
Proof.
  intros x fail o r S H. unfold step_op in H. destruct o; keeps; cbn [fst]; split; try assumption; try reflexivity; congruence.
Qed.

Lemma worker_keeps : forall x fail j w r, shut x = true -> step_worker x fail j w = Some r ->
  shut (fst r) = true /\ started (fst r) = started x.
Proof.
  intros x fail j w r S H. unfold step_worker in H. destruct w;
    try (destruct (step_op x fail o) as [r'|] eqn:E; cbn [bind] in H; [|discriminate];
         injection H as <-; cbn [fst]; now apply (op_keeps x fail o));
    rewrite ?S in H; keeps; cbn [fst]; split; try assumption; try reflexivity; congruence.
Qed.


Lemma update_keeps : forall s i f s', update s i f = Some s' ->
  (forall th r, f th = Some r -> shut (fst r) = true /\ started (fst r) = started (sh s)) ->
  shut (sh s') = true /\ started (sh s') = started (sh s).
Proof.
  unfold update. intros s i f s' H F. destruct (nth_error (ths s) i) as [th|]; [|discriminate].
  destruct (f th) as [[x th']|] eqn:E; [|discriminate]. injection H as <-. exact (F _ _ E).
Qed.

Lemma step_keeps : forall s a s', shut (sh s) = true -> step s a = Some s' ->
  shut (sh s') = true /\ started (sh s') = started (sh s).
Proof.
  intros s a s' S H. destruct a as [i fail|i c|i|i|]; cbn [step] in H;
    try (eapply update_keeps; [exact H|]; intros th r E).
  - unfold step_thread in E. destruct th as [j w|o].
    + destruct (step_worker (sh s) fail j w) as [r'|] eqn:E'; cbn [bind] in E; [|discriminate].
      injection E as <-. cbn [fst]. eapply worker_keeps; eauto.
    + destruct (step_op (sh s) fail o) as [r'|] eqn:E'; cbn [bind] in E; [|discriminate].
      injection E as <-. cbn [fst]. eapply op_keeps; eauto.
  - unfold call_thread in E. keeps; cbn [fst]; unfold start_call; cbn [fst]; try (now split); destruct c; now split.
  - unfold ret_thread in E. keeps; cbn [fst]; now split.
  - unfold spur_thread in E. keeps; cbn [fst]; now split.
  - injection H as <-. now split.
Qed.

(** Once the system was shut down, no task is started any more, whatever happens. *)
Theorem C34_nothing_starts_after_shutdown : forall l s s', shut (sh s) = true ->
  run s l = Some s' -> shut (sh s') = true /\ started (sh s') = started (sh s).
Proof.
  induction l as [|a l IH]; intros s s' S H; cbn [run] in H.
  - injection H as <-. now split.
  - destruct (step s a) as [s1|] eqn:E; [|discriminate].
    destruct (step_keeps _ _ _ S E) as [S1 E1]. destruct (IH s1 s' S1 H) as [S2 E2].
    split; [exact S2|congruence].
Qed.

(** The workload counter never underflows: a worker about to decrement it can
    do so. *)
Theorem C34_counter_positive : forall n s k j w, reachable n s ->
  nth_error (ths s) k = Some (Worker j w) ->
  (w = WIdleDec \/ (exists i t, w = WTryDec i t) \/ (exists t, w = WTakeDec t)) ->
  0 < count (sh s).
Proof.
  intros n s k j w R H W. pose proof (reach_inv _ _ R) as I. pose proof (wt_count _ _ _ I H) as C.
  destruct W as [->|[[i [t ->]]|[t ->]]]; cbn in C; lia.
Qed.

Print Assumptions C34_started_once.
Print Assumptions C34_finish_waits.
Print Assumptions C34_skipped_only_after_shutdown.
Print Assumptions C34_comes_to_rest.
Print Assumptions C34_no_lost_wakeup.
Print Assumptions C34_all_completed.
Print Assumptions C34_shutdown_ends.
Print Assumptions C34_nothing_starts_after_shutdown.
Print Assumptions C34_counter_positive.

(** ** Concrete runs *)

Definition go (i k : nat) : list action := repeat (AStep i false) k.

(** One worker (thread 0) and a client (thread 1).  The client queues a task,
    and calls [Finish] while the worker has not seen the task; the task queues
    another one; [Finish] returns after both were run. *)
Definition ex_before : list action :=
  [ASpawn; ACall 1 CQueue] ++ go 1 4 ++ [ACall 1 CFinish] ++ go 1 2 ++
  go 0 5 ++ [ACall 0 CQueue] ++ go 0 4 ++ [ARet 0] ++ go 0 5.
Definition ex_after : list action := [ARet 0] ++ go 0 8 ++ go 1 2.

Definition ex_waiting : option state := run (init 1) ex_before.
Definition ex_ready : option state := run (init 1) (ex_before ++ ex_after).

Example C34_nonvacuous :
  exists s r r', ex_waiting = Some s /\ ex_ready = Some r /\
    (* the client waits while the second task runs *)
    ths s = [Worker 0 (WRun 1 ONone); Client (OFinAsleep 0)] /\
    started (sh s) = [1; 0] /\ completed (sh s) = [0] /\
    reachable 1 r /\ finish_returns r 1 r' /\ shut (sh r) = false /\
    completed (sh r) = [1; 0] /\ at_rest r'.
Proof.
  unfold ex_waiting, ex_ready.
  destruct (run (init 1) ex_before) as [s|] eqn:E1; [|vm_compute in E1; discriminate].
  destruct (run (init 1) (ex_before ++ ex_after)) as [r|] eqn:E2; [|vm_compute in E2; discriminate].
  assert (reachable 1 r) as R by (exists (ex_before ++ ex_after); exact E2).
  vm_compute in E1. vm_compute in E2. injection E1 as <-. injection E2 as <-.
  eexists. eexists. eexists. split; [reflexivity|]. split; [reflexivity|].
  split; [reflexivity|]. split; [reflexivity|]. split; [reflexivity|]. split; [exact R|].
  split; [|split; [reflexivity|split; [reflexivity|]]].
  - exists false. eexists. split; [reflexivity|]. split; [left; reflexivity|].
    split; reflexivity.
  - intros i. destruct i as [|[|i]]; [reflexivity|reflexivity|].
    cbn. unfold update. cbn. destruct i; reflexivity.
Qed.

(** Shutdown of a system with a task in its queue: the worker leaves its loop,
    and the task is skipped. *)
Example C34_shutdown_nonvacuous :
  exists s, run (init 1) ([ASpawn; ASpawn; ACall 1 CQueue] ++ go 1 4 ++ go 0 4 ++
                          [ACall 2 CShutdown] ++ go 2 4 ++ go 0 1) = Some s /\
    reachable 1 s /\ at_rest s /\ shut (sh s) = true /\ (forall k t, ~ running s k t) /\
    dropped (sh s) = [0] /\ started (sh s) = [].
Proof.
  destruct (run (init 1) ([ASpawn; ASpawn; ACall 1 CQueue] ++ go 1 4 ++ go 0 4 ++
                          [ACall 2 CShutdown] ++ go 2 4 ++ go 0 1)) as [s|] eqn:E;
    [|vm_compute in E; discriminate].
  assert (reachable 1 s) as R by (eexists; exact E).
  vm_compute in E. injection E as <-. eexists. split; [reflexivity|]. split; [exact R|].
  split; [|split; [reflexivity|split; [|split; reflexivity]]].
  - intros i. destruct i as [|[|[|i]]]; try reflexivity.
    cbn. unfold update. cbn. destruct i; reflexivity.
  - intros k t [j [o H]]. destruct k as [|[|[|k]]]; cbn in H; try discriminate.
    destruct k; discriminate.
Qed.

(** With two workers, at rest, a task waits in the queue of the worker that is
    running although the other one sleeps: the first task occupies worker 0,
    the second one is run by worker 1, which falls asleep again, and the third
    one is put into queue 0. *)
Definition ex_busy : list action :=
  [ASpawn] ++ go 1 10 ++ [ACall 2 CQueue] ++ go 2 4 ++ go 0 5 ++
  [ACall 2 CQueue] ++ go 2 4 ++ go 1 7 ++ [ARet 1] ++ go 1 10 ++
  [ACall 2 CQueue] ++ go 2 4.

Example C34_waits_for_busy_worker :
  exists s, run (init 2) ex_busy = Some s /\
    at_rest s /\ map items (queues (sh s)) = [[2]; []] /\
    ths s = [Worker 0 (WRun 0 ONone); Worker 1 WAsleep; Client ONone].
Proof.
  destruct (run (init 2) ex_busy) as [s|] eqn:E; [|vm_compute in E; discriminate].
  vm_compute in E. injection E as <-. eexists. split; [reflexivity|].
  split; [|split; reflexivity].
  intros i. destruct i as [|[|[|i]]]; try reflexivity.
  cbn. unfold update. cbn. destruct i; reflexivity.
Qed.
