(** When the task system comes to rest, and that it does. *)

From Coq Require Import List Arith Bool Lia.
From Verif Require Import Async.Lists Async.Tasks Async.TasksInv Async.TasksStep.
Import ListNotations.

(** No thread can go on by itself. *)
Definition at_rest (s : state) : Prop := forall i, step s (AStep i false) = None.

(** ** States at rest *)

Lemma rest_thread : forall s i th, at_rest s -> nth_error (ths s) i = Some th ->
  step_thread (sh s) false th = None.
Proof.
  intros s i th R H. specialize (R i). cbn [step] in R. unfold update in R. rewrite H in R.
  destruct (step_thread (sh s) false th) as [[x th']|]; [discriminate|reflexivity].
Qed.

Lemma wt_count : forall s i th, Inv s -> nth_error (ths s) i = Some th -> wt th <= count (sh s).
Proof.
  intros s i th I H. rewrite (k_cnt _ I). pose proof (sum_ge wt _ _ _ H). lia.
Qed.

Lemma nth_ex : forall {A} (l : list A) q, q < length l -> exists Q, nth_error l q = Some Q.
Proof.
  intros A l q H. apply nth_error_Some in H. destruct (nth_error l q); [eauto|congruence].
Qed.

Ltac is_stuck T :=
  unfold step_thread, step_worker, step_op, bind, unlock_q, notify_q in T; cbv zeta in T.

Lemma holder_moves : forall s i th q, Inv s -> nth_error (ths s) i = Some th ->
  0 < ho (length (queues (sh s))) q th -> step_thread (sh s) false th <> None.
Proof.
  intros s i th q I H HO T. pose proof (k_pos _ I) as N.
  pose proof (wt_count _ _ _ I H) as WC.
  assert (ok (sh s) th) as K by (apply (k_ok _ I); eapply nth_error_In; eauto).
  assert (forall j, exists Q, nth_error (queues (sh s)) (j mod length (queues (sh s))) = Some Q) as EX.
  { intros j. apply nth_ex. now apply mod_lt. }
  destruct th as [j w|o].
  - destruct w; cbn [ho] in HO; try lia.
    + destruct (EX (j + i0)) as [Q HQ]. is_stuck T. rewrite HQ in T.
      destruct (items Q); discriminate.
    + destruct (EX (j + i0)) as [Q HQ]. is_stuck T. unfold decrement in T.
      destruct (count (sh s)) as [|c]; [cbn in WC; lia|]. cbn [queues] in T. rewrite HQ in T. discriminate.
    + destruct (EX j) as [Q HQ]. is_stuck T. rewrite HQ in T. discriminate.
    + is_stuck T. unfold decrement in T. destruct (count (sh s)) as [|c]; [cbn in WC; lia|discriminate].
    + destruct (EX j) as [Q HQ]. is_stuck T. rewrite HQ in T. discriminate.
    + destruct (EX j) as [Q HQ]. is_stuck T. rewrite HQ in T. discriminate.
    + discriminate.
    + destruct (EX j) as [Q HQ]. is_stuck T. rewrite HQ in T. destruct (items Q); discriminate.
    + destruct (EX j) as [Q HQ]. is_stuck T. unfold decrement in T.
      destruct (count (sh s)) as [|c]; [cbn in WC; lia|]. cbn [queues] in T. rewrite HQ in T. discriminate.
    + destruct K as [_ [K _]]. destruct o; cbn [ho_op] in HO; try lia.
      * discriminate.
      * cbn [ok_op] in K. destruct (nth_ex _ _ K) as [Q HQ]. is_stuck T. rewrite HQ in T. discriminate.
  - destruct o; cbn [ho ho_op] in HO; try lia.
    + discriminate.
    + cbn [ok ok_op] in K. destruct (nth_ex _ _ K) as [Q HQ]. is_stuck T. rewrite HQ in T. discriminate.
Qed.

Lemma sum_pos : forall {A} (f : A -> nat) l, 0 < sum f l -> exists i a, nth_error l i = Some a /\ 0 < f a.
Proof.
  intros A f l. induction l as [|a l IH]; cbn [sum]; intros H; [lia|].
  destruct (f a) eqn:E.
  - destruct IH as [i [b [Hb P]]]; [lia|]. exists (S i), b. auto.
  - exists 0, a. split; [reflexivity|lia].
Qed.

Lemma rest_unlocked : forall s q Q, Inv s -> at_rest s -> nth_error (queues (sh s)) q = Some Q ->
  qlock Q = false.
Proof.
  intros s q Q I R H. destruct (qlock Q) eqn:E; [|reflexivity].
  pose proof (k_lock _ I q) as K. unfold lockn in K. rewrite H, E in K. cbn [b2n] in K.
  destruct (sum_pos (ho (length (queues (sh s))) q) (ths s)) as [i [th [Hi P]]]; [lia|].
  elim (holder_moves s i th q I Hi P). eapply rest_thread; eauto.
Qed.

(** A call in a state at rest. *)
Lemma rest_op : forall s o, Inv s -> at_rest s -> ok_op (sh s) o ->
  step_op (sh s) false o = None -> o = ONone \/ o = OFinAsleep (cgen (sh s)).
Proof.
  intros s o I R K T. pose proof (k_pos _ I) as N.
  assert (forall q, q < length (queues (sh s)) -> exists Q, nth_error (queues (sh s)) q = Some Q /\ qlock Q = false) as EX.
  { intros q L. destruct (nth_ex _ _ L) as [Q HQ]. exists Q. split; [exact HQ|].
    eapply rest_unlocked; eauto. }
  unfold step_op, bind, notify_q, lock_q in T. cbv zeta in T. destruct o; cbn [ok_op] in K.
  - left. reflexivity.
  - destruct (Nat.ltb i _); [|discriminate].
    destruct (EX _ (mod_lt (idx + i) _ N)) as [Q [HQ L]]. rewrite HQ, L in T. discriminate.
  - discriminate.
  - discriminate.
  - destruct (EX _ K) as [Q [HQ L]]. rewrite HQ, L in T. discriminate.
  - destruct (EX _ K) as [Q [HQ L]]. rewrite HQ in T. discriminate.
  - destruct (EX _ K) as [Q [HQ L]]. rewrite HQ in T. discriminate.
  - discriminate.
  - discriminate.
  - destruct K as [G _]. destruct (Nat.ltb_spec g (cgen (sh s))); [discriminate|].
    right. f_equal. lia.
  - discriminate.
  - discriminate.
  - destruct K as [_ [_ [K _]]]. destruct (EX _ K) as [Q [HQ L]]. rewrite HQ, L in T. discriminate.
  - destruct K as [_ [_ [K _]]]. destruct (EX _ K) as [Q [HQ L]]. rewrite HQ in T. discriminate.
Qed.

Lemma rest_worker : forall s i j w, Inv s -> at_rest s -> nth_error (ths s) i = Some (Worker j w) ->
  w = WExit \/ (exists t, w = WRun t ONone) \/
  (w = WAsleep /\ forall Q, nth_error (queues (sh s)) j = Some Q -> qsig Q = false).
Proof.
  intros s i j w I R H. pose proof (k_pos _ I) as N. pose proof (rest_thread _ _ _ R H) as T.
  assert (ok (sh s) (Worker j w)) as [J K] by (apply (k_ok _ I); eapply nth_error_In; eauto).
  pose proof (holder_moves s i _ (j mod length (queues (sh s))) I H) as HM.
  assert (exists Q, nth_error (queues (sh s)) (j mod length (queues (sh s))) = Some Q /\ qlock Q = false) as EX.
  { destruct (nth_ex _ _ (mod_lt j _ N)) as [Q HQ]. exists Q. split; [exact HQ|].
    eapply rest_unlocked; eauto. }
  destruct EX as [Q [HQ L]].
  destruct w; auto;
    try (exfalso; cbn [ho] in HM; rewrite eqn_refl in HM; apply HM; [lia|exact T]).
  - discriminate.
  - exfalso. is_stuck T. destruct (Nat.ltb i0 _); [|discriminate].
    destruct (lock_q _ _); discriminate.
  - exfalso. eapply (holder_moves s i _ ((j + i0) mod length (queues (sh s))) I H); [|exact T].
    cbn [ho]. rewrite eqn_refl. lia.
  - exfalso. eapply (holder_moves s i _ ((j + i0) mod length (queues (sh s))) I H); [|exact T].
    cbn [ho]. rewrite eqn_refl. lia.
  - exfalso. is_stuck T. unfold lock_q in T. rewrite HQ, L in T. discriminate.
  - right. right. split; [reflexivity|]. intros Q' HQ'. rewrite Nat.mod_small in HQ by exact J.
    assert (Q' = Q) as -> by congruence. is_stuck T. rewrite Nat.mod_small in T by exact J.
    rewrite HQ in T. destruct (qsig Q); [discriminate|reflexivity].
  - exfalso. is_stuck T. unfold lock_q in T. rewrite HQ, L in T. discriminate.
  - exfalso. is_stuck T. destruct (shut (sh s)); discriminate.
  - destruct K as [K NF]. right. left. cbn [step_thread step_worker] in T.
    assert (step_op (sh s) false o = None) as T'.
    { destruct (step_op (sh s) false o) as [[x1 o1]|]; [discriminate|reflexivity]. }
    destruct (rest_op s o I R K T') as [->| ->]; [eauto|elim NF].
Qed.

Lemma rest_client : forall s i o, Inv s -> at_rest s -> nth_error (ths s) i = Some (Client o) ->
  o = ONone \/ (o = OFinAsleep (cgen (sh s)) /\ 0 < count (sh s) /\ cdone (sh s) = false).
Proof.
  intros s i o I R H. pose proof (rest_thread _ _ _ R H) as T.
  assert (ok (sh s) (Client o)) as K by (apply (k_ok _ I); eapply nth_error_In; eauto).
  assert (step_op (sh s) false o = None) as T'.
  { cbn [step_thread] in T. destruct (step_op (sh s) false o) as [[x1 o1]|]; [discriminate|reflexivity]. }
  destruct (rest_op s o I R K T') as [->| ->]; [auto|]. right. split; [reflexivity|].
  destruct K as [_ K]. auto.
Qed.

(** At rest nobody is about to notify, or shutting down. *)
Lemma rest_no : forall s q, Inv s -> at_rest s -> sum (no q) (ths s) = 0.
Proof.
  intros s q I R. apply sum_zero. intros th J. apply In_nth_error in J. destruct J as [i J].
  destruct th as [j w|o].
  - destruct (rest_worker _ _ _ _ I R J) as [->|[[t ->]|[-> _]]]; reflexivity.
  - destruct (rest_client _ _ _ I R J) as [->|[-> _]]; reflexivity.
Qed.

Lemma rest_sd : forall s, Inv s -> at_rest s -> sum sd (ths s) = 0.
Proof.
  intros s I R. apply sum_zero. intros th J. apply In_nth_error in J. destruct J as [i J].
  destruct th as [j w|o].
  - destruct (rest_worker _ _ _ _ I R J) as [->|[[t ->]|[-> _]]]; reflexivity.
  - destruct (rest_client _ _ _ I R J) as [->|[-> _]]; reflexivity.
Qed.

Lemma worker_of : forall s q, Inv s -> q < length (queues (sh s)) ->
  exists i w, nth_error (ths s) i = Some (Worker q w).
Proof.
  intros s q I L. pose proof (k_work _ I q) as K. apply Nat.ltb_lt in L. rewrite L in K. cbn [b2n] in K.
  destruct (sum_pos (isw q) (ths s)) as [i [th [H P]]]; [lia|].
  destruct th as [j w|o]; cbn [isw] in P; [|lia]. unfold eqn in P.
  destruct (Nat.eqb_spec q j) as [<-|]; [eauto|cbn in P; lia].
Qed.

(** At rest without shutdown, a task waits in a queue only while the worker of
    that queue is running another task. *)
Lemma rest_queue : forall s q Q, Inv s -> at_rest s -> shut (sh s) = false ->
  nth_error (queues (sh s)) q = Some Q -> items Q <> [] ->
  exists i t, nth_error (ths s) i = Some (Worker q (WRun t ONone)).
Proof.
  intros s q Q I R S H NE. destruct (worker_of s q I) as [i [w Hi]]; [now apply nth_some_lt in H|].
  destruct (rest_worker _ _ _ _ I R Hi) as [->|[[t ->]|[-> Sg]]].
  - assert (ok (sh s) (Worker q WExit)) as [_ K] by (apply (k_ok _ I); eapply nth_error_In; eauto).
    cbn in K. congruence.
  - eauto.
  - exfalso. destruct (k_sleep _ I _ _ H) as [[C _]|[C|C]].
    + eapply nth_error_In; eauto.
    + contradiction.
    + rewrite (Sg _ H) in C. discriminate.
    + rewrite rest_no in C by assumption. lia.
Qed.

Lemma rest_finish : forall s i o, Inv s -> at_rest s -> nth_error (ths s) i = Some (Client o) ->
  o <> ONone -> shut (sh s) = false /\
  exists k j t, nth_error (ths s) k = Some (Worker j (WRun t ONone)).
Proof.
  intros s i o I R H NE. destruct (rest_client _ _ _ I R H) as [->|[_ [C D]]]; [contradiction|].
  assert (shut (sh s) = false) as S.
  { destruct (shut (sh s)) eqn:E; [|reflexivity]. destruct (k_shut _ I E) as [P|[P _]]; [|congruence].
    rewrite rest_sd in P by assumption. lia. }
  split; [exact S|]. rewrite (k_cnt _ I) in C.
  destruct (Nat.eq_dec (nitems (sh s)) 0) as [Z|NZ].
  - destruct (sum_pos wt (ths s)) as [k [th [Hk P]]]; [lia|]. destruct th as [j w|o'].
    + destruct (rest_worker _ _ _ _ I R Hk) as [->|[[t ->]|[-> _]]].
      * assert (ok (sh s) (Worker j WExit)) as [_ K] by (apply (k_ok _ I); eapply nth_error_In; eauto).
        cbn in K. congruence.
      * eauto.
      * cbn in P. lia.
    + destruct (rest_client _ _ _ I R Hk) as [->|[-> _]]; cbn in P; lia.
  - destruct (sum_pos (fun Q => length (items Q)) (queues (sh s))) as [q [Q [HQ P]]].
    { unfold nitems in NZ. lia. }
    destruct (rest_queue s q Q I R S HQ) as [k [t Hk]]; [|eauto].
    intros E. rewrite E in P. cbn in P. lia.
Qed.

Lemma rest_shut : forall s i j w, Inv s -> at_rest s -> shut (sh s) = true ->
  nth_error (ths s) i = Some (Worker j w) -> w = WExit \/ exists t, w = WRun t ONone.
Proof.
  intros s i j w I R S H. destruct (rest_worker _ _ _ _ I R H) as [->|[[t ->]|[-> Sg]]]; eauto.
  exfalso. destruct (k_shut _ I S) as [P|[_ P]].
  - rewrite rest_sd in P by assumption. lia.
  - assert (ok (sh s) (Worker j WAsleep)) as [J _] by (apply (k_ok _ I); eapply nth_error_In; eauto).
    destruct (nth_ex _ _ J) as [Q HQ]. pose proof (P _ _ HQ) as D.
    destruct (k_sleep _ I _ _ HQ) as [[_ C]|[C|C]].
    + eapply nth_error_In; eauto.
    + congruence.
    + rewrite (Sg _ HQ) in C. discriminate.
    + rewrite rest_no in C by assumption. lia.
Qed.

(** ** The system comes to rest *)

(** Work left before a thread rests, without what [Finish] does; [n] is the
    number of queues. *)
Definition top_w (n : nat) : nat := 4 * n + 30.
Definition item_w (n : nat) : nat := top_w n + 20.
Definition m_op (n : nat) (o : op) : nat :=
  match o with
  | ONone | OFin | OFinLock | OFinAsleep _ => 0
  | OTry _ _ i => item_w n + 20 + (n * kNumberOfAttempts - i)
  | OHeld _ _ => item_w n + 17
  | OPushInc _ _ => item_w n + 18
  | OPushLock _ _ => item_w n + 17
  | OEmplace _ _ => item_w n + 16
  | ONotify _ => 15
  | OShut => 40 * n + 2
  | OAbort => 40 * n + 1
  | ODone q => 40 * (n - q)
  | ODoneNotify q => 40 * (n - q) - 20
  end.
Definition sig (x : shared) (q : nat) : bool :=
  match nth_error (queues x) q with Some Q => qsig Q | None => false end.
Definition m_th (x : shared) (th : thread) : nat :=
  let n := length (queues x) in
  match th with
  | Client o => m_op n o
  | Worker j w =>
    match w with
    | WTop => top_w n
    | WTry i => 4 * (n - i) + 26
    | WTryHeld i => 4 * (n - S i) + 28
    | WTryDec i _ => 4 * (n - S i) + 27 + item_w n
    | WPop => 20
    | WPopHeld => 19
    | WIdleDec => 18
    | WSleep => 6
    | WAsleep => if sig x j then 15 else 5
    | WWake => 14
    | WWakeHeld => 13
    | WIncr => 12
    | WTake => 11
    | WTakeDec _ => 10 + item_w n
    | WCheck _ => top_w n + 10
    | WRun _ o => top_w n + 5 + m_op n o
    | WExit => 0
    end
  end.
(** What [Finish] still has to do. *)
Definition f_op (x : shared) (o : op) : nat :=
  match o with
  | OFin => if is_zero x then 1 else 3
  | OFinLock => 2
  | OFinAsleep g => if Nat.ltb g (cgen x) then 3 else 1
  | _ => 0
  end.
Definition f_th (x : shared) (th : thread) : nat :=
  match th with Client o => f_op x o | _ => 0 end.
Definition base (s : state) : nat :=
  sum (m_th (sh s)) (ths s) + item_w (length (queues (sh s))) * nitems (sh s).
Definition measure (s : state) : nat :=
  (3 * length (ths s) + 1) * base s + sum (f_th (sh s)) (ths s).

Lemma f_le : forall x l, sum (f_th x) l <= 3 * length l.
Proof.
  intros x l. induction l as [|th l IH]; cbn [sum length]; [lia|].
  assert (f_th x th <= 3); [|lia].
  destruct th as [j w|o]; [cbn; lia|]. destruct o; cbn [f_th f_op]; try lia.
  - destruct (is_zero x); lia.
  - destruct (Nat.ltb g (cgen x)); lia.
Qed.

(** Changes of the measure by a step of one thread: what it does to itself and
    the queues, and (by a notification) to the others. *)
Record Dec (x : shared) (th : thread) (x' : shared) (th' : thread) : Prop := {
  d_len : length (queues x') = length (queues x);
  d_sig : exists q, (forall p, p <> q -> sig x' p = true -> sig x p = true) /\
    m_th x' th' + item_w (length (queues x)) * nitems x'
      + (if sig x' q then if sig x q then 0 else 10 else 0)
    < m_th x th + item_w (length (queues x)) * nitems x
}.

Lemma m_others : forall x x' q l, length (queues x') = length (queues x) ->
  (forall p, p <> q -> sig x' p = true -> sig x p = true) ->
  sum (m_th x') l <= sum (m_th x) l
      + (if sig x' q then if sig x q then 0 else 10 else 0) * sum (isw q) l.
Proof.
  intros x x' q l E S. induction l as [|th l IH]; [cbn; lia|]. cbn [sum].
  assert (m_th x' th <= m_th x th
      + (if sig x' q then if sig x q then 0 else 10 else 0) * isw q th); [|lia].
  destruct th as [j w|o]; cbn [m_th isw]; rewrite E; [|lia].
  destruct w; cbn [m_th]; try lia.
  destruct (Nat.eq_dec j q) as [->|NE].
  - rewrite eqn_refl. destruct (sig x' q), (sig x q); lia.
  - specialize (S j NE). destruct (sig x' j), (sig x j); try lia; discriminate (S eq_refl).
Qed.

Lemma base_dec : forall s i th x' th', Inv s -> nth_error (ths s) i = Some th ->
  Dec (sh s) th x' th' ->
  (forall q, isw q th' = isw q th) ->
  base (mkS x' (upd (ths s) i th')) < base s.
Proof.
  intros s i th x' th' I H [E [q [S D]]] IW. unfold base. cbn [sh ths]. rewrite E.
  pose proof (sum_upd (m_th x') _ _ _ th' H) as U.
  pose proof (m_others (sh s) x' q (ths s) E S) as O.
  pose proof (sum_ge (isw q) _ _ _ H) as G.
  pose proof (k_work _ I q) as K.
  assert (sum (isw q) (ths s) <= 1) as K1.
  { rewrite K. destruct (Nat.ltb q _); cbn; lia. }
  (* the others *)
  assert (sum (m_th x') (ths s) + m_th (sh s) th <= sum (m_th (sh s)) (ths s) + m_th x' th
          + (if sig x' q then if sig (sh s) q then 0 else 10 else 0)) as O'.
  { clear - H E S K1 I.
    assert (forall l i, nth_error l i = Some th -> sum (isw q) l <= 1 ->
      sum (m_th x') l + m_th (sh s) th <= sum (m_th (sh s)) l + m_th x' th
          + (if sig x' q then if sig (sh s) q then 0 else 10 else 0)) as Gen.
    { clear - E S. intros l. induction l as [|a l IH]; intros i H K; destruct i; cbn in H; try discriminate.
      - injection H as ->. cbn [sum] in *. pose proof (m_others (sh s) x' q l E S) as O.
        assert (sum (isw q) l <= 1) by lia.
        set (c := if sig x' q then if sig (sh s) q then 0 else 10 else 0) in *.
        assert (c * sum (isw q) l <= c) by (destruct (sum (isw q) l) as [|[|]]; lia). lia.
      - cbn [sum] in *. pose proof (m_others (sh s) x' q [a] E S) as O. cbn [sum] in O.
        destruct (isw q a) eqn:A.
        + specialize (IH i H). lia.
        + assert (sum (isw q) l = 0) as Z by lia.
          pose proof (m_others (sh s) x' q l E S) as O2. rewrite Z in O2.
          assert (n = 0) as -> by lia.
          assert (m_th (sh s) th <= m_th x' th \/ m_th x' th <= m_th (sh s) th) as _ by lia.
          (* [th] is not the worker of [q] *)
          pose proof (sum_ge (isw q) _ _ _ H) as G. assert (isw q th = 0) as T0 by lia.
          assert (forall m k, nth_error m k = Some th -> sum (isw q) m = 0 ->
            sum (m_th x') m + m_th (sh s) th <= sum (m_th (sh s)) m + m_th x' th) as Gen0.
          { clear - E S. intros m. induction m as [|b m IH]; intros k H Z; destruct k; cbn in H; try discriminate.
            - injection H as ->. cbn [sum] in *. pose proof (m_others (sh s) x' q m E S) as O.
              assert (sum (isw q) m = 0) as Z1 by lia. rewrite Z1 in O. lia.
            - cbn [sum] in *. pose proof (m_others (sh s) x' q [b] E S) as O. cbn [sum] in O.
              assert (isw q b = 0) as Z1 by lia. rewrite Z1 in O.
              specialize (IH k H). lia. }
          specialize (Gen0 l i H Z). lia. }
    exact (Gen (ths s) i H K1). }
  lia.
Qed.

(** *** Single steps *)

Lemma sig_upd : forall x q Q Q' p, nth_error (queues x) q = Some Q ->
  sig (set_q x q Q') p = if Nat.eqb q p then qsig Q' else sig x p.
Proof.
  intros x q Q Q' p H. unfold sig. cbn [set_q set_queues queues].
  destruct (Nat.eqb_spec q p) as [<-|N].
  - rewrite nth_upd_same by now apply nth_some_lt in H. reflexivity.
  - now rewrite nth_upd_other.
Qed.

Lemma sig_at : forall x q Q, nth_error (queues x) q = Some Q -> sig x q = qsig Q.
Proof. intros x q Q H. unfold sig. now rewrite H. Qed.

(** A step that sends no notification. *)
Lemma dec_plain : forall x th x' th', length (queues x') = length (queues x) ->
  (forall p, sig x' p = true -> sig x p = true) ->
  m_th x' th' + item_w (length (queues x)) * nitems x'
    < m_th x th + item_w (length (queues x)) * nitems x ->
  Dec x th x' th'.
Proof.
  intros x th x' th' E S D. constructor; [exact E|]. exists 0. split; [auto|].
  specialize (S 0). destruct (sig x' 0), (sig x 0); try lia; discriminate (S eq_refl).
Qed.

Lemma dec_set : forall x th th' q Q Q', nth_error (queues x) q = Some Q ->
  (qsig Q' = true -> qsig Q = true) ->
  m_th (set_q x q Q') th' + item_w (length (queues x)) * length (items Q')
    < m_th x th + item_w (length (queues x)) * length (items Q) ->
  Dec x th (set_q x q Q') th'.
Proof.
  intros x th th' q Q Q' H S D. apply dec_plain.
  - cbn. apply upd_length.
  - intros p. rewrite (sig_upd _ _ _ _ _ H). destruct (Nat.eqb_spec q p) as [<-|N]; [|auto].
    rewrite (sig_at _ _ _ H). exact S.
  - pose proof (nitems_upd x (set_q x q Q') q Q Q' H eq_refl). nia.
Qed.

Lemma dec_notify : forall x th th' q Q, nth_error (queues x) q = Some Q ->
  m_th (set_q x q (mkQ (items Q) (qdone Q) (qlock Q) true)) th' + 10 < m_th x th ->
  Dec x th (set_q x q (mkQ (items Q) (qdone Q) (qlock Q) true)) th'.
Proof.
  intros x th th' q Q H D. constructor; [cbn; apply upd_length|]. exists q. split.
  - intros p N. rewrite (sig_upd _ _ _ _ _ H). apply Nat.eqb_neq in N. rewrite Nat.eqb_sym, N. auto.
  - rewrite (sig_upd _ _ _ _ _ H), Nat.eqb_refl. cbn [qsig].
    pose proof (nitems_upd x (set_q x q (mkQ (items Q) (qdone Q) (qlock Q) true)) q Q _ H eq_refl) as E.
    cbn [items] in E.
    assert (nitems (set_q x q (mkQ (items Q) (qdone Q) (qlock Q) true)) = nitems x) as -> by lia.
    destruct (sig x q); lia.
Qed.

(** *** Calls *)

Definition fin_op (o : op) : Prop := match o with OFin | OFinLock | OFinAsleep _ => True | _ => False end.

Lemma dec_op : forall x fail o x' o', 0 < length (queues x) -> ok_op x o -> ~ fin_op o ->
  step_op x fail o = Some (x', o') -> Dec x (Client o) x' (Client o').
Proof.
  intros x fail o x' o' N K F H. unfold step_op in H. cbv zeta in H.
  destruct o; cbn [ok_op] in K; try (elim F; exact I).
  - discriminate.
  - destruct (Nat.ltb_spec i (length (queues x) * kNumberOfAttempts)) as [Lt|Ge].
    + assert (forall i', i < i' -> Dec x (Client (OTry t idx i)) x (Client (OTry t idx i'))) as M.
      { intros i' L. apply dec_plain; auto. cbn [m_th m_op]. lia. }
      destruct fail.
      * injection H as <- <-. apply M. lia.
      * destruct (lock_q x ((idx + i) mod length (queues x))) eqn:E; injection H as <- <-; [|apply M; lia].
        apply lock_inv in E. destruct E as [Q [HQ [_ ->]]].
        eapply dec_set; [exact HQ|auto|]. cbn [m_th m_op set_q set_queues queues items with_lock].
        rewrite upd_length. lia.
    + injection H as <- <-. apply dec_plain; auto. cbn [m_th m_op]. lia.
  - injection H as <- <-. apply dec_plain; auto. cbn [m_th m_op increment queues nitems].
    change (nitems (increment x)) with (nitems x). lia.
  - injection H as <- <-. apply dec_plain; auto. cbn [m_th m_op increment queues nitems].
    change (nitems (increment x)) with (nitems x). lia.
  - unfold bind in H. destruct (lock_q x q) eqn:E; [|discriminate]. injection H as <- <-.
    apply lock_inv in E. destruct E as [Q [HQ [_ ->]]].
    eapply dec_set; [exact HQ|auto|]. cbn [m_th m_op set_q set_queues queues items with_lock].
    rewrite upd_length. lia.
  - destruct (nth_error (queues x) q) as [Q|] eqn:E; [|discriminate]. injection H as <- <-.
    eapply dec_set; [exact E|auto|]. cbn [m_th m_op set_q set_queues queues items].
    rewrite app_length. cbn [length]. nia.
  - unfold bind, notify_q in H. destruct (nth_error (queues x) q) as [Q|] eqn:E; [|discriminate].
    injection H as <- <-. eapply dec_notify; [exact E|]. cbn [m_th m_op]. lia.
  - injection H as <- <-. apply dec_plain; auto. cbn [m_th m_op set_shut queues].
    change (nitems (set_shut x)) with (nitems x). lia.
  - injection H as <- <-. apply dec_plain; auto. cbn [m_th m_op abort queues].
    change (nitems (abort x)) with (nitems x). lia.
  - destruct (nth_error (queues x) q) as [Q|] eqn:E; [|discriminate].
    destruct (qlock Q); [discriminate|]. injection H as <- <-.
    eapply dec_set; [exact E|auto|]. cbn [m_th m_op set_q set_queues queues items].
    rewrite upd_length. apply nth_some_lt in E. lia.
  - unfold bind, notify_q in H. destruct (nth_error (queues x) q) as [Q|] eqn:E; [|discriminate].
    injection H as <- <-. eapply dec_notify; [exact E|]. apply nth_some_lt in E.
    destruct (Nat.ltb_spec (S q) (length (queues x))); cbn [m_th m_op set_q set_queues queues];
      rewrite ?upd_length; lia.
Qed.

(** *** Workers *)

Lemma dec_run : forall x o x' o' j t, Dec x (Client o) x' (Client o') ->
  Dec x (Worker j (WRun t o)) x' (Worker j (WRun t o')).
Proof.
  intros x o x' o' j t [E [q [S D]]]. constructor; [exact E|]. exists q. split; [exact S|].
  cbn [m_th] in *. rewrite E in *. lia.
Qed.

Lemma dec_worker : forall x fail j w x' w', 0 < length (queues x) -> ok x (Worker j w) ->
  step_worker x fail j w = Some (x', w') -> Dec x (Worker j w) x' (Worker j w').
Proof.
  intros x fail j w x' w' N [J K] H. unfold step_worker in H. cbv zeta in H.
  assert (forall c g, sig (mkX (queues x) (index x) (shut x) c (cdone x) g (next x)
     (started x) (completed x) (dropped x)) = sig x) as SD by reflexivity.
  destruct w; unfold top_w, item_w in *.
  - injection H as <- <-. destruct (shut x); apply dec_plain; auto; cbn [m_th]; unfold top_w; lia.
  - destruct (Nat.ltb_spec i (length (queues x))) as [Lt|Ge].
    + assert (Dec x (Worker j (WTry i)) x (Worker j (WTry (S i)))) as M.
      { apply dec_plain; auto. cbn [m_th]. lia. }
      destruct fail.
      * injection H as <- <-. exact M.
      * destruct (lock_q x ((j + i) mod length (queues x))) eqn:E; injection H as <- <-; [|exact M].
        apply lock_inv in E. destruct E as [Q [HQ [_ ->]]].
        eapply dec_set; [exact HQ|auto|]. cbn [m_th set_q set_queues queues items with_lock].
        rewrite upd_length. lia.
    + injection H as <- <-. apply dec_plain; auto. cbn [m_th]. lia.
  - destruct (nth_error (queues x) ((j + i) mod length (queues x))) as [Q|] eqn:E; [|discriminate].
    destruct (items Q) as [|t r] eqn:EI; injection H as <- <-;
      (eapply dec_set; [exact E|auto|]); cbn [m_th set_q set_queues queues items with_lock with_items];
      rewrite upd_length, EI; cbn [length]; nia.
  - unfold bind in H. destruct (decrement x) as [x1|] eqn:D; [|discriminate].
    destruct (unlock_q x1 _) as [x2|] eqn:U; [|discriminate]. injection H as <- <-.
    apply dec_inv in D. destruct D as [c [_ ->]]. unfold unlock_q in U. cbn [queues] in U.
    destruct (nth_error (queues x) ((j + i) mod length (queues x))) as [Q|] eqn:E; [|discriminate].
    injection U as <-. apply dec_plain.
    + cbn. apply upd_length.
    + intros p. rewrite (sig_upd _ _ Q) by exact E. cbn [qsig with_lock].
      destruct (Nat.eqb_spec ((j + i) mod length (queues x)) p) as [<-|]; [|auto].
      now rewrite (sig_at _ _ _ E).
    + cbn [m_th set_q set_queues queues]. rewrite upd_length.
      match goal with |- context [nitems ?y] => assert (nitems y = nitems x) as -> end.
      { match goal with |- nitems ?y = _ =>
          pose proof (nitems_upd x y _ Q _ E eq_refl) as NU; cbn [items with_lock] in NU; lia end. }
      unfold item_w, top_w. lia.
  - unfold bind in H. destruct (lock_q x _) eqn:E; [|discriminate]. injection H as <- <-.
    apply lock_inv in E. destruct E as [Q [HQ [_ ->]]].
    eapply dec_set; [exact HQ|auto|]. cbn [m_th set_q set_queues queues items with_lock]. lia.
  - destruct (nth_error (queues x) _) as [Q|]; [|discriminate]. injection H as <- <-.
    destruct (there_is Q); apply dec_plain; auto; cbn [m_th]; lia.
  - unfold bind in H. destruct (decrement x) as [x1|] eqn:D; [|discriminate].
    injection H as <- <-. apply dec_inv in D. destruct D as [c [_ ->]].
    apply dec_plain; auto. cbn [m_th]. unfold nitems. cbn [queues]. lia.
  - destruct (nth_error (queues x) _) as [Q|] eqn:E; [|discriminate]. injection H as <- <-.
    eapply dec_set; [exact E|discriminate|]. cbn [m_th].
    rewrite (sig_upd _ _ _ _ _ E). rewrite (Nat.mod_small j) by exact J. rewrite Nat.eqb_refl.
    cbn [qsig items]. lia.
  - destruct (nth_error (queues x) _) as [Q|] eqn:E; [|discriminate].
    destruct (qsig Q) eqn:S; [|discriminate]. injection H as <- <-. apply dec_plain; auto.
    cbn [m_th]. rewrite (Nat.mod_small j) in E by exact J. rewrite (sig_at _ _ _ E), S. lia.
  - unfold bind in H. destruct (lock_q x _) eqn:E; [|discriminate]. injection H as <- <-.
    apply lock_inv in E. destruct E as [Q [HQ [_ ->]]].
    eapply dec_set; [exact HQ|auto|]. cbn [m_th set_q set_queues queues items with_lock]. lia.
  - destruct (nth_error (queues x) _) as [Q|]; [|discriminate]. injection H as <- <-.
    destruct (there_is Q); apply dec_plain; auto; cbn [m_th]; lia.
  - injection H as <- <-. apply dec_plain; auto.
  - destruct (nth_error (queues x) _) as [Q|] eqn:E; [|discriminate].
    destruct (items Q) as [|t r] eqn:EI; injection H as <- <-;
      (eapply dec_set; [exact E|auto|]); cbn [m_th set_q set_queues queues items with_lock with_items];
      rewrite ?upd_length, EI; cbn [length]; nia.
  - unfold bind in H. destruct (decrement x) as [x1|] eqn:D; [|discriminate].
    destruct (unlock_q x1 _) as [x2|] eqn:U; [|discriminate]. injection H as <- <-.
    apply dec_inv in D. destruct D as [c [_ ->]]. unfold unlock_q in U. cbn [queues] in U.
    destruct (nth_error (queues x) (j mod length (queues x))) as [Q|] eqn:E; [|discriminate].
    injection U as <-. apply dec_plain.
    + cbn. apply upd_length.
    + intros p. rewrite (sig_upd _ _ Q) by exact E. cbn [qsig with_lock].
      destruct (Nat.eqb_spec (j mod length (queues x)) p) as [<-|]; [|auto].
      now rewrite (sig_at _ _ _ E).
    + cbn [m_th set_q set_queues queues]. rewrite upd_length.
      match goal with |- context [nitems ?y] => assert (nitems y = nitems x) as -> end.
      { match goal with |- nitems ?y = _ =>
          pose proof (nitems_upd x y _ Q _ E eq_refl) as NU; cbn [items with_lock] in NU; lia end. }
      unfold item_w, top_w. lia.
  - destruct (shut x); injection H as <- <-; apply dec_plain; auto; cbn [m_th log_drop log_start queues];
      unfold nitems; cbn [queues log_drop log_start m_op]; unfold top_w; lia.
  - unfold bind in H. destruct (step_op x fail o) as [[x1 o1]|] eqn:E; [|discriminate].
    injection H as <- <-. apply dec_run. cbn [fst snd]. destruct K as [K NF].
    eapply dec_op; eauto. destruct o; cbn in *; auto.
  - discriminate.
Qed.

Lemma base_lt_measure : forall s s', length (ths s') = length (ths s) -> base s' < base s ->
  measure s' < measure s.
Proof.
  intros s s' E L. unfold measure. rewrite E. pose proof (f_le (sh s') (ths s')) as F. rewrite E in F.
  set (k := length (ths s)) in *. set (b := base s) in *. set (b' := base s') in *.
  assert ((3 * k + 1) * b' + (3 * k + 1) <= (3 * k + 1) * b) by nia. lia.
Qed.

(** Every step of a thread, and every return of a task, brings the system
    closer to rest. *)
Lemma measure_dec : forall s a s', Inv s -> step s a = Some s' ->
  (exists i fail, a = AStep i fail) \/ (exists i, a = ARet i) ->
  measure s' < measure s.
Proof.
  intros s a s' I H W. pose proof (k_pos _ I) as N.
  destruct W as [[i [fail ->]]|[i ->]]; cbn [step] in H; unfold update in H;
    destruct (nth_error (ths s) i) as [th|] eqn:E; try discriminate;
    assert (ok (sh s) th) as K by (apply (k_ok _ I); eapply nth_error_In; eauto).
  - destruct (step_thread (sh s) fail th) as [[x th']|] eqn:T; [|discriminate]. injection H as <-.
    destruct th as [j w|o]; cbn [step_thread] in T; unfold bind in T.
    + destruct (step_worker (sh s) fail j w) as [[x1 w1]|] eqn:W; [|discriminate].
      injection T as <- <-. cbn [fst snd]. apply base_lt_measure; [cbn; apply upd_length|].
      eapply base_dec; [exact I|exact E| |reflexivity]. eapply dec_worker; eauto.
    + destruct (step_op (sh s) fail o) as [[x1 o1]|] eqn:W; [|discriminate].
      injection T as <- <-. cbn [fst snd].
      assert (fin_op o \/ ~ fin_op o) as [F|F] by (destruct o; cbn; tauto).
      * (* Finish *)
        assert (x1 = sh s /\ fin_op o1 \/ x1 = sh s /\ o1 = ONone) as X.
        { destruct o; try (elim F); unfold step_op in W; cbv zeta in W.
          - injection W as <- <-. destruct (is_zero (sh s)); cbn; auto.
          - injection W as <- <-. destruct (is_zero (sh s)); cbn; auto.
          - destruct (Nat.ltb g (cgen (sh s))); [|discriminate]. injection W as <- <-. cbn; auto. }
        assert (x1 = sh s /\ m_op (length (queues (sh s))) o1 = 0) as [-> M1].
        { destruct X as [[-> X]|[-> ->]]; [|auto]. split; [reflexivity|]. destruct o1; try (elim X); reflexivity. }
        assert (m_op (length (queues (sh s))) o = 0) as M0.
        { destruct o; try (elim F); reflexivity. }
        assert (f_op (sh s) o1 < f_op (sh s) o) as FD.
        { destruct o; try (elim F); unfold step_op in W; cbv zeta in W.
          - injection W as <-. cbn [f_op]. destruct (is_zero (sh s)); cbn [f_op]; lia.
          - injection W as <-. cbn [f_op]. destruct (is_zero (sh s)) eqn:Z; cbn [f_op].
            + rewrite Z. lia.
            + rewrite Nat.ltb_irrefl. lia.
          - destruct (Nat.ltb g (cgen (sh s))) eqn:G; [|discriminate]. injection W as <-. cbn [f_op].
            rewrite G. lia. }
        unfold measure. cbn [ths sh]. rewrite upd_length.
        assert (base (mkS (sh s) (upd (ths s) i (Client o1))) = base s) as ->.
        { unfold base. cbn [sh ths].
          pose proof (sum_upd (m_th (sh s)) _ _ _ (Client o1) E) as U. cbn [m_th] in U. lia. }
        pose proof (sum_upd (f_th (sh s)) _ _ _ (Client o1) E) as U. cbn [f_th] in U. lia.
      * apply base_lt_measure; [cbn; apply upd_length|].
        eapply base_dec; [exact I|exact E| |reflexivity]. eapply dec_op; eauto.
  - destruct (ret_thread (sh s) th) as [[x th']|] eqn:T; [|discriminate]. injection H as <-.
    destruct th as [j w|o]; [|discriminate]. destruct w; try discriminate. destruct o; try discriminate.
    injection T as <- <-. apply base_lt_measure; [cbn; apply upd_length|].
    eapply base_dec; [exact I|exact E| |reflexivity].
    apply dec_plain; auto. cbn [m_th log_complete queues m_op].
    change (nitems (log_complete (sh s) t)) with (nitems (sh s)). lia.
Qed.
