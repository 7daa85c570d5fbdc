(** Invariants of the task system. *)

From Coq Require Import List Arith Bool Lia.
From Verif Require Import Async.Lists Async.Tasks.
Import ListNotations.

(** ** What a thread has *)

Definition eqn (a b : nat) : nat := b2n (Nat.eqb a b).
Definition occ (t : nat) (l : list nat) : nat := sum (eqn t) l.

(** Share of a call in the workload counter; mutex held; task carried; queue
    about to be notified; shutdown in progress. *)
Definition wt_op (o : op) : nat :=
  match o with OPushLock _ _ | OEmplace _ _ => 1 | _ => 0 end.
Definition ho_op (q : nat) (o : op) : nat :=
  match o with OHeld _ p | OEmplace _ p => eqn q p | _ => 0 end.
Definition pt_op (t : nat) (o : op) : nat :=
  match o with
  | OTry u _ _ | OHeld u _ | OPushInc u _ | OPushLock u _ | OEmplace u _ => eqn t u
  | _ => 0
  end.
Definition no_op (q : nat) (o : op) : nat :=
  match o with ONotify p | ODoneNotify p => eqn q p | _ => 0 end.
Definition sd_op (o : op) : nat :=
  match o with OAbort | ODone _ | ODoneNotify _ => 1 | _ => 0 end.

Definition wt (th : thread) : nat :=
  match th with
  | Client o => wt_op o
  | Worker _ w =>
    match w with
    | WSleep | WAsleep | WWake | WWakeHeld | WIncr => 0
    | WTryDec _ _ | WTakeDec _ => 2
    | WRun _ o => 1 + wt_op o
    | _ => 1
    end
  end.
Definition ho (n q : nat) (th : thread) : nat :=
  match th with
  | Client o => ho_op q o
  | Worker j w =>
    match w with
    | WTryHeld i | WTryDec i _ => eqn q ((j + i) mod n)
    | WPopHeld | WIdleDec | WSleep | WWakeHeld | WIncr | WTake | WTakeDec _ => eqn q (j mod n)
    | WRun _ o => ho_op q o
    | _ => 0
    end
  end.
Definition pt (t : nat) (th : thread) : nat :=
  match th with
  | Client o => pt_op t o
  | Worker _ w =>
    match w with
    | WTryDec _ u | WTakeDec u | WCheck u => eqn t u
    | WRun u o => eqn t u + pt_op t o
    | _ => 0
    end
  end.
Definition rt (t : nat) (th : thread) : nat :=
  match th with Worker _ (WRun u _) => eqn t u | _ => 0 end.
Definition no (q : nat) (th : thread) : nat :=
  match th with Client o | Worker _ (WRun _ o) => no_op q o | _ => 0 end.
Definition sd (th : thread) : nat :=
  match th with Client o | Worker _ (WRun _ o) => sd_op o | _ => 0 end.
Definition isw (j : nat) (th : thread) : nat :=
  match th with Worker k _ => eqn j k | _ => 0 end.

Definition calm (Q : queue) : Prop := items Q = [] /\ qdone Q = false.

(** What a call, and a thread, may rely on. *)
Definition all_done (x : shared) : Prop :=
  forall q Q, nth_error (queues x) q = Some Q -> qdone Q = true.
Definition ok_op (x : shared) (o : op) : Prop :=
  match o with
  | OHeld _ q | OPushInc _ q | OPushLock _ q | OEmplace _ q | ONotify q =>
      q < length (queues x)
  | OFinAsleep g => g <= cgen x /\ (g = cgen x -> 0 < count x /\ cdone x = false)
  | OAbort => shut x = true
  | ODone q => shut x = true /\ cdone x = true /\ q < length (queues x) /\
      forall p P, p < q -> nth_error (queues x) p = Some P -> qdone P = true
  | ODoneNotify q => shut x = true /\ cdone x = true /\ q < length (queues x) /\
      forall p P, p <= q -> nth_error (queues x) p = Some P -> qdone P = true
  | _ => True
  end.
(** A task does not wait for the end of all tasks. *)
Definition nofin (o : op) : Prop :=
  match o with OFin | OFinLock | OFinAsleep _ => False | _ => True end.
Definition ok (x : shared) (th : thread) : Prop :=
  match th with
  | Client o => ok_op x o
  | Worker j w =>
    j < length (queues x) /\
    match w with
    | WRun _ o => ok_op x o /\ nofin o
    | WIdleDec | WSleep =>
        forall Q, nth_error (queues x) (j mod length (queues x)) = Some Q -> calm Q
    | WIncr | WTake =>
        forall Q, nth_error (queues x) (j mod length (queues x)) = Some Q -> ~ calm Q
    | WExit => shut x = true
    | _ => True
    end
  end.

Definition lockn (x : shared) (q : nat) : nat :=
  match nth_error (queues x) q with Some Q => b2n (qlock Q) | None => 0 end.
Definition nitems (x : shared) : nat := sum (fun Q => length (items Q)) (queues x).
Definition inq (t : nat) (x : shared) : nat := sum (fun Q => occ t (items Q)) (queues x).
Definition created (t : nat) (x : shared) : nat := b2n (Nat.ltb t (next x)).

Definition asleep (q : nat) (th : thread) : Prop := th = Worker q WAsleep.

Record Inv (s : state) : Prop := {
  k_pos : 0 < length (queues (sh s));
  k_cnt : count (sh s) = sum wt (ths s) + nitems (sh s);
  k_lock : forall q, lockn (sh s) q = sum (ho (length (queues (sh s))) q) (ths s);
  k_work : forall j, sum (isw j) (ths s) = b2n (Nat.ltb j (length (queues (sh s))));
  k_task : forall t, sum (pt t) (ths s) + inq t (sh s) + occ t (completed (sh s))
             + occ t (dropped (sh s)) = created t (sh s);
  k_start : forall t, occ t (started (sh s)) = sum (rt t) (ths s) + occ t (completed (sh s));
  k_ok : forall th, In th (ths s) -> ok (sh s) th;
  k_sleep : forall q Q, nth_error (queues (sh s)) q = Some Q ->
             In (Worker q WAsleep) (ths s) ->
             calm Q \/ qsig Q = true \/ 0 < sum (no q) (ths s);
  k_shut : shut (sh s) = true ->
             0 < sum sd (ths s) \/ (cdone (sh s) = true /\ all_done (sh s));
  k_drop : dropped (sh s) <> [] -> shut (sh s) = true;
  k_qdone : forall q Q, nth_error (queues (sh s)) q = Some Q -> qdone Q = true ->
             shut (sh s) = true;
  k_cdone : cdone (sh s) = true -> shut (sh s) = true
}.

(** ** Steps of one thread *)

Record Loc (x : shared) (th : thread) (x' : shared) (th' : thread) : Prop := {
  l_len : length (queues x') = length (queues x);
  l_cnt : count x' + wt th + nitems x = count x + wt th' + nitems x';
  l_lock : forall q, lockn x' q + ho (length (queues x)) q th
                     = lockn x q + ho (length (queues x)) q th';
  l_isw : forall j, isw j th' = isw j th;
  l_task : forall t, pt t th' + inq t x' + occ t (completed x') + occ t (dropped x')
                     + created t x =
                     pt t th + inq t x + occ t (completed x) + occ t (dropped x)
                     + created t x';
  l_start : forall t, occ t (started x') + rt t th + occ t (completed x)
                      = occ t (started x) + rt t th' + occ t (completed x');
  l_ok : ok x' th';
  l_frame : forall q Q, nth_error (queues x) q = Some Q -> exists Q',
     nth_error (queues x') q = Some Q' /\
     (qlock Q = true -> ho (length (queues x)) q th = 0 ->
        items Q' = items Q /\ qdone Q' = qdone Q) /\
     (qdone Q = true -> qdone Q' = true) /\
     (calm Q \/ qsig Q = true \/ 0 < no q th ->
      calm Q' \/ qsig Q' = true \/ 0 < no q th') /\
     (qdone Q' = true -> qdone Q = true \/ shut x = true);
  l_asleep : forall q, asleep q th' -> asleep q th \/
     (forall Q', nth_error (queues x') q = Some Q' -> calm Q');
  l_gen : cgen x <= cgen x' /\
     (cgen x' = cgen x -> (0 < count x -> 0 < count x') /\ cdone x' = cdone x);
  l_shut : shut x = true -> shut x' = true;
  l_cdone : cdone x = true -> cdone x' = true;
  l_down : (shut x = true -> 0 < sd th \/ (cdone x = true /\ all_done x)) ->
           shut x' = true -> 0 < sd th' \/ (cdone x' = true /\ all_done x') \/
                             (shut x = true /\ sd th = 0);
  l_drop : dropped x' <> [] -> dropped x <> [] \/ shut x = true;
  l_cd : cdone x' = true -> cdone x = true \/ shut x = true
}.

Lemma nth_frame : forall x x' th th', Loc x th x' th' -> forall q Q',
  nth_error (queues x') q = Some Q' -> exists Q, nth_error (queues x) q = Some Q.
Proof.
  intros x x' th th' L q Q' H. apply nth_some_lt in H. rewrite (l_len _ _ _ _ L) in H.
  apply nth_error_Some in H. destruct (nth_error (queues x) q); [eauto|congruence].
Qed.

(** What the other threads rely on is kept. *)
Lemma ok_op_frame : forall x x' th th' o, Loc x th x' th' -> ok_op x o -> ok_op x' o.
Proof.
  intros x x' th th' o L K. pose proof (l_len _ _ _ _ L) as E.
  destruct o; cbn in *; auto; try (rewrite E; assumption).
  - destruct K as [G C]. destruct (l_gen _ _ _ _ L) as [G' C']. split; [lia|].
    intros Eg. assert (cgen x' = cgen x) as Ex by lia. destruct (C' Ex) as [C1 C2].
    destruct C as [C3 C4]; [lia|]. split; [auto|congruence].
  - eapply l_shut; eauto.
  - destruct K as [K1 [K2 [K3 K4]]]. split; [eapply l_shut; eauto|].
    split; [eapply l_cdone; eauto|]. split; [congruence|].
    intros p P' Lp HP. destruct (nth_frame _ _ _ _ L _ _ HP) as [P HP0].
    destruct (l_frame _ _ _ _ L _ _ HP0) as [P1 [HP1 [_ [D _]]]].
    assert (P1 = P') as -> by congruence. eauto.
  - destruct K as [K1 [K2 [K3 K4]]]. split; [eapply l_shut; eauto|].
    split; [eapply l_cdone; eauto|]. split; [congruence|].
    intros p P' Lp HP. destruct (nth_frame _ _ _ _ L _ _ HP) as [P HP0].
    destruct (l_frame _ _ _ _ L _ _ HP0) as [P1 [HP1 [_ [D _]]]].
    assert (P1 = P') as -> by congruence. eauto.
Qed.

Lemma ho_locked : forall x th q Q n, n = length (queues x) ->
  nth_error (queues x) q = Some Q -> ho n q th <= lockn x q -> 0 < ho n q th -> qlock Q = true.
Proof.
  intros x th q Q n -> H L P. unfold lockn in L. rewrite H in L.
  destruct (qlock Q); cbn in *; [reflexivity|lia].
Qed.

Lemma ok_frame : forall x x' th th' th2, Loc x th x' th' -> 0 < length (queues x) ->
  (forall q, ho (length (queues x)) q th + ho (length (queues x)) q th2 <= lockn x q) ->
  ok x th2 -> ok x' th2.
Proof.
  intros x x' th th' th2 L N M K. pose proof (l_len _ _ _ _ L) as E.
  destruct th2 as [j w|o]; [|eapply ok_op_frame; eauto].
  assert (forall q, ho (length (queues x)) q (Worker j w) = 1 -> forall Q', nth_error (queues x') q = Some Q' ->
            exists Q, nth_error (queues x) q = Some Q /\ items Q' = items Q /\ qdone Q' = qdone Q) as F.
  { intros q H Q' HQ'. destruct (nth_frame _ _ _ _ L _ _ HQ') as [Q HQ]. exists Q.
    split; [exact HQ|]. destruct (l_frame _ _ _ _ L _ _ HQ) as [Q1 [HQ1 [FR _]]].
    assert (Q1 = Q') as -> by congruence. specialize (M q). rewrite H in M.
    unfold lockn in M. rewrite HQ in M. apply FR; destruct (qlock Q); cbn in M; try lia; reflexivity. }
  assert (ho (length (queues x)) (j mod length (queues x)) (Worker j WSleep) = 1) as H1.
  { cbn. unfold eqn. now rewrite Nat.eqb_refl. }
  destruct K as [Kj K]. split; [congruence|]. rewrite E.
  destruct w; auto.
  - intros Q' HQ'. destruct (F _ H1 _ HQ') as [Q [HQ [I D]]]. specialize (K _ HQ).
    unfold calm in *. rewrite I, D. exact K.
  - intros Q' HQ'. destruct (F _ H1 _ HQ') as [Q [HQ [I D]]]. specialize (K _ HQ).
    unfold calm in *. rewrite I, D. exact K.
  - intros Q' HQ'. destruct (F _ H1 _ HQ') as [Q [HQ [I D]]]. specialize (K _ HQ).
    unfold calm in *. rewrite I, D. exact K.
  - intros Q' HQ'. destruct (F _ H1 _ HQ') as [Q [HQ [I D]]]. specialize (K _ HQ).
    unfold calm in *. rewrite I, D. exact K.
  - destruct K as [K1 K2]. split; [eapply ok_op_frame; eauto|exact K2].
  - eapply l_shut; eauto.
Qed.

Lemma sum_two : forall {A} (f : A -> nat) l i j a b, i <> j ->
  nth_error l i = Some a -> nth_error l j = Some b -> f a + f b <= sum f l.
Proof.
  intros A f l i j a b N Hi Hj.
  pose proof (sum_upd f l i a a Hi) as _.
  revert j i N Hi Hj. induction l as [|x l IH]; intros j i N Hi Hj; destruct i, j; cbn in *;
    try discriminate; try congruence.
  - injection Hi as ->. pose proof (sum_ge f l j b Hj). lia.
  - injection Hj as ->. pose proof (sum_ge f l i a Hi). lia.
  - assert (i <> j) as N' by congruence. specialize (IH j i N' Hi Hj). lia.
Qed.

Lemma inv_loc : forall s i th x' th', Inv s -> nth_error (ths s) i = Some th ->
  Loc (sh s) th x' th' -> Inv (mkS x' (upd (ths s) i th')).
Proof.
  intros s i th x' th' I H L. pose proof (fun f => sum_upd f _ _ _ th' H) as SU.
  pose proof (l_len _ _ _ _ L) as E.
  constructor; cbn [sh ths]; rewrite ?E.
  - apply (k_pos _ I).
  - pose proof (l_cnt _ _ _ _ L). pose proof (k_cnt _ I). specialize (SU wt). lia.
  - intros q. pose proof (l_lock _ _ _ _ L q). pose proof (k_lock _ I q).
    specialize (SU (ho (length (queues (sh s))) q)). lia.
  - intros j. pose proof (l_isw _ _ _ _ L j). pose proof (k_work _ I j).
    specialize (SU (isw j)). lia.
  - intros t. pose proof (l_task _ _ _ _ L t). pose proof (k_task _ I t).
    specialize (SU (pt t)). lia.
  - intros t. pose proof (l_start _ _ _ _ L t). pose proof (k_start _ I t).
    specialize (SU (rt t)). lia.
  - intros th2 J. apply In_nth_error in J. destruct J as [k J]. apply nth_upd in J.
    destruct J as [[-> [-> _]]|[N J]]; [apply (l_ok _ _ _ _ L)|].
    eapply ok_frame; [exact L|apply (k_pos _ I)| |].
    + intros q. rewrite (k_lock _ I q). eapply sum_two; eauto.
    + apply (k_ok _ I). eapply nth_error_In; eauto.
  - intros q Q' HQ' J. destruct (nth_frame _ _ _ _ L _ _ HQ') as [Q HQ].
    destruct (l_frame _ _ _ _ L _ _ HQ) as [Q1 [HQ1 [_ [_ [FS _]]]]].
    assert (Q1 = Q') as -> by congruence. specialize (SU (no q)).
    apply In_nth_error in J. destruct J as [k J]. apply nth_upd in J.
    assert (forall th2, In (Worker q WAsleep) (ths s) -> th2 = th ->
              calm Q' \/ qsig Q' = true \/ 0 < sum (no q) (upd (ths s) i th')) as G.
    { intros th2 J2 _. pose proof (sum_ge (no q) _ _ _ H) as SG. destruct (k_sleep _ I _ _ HQ J2) as [C|[C|C]].
      - destruct FS as [?|[?|?]]; auto. right. right. lia.
      - destruct FS as [?|[?|?]]; auto. right. right. lia.
      - destruct (no q th) eqn:Nq.
        + right. right. lia.
        + destruct FS as [?|[?|?]]; auto; [right; right; lia|]. right. right. lia. }
    destruct J as [[-> [Eq _]]|[N J]].
    + destruct (l_asleep _ _ _ _ L q) as [As|C]; [now rewrite <- Eq| |left; auto].
      apply (G th); [|reflexivity]. rewrite <- As. eapply nth_error_In; eauto.
    + apply (G th); [|reflexivity]. eapply nth_error_In; eauto.
  - intros S'. specialize (SU sd). pose proof (k_shut _ I) as KS.
    pose proof (sum_ge sd _ _ _ H) as SG.
    destruct (Nat.eq_dec (sum sd (upd (ths s) i th')) 0) as [Z|NZ]; [|left; lia].
    assert (sd th' = 0) as Z1 by lia.
    assert (sum sd (ths s) = sd th) as Z2 by lia.
    destruct (l_down _ _ _ _ L) as [D|[D|[D1 D2]]]; auto.
    + intros Sx. destruct (KS Sx) as [P|P]; [left; lia|auto].
    + lia.
    + destruct (KS D1) as [P|[P1 P2]]; [lia|]. right. split; [eapply l_cdone; eauto|].
      intros q Q' HQ'. destruct (nth_frame _ _ _ _ L _ _ HQ') as [Q HQ].
      destruct (l_frame _ _ _ _ L _ _ HQ) as [Q1 [HQ1 [_ [FD _]]]].
      assert (Q1 = Q') as -> by congruence. apply FD. eapply P2; eauto.
  - intros D. destruct (l_drop _ _ _ _ L D) as [D'|D']; [|eapply l_shut; eauto].
    eapply l_shut; [exact L|]. now apply (k_drop _ I).
  - intros q Q' HQ' D. destruct (nth_frame _ _ _ _ L _ _ HQ') as [Q HQ].
    destruct (l_frame _ _ _ _ L _ _ HQ) as [Q1 [HQ1 [_ [_ [_ FD]]]]].
    assert (Q1 = Q') as -> by congruence. eapply l_shut; [exact L|].
    destruct (FD D) as [D0|D0]; [|exact D0]. eapply (k_qdone _ I); eauto.
  - intros C. destruct (l_cd _ _ _ _ L C) as [C'|C']; eapply l_shut; eauto. now apply (k_cdone _ I).
Qed.

(** ** Building [Loc] *)

Lemma lockn_upd : forall x x' q Q Q' p, nth_error (queues x) q = Some Q ->
  queues x' = upd (queues x) q Q' -> lockn x' p + eqn p q * b2n (qlock Q) = lockn x p + eqn p q * b2n (qlock Q').
Proof.
  intros x x' q Q Q' p H E. unfold lockn, eqn. rewrite E.
  destruct (Nat.eqb_spec p q) as [->|N]; cbn.
  - rewrite nth_upd_same by (now apply nth_some_lt in H). rewrite H. lia.
  - rewrite nth_upd_other by congruence. lia.
Qed.

Lemma nitems_upd : forall x x' q Q Q', nth_error (queues x) q = Some Q ->
  queues x' = upd (queues x) q Q' ->
  nitems x' + length (items Q) = nitems x + length (items Q').
Proof.
  intros x x' q Q Q' H E. unfold nitems. rewrite E.
  apply (sum_upd (fun Q => length (items Q)) _ _ _ Q' H).
Qed.

Lemma inq_upd : forall x x' q Q Q' t, nth_error (queues x) q = Some Q ->
  queues x' = upd (queues x) q Q' -> inq t x' + occ t (items Q) = inq t x + occ t (items Q').
Proof.
  intros x x' q Q Q' t H E. unfold inq. rewrite E.
  apply (sum_upd (fun Q => occ t (items Q)) _ _ _ Q' H).
Qed.

Lemma nth_upd_fun : forall {A} (l : list A) i y j x, nth_error l j = Some x -> i < length l ->
  nth_error (upd l i y) j = Some (if Nat.eqb i j then y else x).
Proof.
  intros A l i y j x H L. destruct (Nat.eqb_spec i j) as [<-|N].
  - now apply nth_upd_same.
  - now rewrite nth_upd_other.
Qed.

(** A step that does not touch the queues. *)
Lemma loc_same : forall x th x' th', queues x' = queues x ->
  count x' + wt th = count x + wt th' ->
  (forall q, ho (length (queues x)) q th = ho (length (queues x)) q th') ->
  (forall j, isw j th' = isw j th) ->
  (forall t, pt t th' + occ t (completed x') + occ t (dropped x') + created t x =
             pt t th + occ t (completed x) + occ t (dropped x) + created t x') ->
  (forall t, occ t (started x') + rt t th + occ t (completed x)
             = occ t (started x) + rt t th' + occ t (completed x')) ->
  ok x' th' ->
  (forall q, no q th <= no q th') ->
  (forall q, asleep q th' -> asleep q th) ->
  (cgen x <= cgen x' /\
     (cgen x' = cgen x -> (0 < count x -> 0 < count x') /\ cdone x' = cdone x)) ->
  (shut x = true -> shut x' = true) -> (cdone x = true -> cdone x' = true) ->
  ((shut x = true /\ sd th = 0) \/ 0 < sd th' \/ shut x' = false) ->
  (dropped x' <> [] -> dropped x <> [] \/ shut x = true) ->
  (cdone x' = true -> cdone x = true \/ shut x = true) ->
  Loc x th x' th'.
Proof.
  intros x th x' th' EQ C H W T S K N A G SH CD D DR CX. constructor; auto.
  - now rewrite EQ.
  - unfold nitems. rewrite EQ. lia.
  - intros q. unfold lockn. rewrite EQ, H. reflexivity.
  - intros t. unfold inq. rewrite EQ. specialize (T t). lia.
  - intros q Q HQ. exists Q. rewrite EQ. split; [exact HQ|]. split; [auto|]. split; [auto|].
    split; [|auto]. intros [?|[?|?]]; auto. specialize (N q). right. right. lia.
  - intros _ S'. destruct D as [D|[D|D]]; auto. congruence.
Qed.

(** A step that changes queue [q] only. *)
Lemma loc_set : forall x th x' th' q Q Q', queues x' = upd (queues x) q Q' ->
  nth_error (queues x) q = Some Q ->
  count x' + wt th + length (items Q) = count x + wt th' + length (items Q') ->
  (forall p, ho (length (queues x)) p th + eqn p q * b2n (qlock Q')
             = ho (length (queues x)) p th' + eqn p q * b2n (qlock Q)) ->
  (forall j, isw j th' = isw j th) ->
  (forall t, pt t th' + occ t (items Q') = pt t th + occ t (items Q)) ->
  (forall t, rt t th = rt t th') ->
  completed x' = completed x -> dropped x' = dropped x -> started x' = started x ->
  next x' = next x -> ok x' th' ->
  (qlock Q = true -> ho (length (queues x)) q th = 0 -> items Q' = items Q /\ qdone Q' = qdone Q) ->
  (qdone Q = true -> qdone Q' = true) ->
  (qdone Q' = true -> qdone Q = true \/ shut x = true) ->
  (calm Q \/ qsig Q = true \/ 0 < no q th -> calm Q' \/ qsig Q' = true \/ 0 < no q th') ->
  (forall p, p <> q -> no p th <= no p th') ->
  (forall p, asleep p th' -> asleep p th \/ (p = q /\ calm Q')) ->
  (cgen x <= cgen x' /\
     (cgen x' = cgen x -> (0 < count x -> 0 < count x'))) ->
  shut x' = shut x -> cdone x' = cdone x ->
  ((shut x = true /\ sd th = 0) \/ 0 < sd th' \/ shut x = false \/
   (cdone x = true /\ all_done x')) ->
  Loc x th x' th'.
Proof.
  intros x th x' th' q Q Q' EQ HQ C H W T R Ec Ed Es En K FR FD FB FS FN A G SH CD D.
  assert (q < length (queues x)) as Lq by now apply nth_some_lt in HQ.
  constructor; auto.
  - now rewrite EQ, upd_length.
  - pose proof (nitems_upd x x' q Q Q' HQ EQ). lia.
  - intros p. pose proof (lockn_upd x x' q Q Q' p HQ EQ). specialize (H p). lia.
  - intros t. pose proof (inq_upd x x' q Q Q' t HQ EQ). specialize (T t).
    unfold created. rewrite Ec, Ed, En. lia.
  - intros t. rewrite Es, Ec, R. lia.
  - intros p P HP. exists (if Nat.eqb q p then Q' else P). rewrite EQ.
    split; [now apply nth_upd_fun|].
    destruct (Nat.eqb_spec q p) as [<-|NE].
    + assert (P = Q) as -> by congruence. auto.
    + split; [auto|]. split; [auto|]. split; [|auto].
      intros [?|[?|?]]; auto. right. right. specialize (FN p (not_eq_sym NE)). lia.
  - intros p As. destruct (A p As) as [?|[-> Ca]]; [auto|]. right. intros P HP.
    rewrite EQ, nth_upd_same in HP by exact Lq. injection HP as <-. exact Ca.
  - destruct G as [G1 G2]. split; [exact G1|]. intros E. split; [auto|exact CD].
  - congruence.
  - congruence.
  - intros _ S'. destruct D as [D|[D|[D|[D1 D2]]]]; auto; [congruence|].
    right. left. split; [congruence|auto].
  - intros Dr. left. congruence.
  - intros Dr. left. congruence.
Qed.
