(** Properties of the asynchronous map and of its cycle detection. *)

From Coq Require Import List Arith Bool Lia Relations.
From Verif Require Import Async.Lists Async.Cycle Async.Map Async.MapInv Async.MapCount
  Async.MapQuiet Async.MapAct Async.MapSpec Async.MapLive.
Import ListNotations.

Section Facts.
Context {V : Type}.
Notation state := (@state V).
Implicit Types s : state.

Lemma reach_all : forall s, reachable s -> All s.
Proof. intros s [l H]. eapply all_run; [apply all_init|exact H]. Qed.

Lemma reach_vd : forall s, reachable s -> Vd s.
Proof. intros s [l H]. eapply vd_run; [apply inv_init|apply vd_init|exact H]. Qed.

Lemma count_sum : forall (f : event V -> bool) l,
  length (filter f l) = sum (fun e => b2n (f e)) l.
Proof. induction l as [|e l IH]; [reflexivity|]. cbn. destruct (f e); cbn; now rewrite IH. Qed.

Lemma runs_sum : forall s c, count (runs c) s = sum (w_run c) (log s).
Proof. intros s c. unfold count. rewrite count_sum. apply sum_ext. intros e _. now destruct e. Qed.
Lemma fails_sum : forall s c, count (fails c) s = sum (w_failed c) (log s).
Proof. intros s c. unfold count. rewrite count_sum. apply sum_ext. intros e _. now destruct e. Qed.

Lemma same_key : forall s n m nd md, Inv s -> nth_error (nodes s) n = Some nd ->
  nth_error (nodes s) m = Some md -> nkey nd = nkey md -> n = m.
Proof.
  intros s n m nd md I Hn Hm E. pose proof (i_map2 _ I _ _ Hn). pose proof (i_map2 _ I _ _ Hm).
  congruence.
Qed.

Lemma Forall2_nth : forall {A B} (P : A -> B -> Prop) l1 l2 i b,
  Forall2 P l1 l2 -> nth_error l2 i = Some b -> exists a, nth_error l1 i = Some a /\ P a b.
Proof.
  intros A B P l1 l2 i b F. revert i. induction F; intros i H0; destruct i; try discriminate; cbn in *.
  - injection H0 as <-. eauto.
  - eauto.
Qed.

Lemma Forall2_comp : forall {A B C} (P : A -> B -> Prop) (Q : B -> C -> Prop) (R : A -> C -> Prop) l1 l2 l3,
  (forall a b c, P a b -> Q b c -> R a c) -> Forall2 P l1 l2 -> Forall2 Q l2 l3 -> Forall2 R l1 l3.
Proof.
  intros A B C P Q R l1 l2 l3 H F. revert l3. induction F; intros l3 G; inversion G; subst.
  - constructor.
  - constructor; eauto.
Qed.
End Facts.

(** ** C31 *)

(** The value creator is called at most once for each key, whatever the
    schedule and whatever the user code does. *)
Theorem C31_started_once : forall V (s : state V) k,
  reachable s -> count (starts s k) s <= 1.
Proof.
  intros V s k H. pose proof (all_inv _ (reach_all _ H)) as I. unfold count. rewrite count_sum.
  destruct (lookup (kmap s) k) as [n|] eqn:E.
  - assert (sum (fun e => b2n (starts s k e)) (log s) <= sum (w_start n) (log s)) as L.
    { apply sum_le. intros e J. destruct e as [m| | | |]; cbn; try lia.
      destruct (nth_error (nodes s) m) as [md|] eqn:Hm; [|cbn; lia].
      destruct (Nat.eqb_spec (nkey md) k) as [K|]; [|cbn; lia].
      pose proof (i_map2 _ I _ _ Hm) as M. rewrite K, E in M. injection M as <-.
      rewrite Nat.eqb_refl. lia. }
    pose proof (i_count _ I n) as C. unfold queuedn in C.
    destruct (nth_error (nodes s) n) as [nd|]; [destruct (nqueued nd); cbn in C; lia|lia].
  - rewrite sum_zero; [lia|]. intros e J. destruct e as [m| | | |]; cbn; auto.
    destruct (nth_error (nodes s) m) as [md|] eqn:Hm; [|reflexivity].
    destruct (Nat.eqb_spec (nkey md) k) as [K|]; [|reflexivity].
    pose proof (i_map2 _ I _ _ Hm) as M. congruence.
Qed.

(** Each consumer that is called gets, for each of its keys and in their order,
    a value that was set for this key. *)
Theorem C31_value_seen : forall V (s : state V) c ks vs,
  reachable s -> In (ERun c vs) (log s) -> requests_keys s c ks ->
  Forall2 (fun k ov => exists n v, ov = Some v /\ of_key s n k /\ In (ESet n v) (log s)) ks vs.
Proof.
  intros V s c ks vs H J [cn [Hc <-]]. pose proof (all_inv _ (reach_all _ H)) as I.
  destruct (i_log _ I _ J) as [cn' [[Hc' F] G]]. assert (cn' = cn) as -> by congruence.
  eapply Forall2_comp; [|exact F|exact G]. cbn.
  intros k n ov [nd [Hn [K _]]] [v [-> JS]]. exists n, v. split; [reflexivity|].
  split; [exists nd; auto|exact JS].
Qed.

(** If the setter of a key is called at most once, all the consumers that
    requested this key get the same value for it. *)
Theorem C31_same_value : forall V (s : state V) k c1 c2 ks1 ks2 vs1 vs2 i1 i2,
  reachable s -> count (sets s k) s <= 1 ->
  In (ERun c1 vs1) (log s) -> requests_keys s c1 ks1 -> nth_error ks1 i1 = Some k ->
  In (ERun c2 vs2) (log s) -> requests_keys s c2 ks2 -> nth_error ks2 i2 = Some k ->
  exists v, nth_error vs1 i1 = Some (Some v) /\ nth_error vs2 i2 = Some (Some v).
Proof.
  intros V s k c1 c2 ks1 ks2 vs1 vs2 i1 i2 H C J1 R1 N1 J2 R2 N2.
  pose proof (C31_value_seen V s c1 ks1 vs1 H J1 R1) as F1.
  pose proof (C31_value_seen V s c2 ks2 vs2 H J2 R2) as F2.
  pose proof (all_inv _ (reach_all _ H)) as I.
  assert (forall ks vs i, Forall2 (fun k ov => exists n v, ov = Some v /\ of_key s n k /\
            In (ESet n v) (log s)) ks vs -> nth_error ks i = Some k ->
          exists n v, nth_error vs i = Some (Some v) /\ of_key s n k /\ In (ESet n v) (log s)) as G.
  { intros ks vs i F. revert i. induction F; intros i N; destruct i; try discriminate; cbn in *.
    - injection N as ->. destruct H0 as [n [v [-> R]]]. exists n, v. tauto.
    - eauto. }
  destruct (G _ _ _ F1 N1) as [n1 [v1 [E1 [K1 S1]]]].
  destruct (G _ _ _ F2 N2) as [n2 [v2 [E2 [K2 S2]]]].
  exists v1. split; [exact E1|]. rewrite E2. do 2 f_equal.
  assert (forall n v, of_key s n k -> sets s k (ESet n v) = true) as ST.
  { intros n v [nd [Hn E]]. cbn. now rewrite Hn, E, Nat.eqb_refl. }
  assert (forall l a b, In a l -> In b l -> length (filter (sets s k) l) <= 1 ->
            sets s k a = true -> sets s k b = true -> a = b) as U.
  { induction l as [|x l IH]; cbn; [tauto|]. intros a b [<-|Ja] [<-|Jb] L Sa Sb; auto.
    - rewrite Sa in L. cbn in L.
      assert (In b (filter (sets s k) l)) as Z by (apply filter_In; auto).
      destruct (filter (sets s k) l); [destruct Z|cbn in L; lia].
    - rewrite Sb in L. cbn in L.
      assert (In a (filter (sets s k) l)) as Z by (apply filter_In; auto).
      destruct (filter (sets s k) l); [destruct Z|cbn in L; lia].
    - apply IH; auto. destruct (sets s k x); cbn in L; lia. }
  pose proof (U (log s) _ _ S1 S2 C (ST _ v1 K1) (ST _ v2 K2)) as E. congruence.
Qed.

(** ** C32 *)

(** For each call, the consumer is called at most once, the failure function
    at most once, and not both. *)
Theorem C32_at_most_once : forall V (s : state V) c,
  reachable s -> count (runs c) s + count (fails c) s <= 1.
Proof.
  intros V s c H. pose proof (reach_all _ H) as [I K _ _]. rewrite runs_sum, fails_sum.
  destruct (Nat.eq_dec (sum (w_failed c) (log s)) 0) as [E|E].
  - rewrite E. pose proof (k_once _ K c). unfold places in *.
    destruct (Nat.ltb c (length (cons s))); cbn in *; lia.
  - assert (failing s c) as F.
    { assert (0 < sum (w_failed c) (log s)) as P by lia. apply sum_pos in P.
      destruct P as [e [J We]]. destruct e as [| | | |c']; cbn in We; try lia.
      destruct (Nat.eqb_spec c c') as [<-|]; [|cbn in We; lia].
      destruct (i_log _ I _ J) as [pos [n [cn [[[Hc _] _] [_ HF]]]]]. exists cn. auto. }
    pose proof (k_fail _ K c F) as KF. pose proof (sum_lost_le s c).
    unfold places, failures in KF. lia.
Qed.

(** A consumer is only called when all of its keys have been set. *)
Theorem C32_run_when_set : forall V (s : state V) c ks vs,
  reachable s -> In (ERun c vs) (log s) -> requests_keys s c ks -> Forall (key_set s) ks.
Proof.
  intros V s c ks vs H J R. pose proof (C31_value_seen V s c ks vs H J R) as F.
  pose proof (reach_vd _ H) as VD.
  pose proof (reach_all _ H) as [I _ _ _].
  destruct R as [cn [Hc <-]].
  destruct (i_log _ I _ J) as [cn' [[Hc' F'] G]]. assert (cn' = cn) as -> by congruence.
  (* at the moment of the call all nodes were ready; a ready node stays so *)
  assert (forall n, In n (cnodes cn) -> nready s n) as RD.
  { clear - H J Hc'. destruct H as [l H].
    assert (forall l (s0 : state V), run init l = Some s0 -> forall c vs cn, In (ERun c vs) (log s0) ->
              nth_error (cons s0) c = Some cn -> forall n, In n (cnodes cn) -> nready s0 n) as G.
    { intros l0 s0 R. assert (All (@init V)) as A0 by apply all_init.
      assert (forall c vs cn, In (ERun c vs) (log (@init V)) ->
        nth_error (cons (@init V)) c = Some cn -> forall n, In n (cnodes cn) -> nready (@init V) n) as B0
        by (intros ? ? ? []).
      revert R A0 B0. generalize (@init V) as si. induction l0 as [|a l0 IH]; intros si R A0 B0.
      - injection R as <-. exact B0.
      - cbn in R. destruct (step si a) as [s1|] eqn:E; [|discriminate].
        apply (IH s1 R); [apply (all_run [a] si s1 A0); cbn; now rewrite E|].
        pose proof (step_ext _ _ _ (all_inv _ A0) E) as X.
        intros c0 vs0 cn0 J0 Hc0 n0 N0.
        assert (In (ERun c0 vs0) (log si) \/ (exists i, a = ATake i /\ nth_error (pool si) i = Some (TConsume c0))) as [D|D].
        { destruct a as [ks h|j ks|j v|j|i|i tid]; cbn in E.
          - injection E as <-. left. unfold start_call in J0. destruct ks; exact J0.
          - destruct (nth_error (acts si) j) as [[m b]|]; [|discriminate]. injection E as <-.
            left. unfold start_call in J0. destruct ks; exact J0.
          - destruct (nth_error (acts si) j) as [[m b]|]; [|discriminate].
            unfold set_value in E. destruct (nth_error _ m) as [nd|]; [|discriminate].
            destruct (nfailed nd); injection E as <-; destruct J0 as [J0|J0]; auto; discriminate.
          - destruct (nth_error (acts si) j) as [[m b]|]; [|discriminate].
            unfold fail_node in E. destruct (nth_error _ m) as [nd|]; [|discriminate].
            destruct (ready nd); [|destruct (nfailed nd)]; injection E as <-; destruct J0 as [J0|J0]; auto; discriminate.
          - unfold take_task in E. destruct (nth_error (pool si) i) as [t|] eqn:Ht; [|discriminate].
            destruct t as [m|c1 pos|c1|c1]; cbn in E.
            + injection E as <-. destruct J0 as [J0|J0]; auto; discriminate.
            + destruct (nth_error (cons si) c1) as [cn1|]; [|discriminate].
              destruct (Nat.eqb pos (length (cnodes cn1))); injection E as <-; auto.
            + destruct (nth_error (cons si) c1) as [cn1|]; [|discriminate].
              destruct (cowner cn1); injection E as <-; destruct J0 as [J0|J0]; auto;
                injection J0 as <- _; right; eauto.
            + destruct (nth_error (cons si) c1) as [cn1|]; [|discriminate].
              destruct (cowner cn1) as [o|].
              * unfold fail_node in E. destruct (nth_error _ o) as [nd|]; [|discriminate].
                destruct (ready nd); [|destruct (nfailed nd)]; injection E as <-; destruct J0 as [J0|J0]; auto; discriminate.
              * injection E as <-. destruct J0 as [J0|J0]; auto; discriminate.
          - left. unfold step_proc in E.
            repeat match type of E with
              | context [match ?x with _ => _ end] => destruct x; try discriminate E
              end; injection E as <-; exact J0. }
        + destruct (i_log _ (all_inv _ A0) _ D) as [cn1 [R1 _]].
          pose proof (x_res _ _ X _ _ R1) as R2. assert (cn1 = cn0) as -> by congruence.
          eapply nready_ext; [exact X|]. destruct R1 as [R1 _]. eapply B0; eauto.
        + destruct D as [i [-> Ht]].
          destruct (i_pool _ (all_inv _ A0) _ (nth_error_In _ _ Ht)) as [cn1 [R1 B1]].
          pose proof (x_res _ _ X _ _ R1) as R2. assert (cn1 = cn0) as -> by congruence.
          eapply nready_ext; [exact X|]. apply In_nth_error in N0. destruct N0 as [i0 N0].
          eapply B1; [|exact N0]. now apply nth_some_lt in N0. }
    intros n N. eapply G; eauto. }
  clear G F. revert RD. induction F' as [|k n ks ns Q F' IH]; intros RD; constructor.
  - destruct Q as [nd [Hn [E _]]]. exists n. split; [exists nd; auto|].
    destruct (RD n (or_introl eq_refl)) as [nd' [Hn' Rn]]. assert (nd' = nd) as -> by congruence.
    rewrite (v_nodes _ VD _ _ Hn). unfold verdict_node. rewrite Rn.
    destruct (nfailed nd) eqn:Fd; [|reflexivity].
    pose proof (wn_excl _ _ _ (i_nodes _ I _ _ Hn) Fd). congruence.
  - apply IH. intros m Jm. apply RD. now right.
Qed.

Lemma at_key : forall {V} (s : state V) c pos n cn, at_node s c pos n cn ->
  exists k, In k (ckeys cn) /\ is_qnode s k n.
Proof.
  intros V s c pos n cn [[_ F] [N _]]. destruct (Forall2_nth _ _ _ _ _ F N) as [k [Hk Q]].
  exists k. split; [eapply nth_error_In; eauto|exact Q].
Qed.

Lemma fail_key : forall {V} (s : state V) k n, Inv s -> Vd s -> is_qnode s k n -> nfail s n ->
  key_failed s k.
Proof.
  intros V s k n I VD [nd [Hn [E _]]] [nd' [Hn' F]]. assert (nd' = nd) as -> by congruence.
  exists n. split; [exists nd; auto|]. rewrite (v_nodes _ VD _ _ Hn). unfold verdict_node.
  now rewrite F.
Qed.

(** A failure function is only called when one of the keys has failed: a fatal
    error was reported for it before its value was set, or a call made on its
    behalf failed. *)
Theorem C32_fail_when_failed : forall V (s : state V) c ks,
  reachable s -> In (EFailed c) (log s) -> requests_keys s c ks ->
  with_handler s c /\ exists k, In k ks /\ key_failed s k.
Proof.
  intros V s c ks H J [cn [Hc <-]]. pose proof (reach_all _ H) as [I _ _ _].
  destruct (i_log _ I _ J) as [pos [n [cn' [A [NF HF]]]]].
  assert (cn' = cn) as -> by (destruct A as [[Hc' _] _]; congruence).
  split.
  - exists cn. split; [exact Hc|]. unfold has_fail in HF.
    destruct (cowner cn); [left; discriminate|right; exact HF].
  - destruct (at_key _ _ _ _ _ A) as [k [Jk Q]]. exists k. split; [exact Jk|].
    eapply fail_key; eauto. now apply reach_vd.
Qed.

(** Once there is nothing left to run, no call has been forgotten: its consumer
    was called, or one of its keys failed and its failure function was called if
    there is one, or one of its keys was neither set nor failed. *)
Theorem C32_not_forgotten : forall V (s : state V) c ks,
  reachable s -> quiet s -> requests_keys s c ks ->
  (exists vs, In (ERun c vs) (log s)) \/
  ((exists k, In k ks /\ key_failed s k) /\ (with_handler s c -> In (EFailed c) (log s))) \/
  (exists k, In k ks /\ key_open s k).
Proof.
  intros V s c ks H Q [cn [Hc <-]]. pose proof (reach_all _ H) as A. pose proof A as [I K _ _].
  pose proof (reach_vd _ H) as VD. destruct Q as [EP EL].
  destruct (Nat.eq_dec (sum (w_run c) (log s)) 0) as [Z|NZ].
  2: { left. assert (0 < sum (w_run c) (log s)) as P by lia. apply sum_pos in P.
       destruct P as [e [J We]]. destruct e as [| | |c' vs|]; cbn in We; try lia.
       destruct (Nat.eqb_spec c c') as [<-|]; [eauto|cbn in We; lia]. }
  right. destruct (Nat.eq_dec (sum (w_await c) (nodes s)) 0) as [Z2|NZ2].
  - left. assert (places s c = 0) as PZ.
    { unfold places. rewrite EP, EL. cbn [sum]. lia. }
    assert (c < length (cons s)) as L by now apply nth_some_lt in Hc.
    destruct (k_drop _ K c L PZ) as [pos [n [cn' [At NF]]]].
    assert (cn' = cn) as -> by (destruct At as [[Hc' _] _]; congruence).
    split.
    + destruct (at_key _ _ _ _ _ At) as [k [Jk Q]]. exists k. split; [exact Jk|].
      eapply fail_key; eauto.
    + intros [cn' [Hc' HH]]. assert (cn' = cn) as -> by congruence.
      assert (failing s c) as F.
      { exists cn. split; [exact Hc|]. unfold has_fail. destruct (cowner cn); [reflexivity|].
        destruct HH; [congruence|assumption]. }
      pose proof (k_fail _ K c F) as KF. rewrite PZ, EP in KF. unfold failures in KF.
      rewrite EL in KF. cbn [sum] in KF.
      assert (0 < sum (w_failed c) (log s)) as P by lia. apply sum_pos in P.
      destruct P as [e [J We]]. destruct e as [| | | |c']; cbn in We; try lia.
      destruct (Nat.eqb_spec c c') as [<-|]; [exact J|cbn in We; lia].
  - right. destruct (rest_parked s c A (conj EP EL)) as [n [nd [pos [Hn [[R F] J]]]]]; [lia|].
    destruct (wn_await _ _ _ (i_nodes _ I _ _ Hn) _ J) as [c' [pos' [cn' [E At]]]].
    injection E as <- <-. assert (cn' = cn) as -> by (destruct At as [[Hc' _] _]; congruence).
    destruct (at_key _ _ _ _ _ At) as [k [Jk [nd' [Hn' [Ek _]]]]].
    assert (nd' = nd) as -> by congruence. exists k. split; [exact Jk|].
    exists n. split; [exists nd; auto|]. rewrite (v_nodes _ VD _ _ Hn). unfold verdict_node.
    now rewrite F, R.
Qed.

(** The library settles by itself: whatever the schedule, it takes only a
    bounded number of steps without new requests or values from the user, and
    as long as something is running or queued every thread and every task can
    take a step (in particular there is no access to missing data). *)
Theorem C32_settles : forall V (s : state V), reachable s ->
  exists bound, forall l s', Forall internal l -> run s l = Some s' ->
    length l <= bound /\
    (forall i tid, i < length (procs s') -> exists s2, step s' (AStep i tid) = Some s2) /\
    (forall i, i < length (pool s') -> exists s2, step s' (ATake i) = Some s2).
Proof.
  intros V s H. pose proof (reach_all _ H) as A. pose proof A as [I _ _ _]. exists (measure s).
  intros l s' F R. pose proof (all_run l s s' A R) as [I' _ _ _].
  split; [pose proof (measure_run _ _ _ I F R); lia|]. split.
  - intros i tid L. apply nth_error_Some in L.
    destruct (nth_error (procs s') i) as [p|] eqn:Hp; [|congruence].
    eapply proc_progress; eauto.
  - intros i L. apply nth_error_Some in L.
    destruct (nth_error (pool s') i) as [t|] eqn:Ht; [|congruence].
    eapply task_progress; eauto.
Qed.

(** ** C33 *)

(** The cycle detection is exact and never accesses anything out of bounds. *)
Theorem C33_exact : forall r, NoDup (map fst r) ->
  match detect_cycle_outcome r with
  | Ret true calls _ => is_lasso r calls /\ has_cycle r
  | Ret false _ _ => ~ has_cycle r
  | Fault | NoFuel => False
  end.
Proof.
  intros r N. pose proof (detect_outcome r N) as D.
  destruct (detect_cycle_outcome r) as [| |[|] calls known]; auto.
  split; [exact D|]. eapply lasso_cycle; eauto.
Qed.

(** The requests the detection is run on are real: each one was made on behalf
    of the first key, for the second one, whose value is not set. *)
Theorem C33_requests_real : forall V (s : state V), reachable s ->
  NoDup (map fst (pending_requests s)) /\
  forall a b, waits_for (pending_requests s) a b ->
    ~ key_set s b /\
    exists c n ks, made_by s c n /\ of_key s n a /\ requests_keys s c ks /\ In b ks.
Proof.
  intros V s H. pose proof (reach_all _ H) as [I _ R _]. pose proof (reach_vd _ H) as VD.
  destruct (pending_requests_spec s) as [N E]. split; [exact N|].
  intros a b W. apply E in W. destruct W as [n [nd [Rc [Hn [Rd K]]]]]. split.
  - intros [m [[md [Hm Km]] VM]]. assert (m = n) as -> by (eapply same_key; eauto; congruence).
    assert (md = nd) as -> by congruence. rewrite (v_nodes _ VD _ _ Hn) in VM.
    unfold verdict_node in VM. rewrite Rd in VM. destruct (nfailed nd); discriminate.
  - destruct (r_only _ R _ _ Rc) as [c [cn [o [ndo [pos [Hc [Ho [Hod [Ka At]]]]]]]]].
    exists c, o, (ckeys cn). split; [exists cn; auto|]. split; [exists ndo; auto|].
    split; [exists cn; auto|].
    destruct (at_key _ _ _ _ _ At) as [k [Jk [nd' [Hn' [Ek _]]]]].
    assert (nd' = nd) as -> by congruence. congruence.
Qed.

(** If nothing is running, all user code has done something, and yet some key
    was neither set nor failed, then this key waits, directly or indirectly, for
    a key on a cycle of requests, and the detection reports a cycle. *)
Theorem C33_stuck_reported : forall V (s : state V) k,
  reachable s -> quiet s -> cooperative s -> key_open s k ->
  (exists k', clos_refl_trans key (waits_for (pending_requests s)) k k' /\
              clos_trans key (waits_for (pending_requests s)) k' k') /\
  exists calls, detect_cycle (pending_requests s) = Some calls.
Proof.
  intros V s k H Q C [n [[nd [Hn <-]] VN]].
  pose proof (reach_all _ H) as A. pose proof (reach_vd _ H) as VD.
  rewrite (v_nodes _ VD _ _ Hn) in VN. unfold verdict_node in VN.
  assert (pending nd) as P.
  { split; destruct (ready nd), (nfailed nd); congruence. }
  assert (forall j m b, nth_error (acts s) j = Some (m, b) -> b = true) as AA.
  { intros j m b E. eapply C. eapply nth_error_In; eauto. }
  destruct (rest_cycle s n A Q AA nd Hn P) as [k' [R1 R2]].
  split; [exists k'; auto|].
  destruct (pending_requests_spec s) as [N _].
  pose proof (C33_exact _ N) as D. unfold detect_cycle.
  destruct (detect_cycle_outcome (pending_requests s)) as [| |[|] calls known]; try contradiction.
  - exists calls. reflexivity.
  - exfalso. apply D. exists k'. exact R2.
Qed.

(** ** Examples *)

(** Run the library until it is quiet, always the first process or task. *)
Fixpoint settle {V} (fuel : nat) (s : state V) : list (action V) :=
  match fuel with
  | 0 => []
  | S f =>
    let a := match procs s with [] => ATake 0 | _ => AStep 0 0 end in
    match step s a with
    | Some s' => a :: settle f s'
    | None => []
    end
  end.
Definition settled {V} (s : state V) (l : list (action V)) : state V :=
  match run s l with
  | Some s1 => match run s1 (settle 100 s1) with Some s2 => s2 | None => init end
  | None => init
  end.

(** Two calls for keys 1 and 2; both creators set their value. *)
Definition ex_s1 := settled (@init nat) [ACall [1; 2] true; ACall [2] false].
Definition ex_ok := settled ex_s1 [ASet 0 10; ASet 1 20].
(** Key 1 needs key 2 and the other way round. *)
Definition ex_cyc := settled ex_s1 [ASub 0 [2]; ASub 1 [1]].
(** Key 2 fails. *)
Definition ex_bad := settled ex_s1 [ASet 0 10; AFatal 1].

Lemma settled_reach : forall V (s : state V) l, reachable s -> reachable (settled s l).
Proof.
  intros V s l [l0 H]. unfold settled.
  assert (forall l1 l2 (a b : state V), run a l1 = Some b -> run a (l1 ++ l2) = run b l2) as RA.
  { induction l1 as [|x l1 IH]; cbn; intros l2 a b E; [now injection E as ->|].
    destruct (step a x); [eauto|discriminate]. }
  destruct (run s l) as [s1|] eqn:E1; [|exists []; reflexivity].
  destruct (run s1 (settle 100 s1)) as [s2|] eqn:E2; [|exists []; reflexivity].
  exists (l0 ++ l ++ settle 100 s1). now rewrite (RA _ _ _ _ H), (RA _ _ _ _ E1).
Qed.

Lemma init_reach : reachable (@init nat).
Proof. exists []. reflexivity. Qed.

Example C31_nonvacuous :
  reachable ex_ok /\ count (starts ex_ok 2) ex_ok = 1 /\ count (sets ex_ok 2) ex_ok = 1 /\
  In (ERun 0 [Some 10; Some 20]) (log ex_ok) /\ requests_keys ex_ok 0 [1; 2] /\
  In (ERun 1 [Some 20]) (log ex_ok) /\ requests_keys ex_ok 1 [2].
Proof.
  split; [now apply settled_reach, settled_reach, init_reach|].
  split; [vm_compute; reflexivity|]. split; [vm_compute; reflexivity|].
  split; [vm_compute; tauto|]. split; [eexists; split; vm_compute; reflexivity|].
  split; [vm_compute; tauto|]. eexists; split; vm_compute; reflexivity.
Qed.

(** Without the condition on the setter the values may differ: the second
    consumer is called after the setter has been called again. *)
Example setter_twice :
  let s := settled (settled ex_s1 [ASet 0 10; ASet 1 20]) [ASet 1 30; ACall [2] false] in
  In (ERun 1 [Some 20]) (log s) /\ In (ERun 2 [Some 30]) (log s).
Proof. vm_compute. tauto. Qed.

Example C32_nonvacuous :
  reachable ex_bad /\ quiet ex_bad /\ with_handler ex_bad 0 /\
  In (EFailed 0) (log ex_bad) /\ requests_keys ex_bad 0 [1; 2] /\
  count (runs 0) ex_bad = 0 /\ count (fails 0) ex_bad = 1 /\
  key_set ex_bad 1 /\ key_failed ex_bad 2 /\
  quiet ex_ok /\ count (runs 0) ex_ok = 1 /\
  quiet ex_s1 /\ key_open ex_s1 1.
Proof.
  split; [now apply settled_reach, settled_reach, init_reach|].
  split; [split; vm_compute; reflexivity|].
  split; [eexists; split; [vm_compute; reflexivity|right; reflexivity]|].
  split; [vm_compute; tauto|].
  split; [eexists; split; vm_compute; reflexivity|].
  split; [vm_compute; reflexivity|]. split; [vm_compute; reflexivity|].
  split; [exists 0; split; [eexists; split; vm_compute; reflexivity|vm_compute; reflexivity]|].
  split; [exists 1; split; [eexists; split; vm_compute; reflexivity|vm_compute; reflexivity]|].
  split; [split; vm_compute; reflexivity|]. split; [vm_compute; reflexivity|].
  split; [split; vm_compute; reflexivity|].
  exists 0; split; [eexists; split; vm_compute; reflexivity|vm_compute; reflexivity].
Qed.

Example C33_nonvacuous :
  reachable ex_cyc /\ quiet ex_cyc /\ cooperative ex_cyc /\ key_open ex_cyc 1 /\
  pending_requests ex_cyc <> [] /\ detect_cycle (pending_requests ex_cyc) = Some [2; 1; 2].
Proof.
  split; [now apply settled_reach, settled_reach, init_reach|].
  split; [split; vm_compute; reflexivity|].
  split; [intros n b J; vm_compute in J; destruct J as [J|[J|[]]]; now injection J|].
  split; [exists 0; split; [eexists; split; vm_compute; reflexivity|vm_compute; reflexivity]|].
  split; [vm_compute; discriminate|]. vm_compute. reflexivity.
Qed.

Print Assumptions C31_started_once.
Print Assumptions C31_value_seen.
Print Assumptions C31_same_value.
Print Assumptions C32_at_most_once.
Print Assumptions C32_run_when_set.
Print Assumptions C32_fail_when_failed.
Print Assumptions C32_not_forgotten.
Print Assumptions C32_settles.
Print Assumptions C33_exact.
Print Assumptions C33_requests_real.
Print Assumptions C33_stuck_reported.
