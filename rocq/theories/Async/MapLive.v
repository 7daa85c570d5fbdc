(** Verdicts, progress and termination of the asynchronous map. *)

From Coq Require Import List Arith Bool Lia.
From Verif Require Import Async.Lists Async.Cycle Async.Map Async.MapInv Async.MapCount
  Async.MapQuiet Async.MapAct Async.MapSpec.
Import ListNotations.

Section Live.
Context {V : Type}.
Notation state := (@state V).
Notation node := (@node V).
Implicit Types s : state.

Ltac st := cbn [nodes kmap cons pool procs reqs acts log set_nodes set_node
                set_kmap set_cons set_pool set_procs set_reqs set_acts emit queue acted] in *.

Ltac crush H := repeat match type of H with
  | context [match ?x with _ => _ end] => destruct x eqn:?; try discriminate H
  end.

(** ** Verdicts *)

Definition verdict_node (nd : node) : option bool :=
  if nfailed nd then Some false else if ready nd then Some true else None.

Record Vd s : Prop := {
  v_nodes : forall n nd, nth_error (nodes s) n = Some nd ->
     verdict (cons s) n (log s) = verdict_node nd;
  v_none : forall n, length (nodes s) <= n -> verdict (cons s) n (log s) = None
}.

Lemma verdict_cons : forall (cs cs' : list consumer) n (l : list (event V)),
  (forall c, In (EFailed c) l ->
     match nth_error cs' c with Some cn => cowner cn | None => None end =
     match nth_error cs c with Some cn => cowner cn | None => None end) ->
  verdict cs' n l = verdict cs n l.
Proof.
  induction l as [|e l IH]; intros H; [reflexivity|].
  cbn [verdict]. rewrite IH by (intros; apply H; now right).
  assert (event_verdict cs' n e = event_verdict cs n e) as ->.
  { destruct e as [| | | |c]; try reflexivity. cbn.
    specialize (H c (or_introl eq_refl)).
    destruct (nth_error cs' c) as [a|], (nth_error cs c) as [b|]; auto; try now rewrite H.
    now rewrite <- H. }
  reflexivity.
Qed.

Lemma owner_ext : forall s s' c, Inv s -> ext s s' -> In (EFailed c) (log s) ->
  match nth_error (cons s') c with Some cn => cowner cn | None => None end =
  match nth_error (cons s) c with Some cn => cowner cn | None => None end.
Proof.
  intros s s' c I X J. destruct (i_log _ I _ J) as [pos [n [cn [[[Hc _] _] _]]]].
  destruct (x_cons _ _ X _ _ Hc) as [cn' [Hc' [_ [O _]]]]. now rewrite Hc, Hc'.
Qed.

Lemma verdict_ext : forall s s' n, Inv s -> ext s s' ->
  verdict (cons s') n (log s) = verdict (cons s) n (log s).
Proof. intros s s' n I X. apply verdict_cons. intros c J. now apply owner_ext. Qed.

(** Steps that settle no node. *)
Lemma vd_keep : forall s s', Inv s -> Vd s -> ext s s' ->
  (forall n, verdict (cons s') n (log s') = verdict (cons s') n (log s)) ->
  (forall n nd', nth_error (nodes s') n = Some nd' ->
     (exists nd, nth_error (nodes s) n = Some nd /\ verdict_node nd' = verdict_node nd) \/
     (length (nodes s) <= n /\ verdict_node nd' = None)) ->
  length (nodes s) <= length (nodes s') -> Vd s'.
Proof.
  intros s s' I [A B] X EL EN LE. constructor.
  - intros n nd' H. rewrite EL, (verdict_ext s s' n I X).
    destruct (EN n nd' H) as [[nd [H1 ->]]|[L ->]]; auto.
  - intros n L. rewrite EL, (verdict_ext s s' n I X). apply B. lia.
Qed.

Lemma upd_verdict : forall (ns : list node) n nd nd' m md', nth_error ns n = Some nd ->
  verdict_node nd' = verdict_node nd -> nth_error (upd ns n nd') m = Some md' ->
  exists md, nth_error ns m = Some md /\ verdict_node md' = verdict_node md.
Proof.
  intros ns n nd nd' m md' H Q Hm. apply nth_upd in Hm.
  destruct Hm as [[<- [-> _]]|[_ Hm]]; eauto.
Qed.

Lemma vd_start_call : forall s ks owner h, Inv s -> Vd s -> Vd (start_call s ks owner h).
Proof.
  intros s ks owner h I A.
  assert (forall s', nodes s' = nodes s -> log s' = log s ->
            cons s' = cons s ++ [mkCons ks owner h []] -> Vd s') as G.
  { intros s' EN EL EC. eapply vd_keep; [exact I|exact A|..].
    - eapply ext_new_cons; eauto. intros e. now rewrite EL.
    - intros n. now rewrite EL.
    - intros n nd H. left. exists nd. rewrite EN in H. auto.
    - rewrite EN. lia. }
  unfold start_call. destruct ks; apply G; reflexivity.
Qed.

Lemma vd_step_proc : forall s i tid s', Inv s -> Vd s ->
  step_proc s i tid = Some s' -> Vd s'.
Proof.
  intros s i tid s' I A H. pose proof (step_proc_ext _ _ _ _ I H) as X.
  unfold step_proc in H.
  destruct (nth_error (procs s) i) as [p|] eqn:Hp; [|discriminate].
  destruct p as [c ks acc|c k ks acc|c n ks acc|c n ks acc|c pos|c pos|c pos|c pos|c pos];
    try (destruct ks); crush H; injection H as <-;
    (eapply vd_keep; [exact I|exact A|exact X|reflexivity|st|st; try rewrite upd_length; try rewrite app_length; lia]);
    intros m md Hm;
    try (left; exists md; auto; fail);
    try (left; eapply upd_verdict; [eassumption| |exact Hm]; unfold verdict_node; cbn;
         try match goal with E : nfailed ?x = _ |- _ => rewrite ?E end; reflexivity);
    apply nth_app_one in Hm; destruct Hm as [[_ Hm]|[-> ->]];
    try (left; exists md; auto; fail); right; auto.
Qed.

Definition sets_verdict (e : event V) (n : nat) (b : bool) : Prop :=
  match e with
  | ESet m _ => m = n /\ b = true
  | EFatal m => m = n /\ b = false
  | _ => False
  end.

(** A step that settles node [n]. *)
Lemma vd_settle : forall s s' e n b nd nd', Inv s -> Vd s -> ext s s' ->
  log s' = e :: log s ->
  (forall m, event_verdict (cons s') m e = if Nat.eqb m n then Some b else None) ->
  nth_error (nodes s) n = Some nd -> nodes s' = upd (nodes s) n nd' ->
  verdict_node nd' = match verdict_node nd with Some v => Some v | None => Some b end ->
  Vd s'.
Proof.
  intros s s' e n b nd nd' I [A B] X EL EV Hn EN VN. constructor.
  - intros m md Hm. rewrite EL. cbn [verdict]. rewrite (verdict_ext s s' m I X), EV.
    rewrite EN in Hm. apply nth_upd in Hm. destruct Hm as [[<- [-> _]]|[NE Hm]].
    + rewrite Nat.eqb_refl, (A _ _ Hn). destruct (verdict_node nd); auto.
    + apply not_eq_sym in NE. apply Nat.eqb_neq in NE. rewrite NE, (A _ _ Hm). destruct (verdict_node md); auto.
  - intros m L. rewrite EL. cbn [verdict]. rewrite (verdict_ext s s' m I X), EV.
    rewrite EN, upd_length in L. rewrite (B m L).
    destruct (Nat.eqb_spec m n) as [->|]; [|reflexivity]. apply nth_some_lt in Hn. lia.
Qed.

Lemma upd_same : forall {A} (l : list A) n x, nth_error l n = Some x -> upd l n x = l.
Proof.
  induction l as [|y l IH]; destruct n; cbn; intros x H; try discriminate.
  - now injection H as ->.
  - now rewrite IH.
Qed.

Lemma fail_node_shape : forall s n s', fail_node s n = Some s' ->
  exists nd nd', nth_error (nodes s) n = Some nd /\ nodes s' = upd (nodes s) n nd' /\
    verdict_node nd' = match verdict_node nd with Some v => Some v | None => Some false end /\
    log s' = log s /\ cons s' = cons s.
Proof.
  intros s n s' H. unfold fail_node in H.
  destruct (nth_error (nodes s) n) as [nd|] eqn:Hn; [|discriminate].
  destruct (ready nd) eqn:R; [|destruct (nfailed nd) eqn:F]; injection H as <-.
  - exists nd, nd. rewrite upd_same by exact Hn. unfold verdict_node. rewrite R.
    destruct (nfailed nd); auto.
  - exists nd, nd. rewrite upd_same by exact Hn. unfold verdict_node. rewrite F. auto.
  - eexists nd, _. split; [reflexivity|]. split; [reflexivity|].
    unfold verdict_node. rewrite R, F. cbn. auto.
Qed.

Lemma set_value_shape : forall s n v s', set_value s n v = Some s' ->
  exists nd nd', nth_error (nodes s) n = Some nd /\ nodes s' = upd (nodes s) n nd' /\
    verdict_node nd' = match verdict_node nd with Some v => Some v | None => Some true end /\
    log s' = log s /\ cons s' = cons s.
Proof.
  intros s n v s' H. unfold set_value in H.
  destruct (nth_error (nodes s) n) as [nd|] eqn:Hn; [|discriminate].
  destruct (nfailed nd) eqn:F; injection H as <-.
  - exists nd, nd. rewrite upd_same by exact Hn. unfold verdict_node. rewrite F. auto.
  - eexists nd, _. split; [reflexivity|]. split; [reflexivity|].
    unfold verdict_node. rewrite F. cbn. destruct (ready nd); auto.
Qed.

Lemma vd_step : forall s a s', Inv s -> Vd s -> step s a = Some s' -> Vd s'.
Proof.
  intros s a s' I A H. pose proof (step_ext _ _ _ I H) as X.
  destruct a as [ks h|j ks|j v|j|i|i tid]; cbn in H.
  - injection H as <-. now apply vd_start_call.
  - destruct (nth_error (acts s) j) as [[n b]|] eqn:Ha; [|discriminate].
    injection H as <-. apply vd_start_call.
    + eapply inv_acted; eauto.
    + destruct A as [A B]. constructor; st; auto.
  - destruct (nth_error (acts s) j) as [[n b]|] eqn:Ha; [|discriminate].
    apply set_value_shape in H. destruct H as [nd [nd' [Hn [EN [VN [EL EC]]]]]]. st.
    eapply vd_settle; [exact I|exact A|exact X|exact EL| |exact Hn|exact EN|exact VN].
    reflexivity.
  - destruct (nth_error (acts s) j) as [[n b]|] eqn:Ha; [|discriminate].
    apply fail_node_shape in H. destruct H as [nd [nd' [Hn [EN [VN [EL EC]]]]]]. st.
    eapply vd_settle; [exact I|exact A|exact X|exact EL| |exact Hn|exact EN|exact VN].
    reflexivity.
  - unfold take_task in H. destruct (nth_error (pool s) i) as [t|] eqn:Ht; [|discriminate].
    assert (forall m, match nth_error (nodes s) m with Some nd => True | None => True end) as _
      by (intros m; destruct (nth_error (nodes s) m); trivial).
    assert (forall s1 e, nodes s1 = nodes s -> log s1 = e :: log s \/ log s1 = log s ->
              ext s s1 -> (log s1 = e :: log s -> forall m, event_verdict (cons s1) m e = None) ->
              Vd s1) as G.
    { intros s1 e EN EL X1 EV. eapply vd_keep; [exact I|exact A|exact X1| | |].
      - intros m. destruct EL as [EL|EL]; [|now rewrite EL].
        rewrite EL. cbn. rewrite (EV EL). now destruct (verdict (cons s1) m (log s)).
      - intros m md Hm. left. exists md. rewrite EN in Hm. auto.
      - rewrite EN. lia. }
    destruct t as [n|c pos|c|c]; st.
    + injection H as <-. eapply G; st; eauto; reflexivity.
    + crush H; injection H as <-; (eapply (G _ (EStart 0)); st; eauto; reflexivity).
    + crush H; injection H as <-; (eapply G; st; eauto; reflexivity).
    + destruct (nth_error (cons s) c) as [cn|] eqn:Hc; [|discriminate].
      destruct (cowner cn) as [o|] eqn:Ow.
      * apply fail_node_shape in H. destruct H as [nd [nd' [Hn [EN [VN [EL EC]]]]]]. st.
        eapply vd_settle; [exact I|exact A|exact X|exact EL| |exact Hn|exact EN|exact VN].
        intros m. rewrite EC. cbn. now rewrite Hc, Ow.
      * injection H as <-. eapply G; st; eauto. intros _ m. cbn. now rewrite Hc, Ow.
  - eapply vd_step_proc; eauto.
Qed.

Lemma vd_init : Vd (@init V).
Proof. constructor; cbn; auto. intros n nd H. destruct n; discriminate. Qed.

Lemma vd_run : forall l s s', Inv s -> Vd s -> run s l = Some s' -> Vd s'.
Proof.
  induction l as [|a l IH]; cbn; intros s s' I A H.
  - injection H as <-. exact A.
  - destruct (step s a) as [s1|] eqn:E; [|discriminate].
    eapply IH; [eapply inv_step; eauto|eapply vd_step; eauto|exact H].
Qed.

(** ** Progress *)

Lemma located_node : forall s c pos, located s c pos ->
  exists cn n nd, nth_error (cons s) c = Some cn /\ nth_error (cnodes cn) pos = Some n /\
    nth_error (nodes s) n = Some nd.
Proof.
  intros s c pos [cn [n [[Hc F] [Hp _]]]].
  assert (exists k, is_qnode s k n) as [k [nd [Hn _]]].
  { clear Hc. revert pos Hp. induction F; intros pos Hp; destruct pos; try discriminate.
    - injection Hp as <-. eauto.
    - eauto. }
  eauto 10.
Qed.

Lemma proc_progress : forall s i p tid, Inv s -> nth_error (procs s) i = Some p ->
  exists s', step_proc s i tid = Some s'.
Proof.
  intros s i p tid I H. pose proof (i_procs _ I p (nth_error_In _ _ H)) as W.
  unfold step_proc. rewrite H.
  destruct p as [c ks acc|c k ks acc|c n ks acc|c n ks acc|c pos|c pos|c pos|c pos|c pos]; cbn in W.
  - destruct ks as [|k ks].
    + destruct W as [cn [dn [Hc _]]]. rewrite Hc. eauto.
    + destruct (lookup (kmap s) k); eauto.
  - destruct (lookup (kmap s) k); eauto.
  - destruct W as [k [_ [nd [Hn _]]]]. rewrite Hn. destruct (nqueued nd); eauto.
  - eauto.
  - destruct W as [W _]. destruct (located_node _ _ _ W) as [cn [n [nd [Hc [Hp Hn]]]]].
    rewrite Hc, Hp, Hn. eauto.
  - destruct W as [W _]. destruct (located_node _ _ _ W) as [cn [n [nd [Hc [Hp Hn]]]]].
    rewrite Hc, Hp, Hn. destruct (nfailed nd); eauto.
  - destruct (located_node _ _ _ W) as [cn [n [nd [Hc [Hp Hn]]]]].
    rewrite Hc, Hp, Hn. destruct (ready nd); eauto.
  - destruct (located_node _ _ _ W) as [cn [n [nd [Hc [Hp Hn]]]]].
    rewrite Hc, Hp, Hn. destruct (nfailed nd), (ready nd), (cowner cn); eauto.
  - destruct W as [W [cn0 [o [Hc0 Ho]]]].
    destruct (located_node _ _ _ W) as [cn [n [nd [Hc [Hp Hn]]]]].
    assert (cn0 = cn) as -> by congruence. rewrite Hc, Ho, Hp.
    pose proof (i_log _ I _ (i_owner _ I _ _ _ Hc Ho)) as [k [od [Hod _]]].
    rewrite Hod. eauto.
Qed.

Lemma task_progress : forall s i t, Inv s -> nth_error (pool s) i = Some t ->
  exists s', take_task s i = Some s'.
Proof.
  intros s i t I H. pose proof (i_pool _ I t (nth_error_In _ _ H)) as W.
  unfold take_task. rewrite H. st. destruct t as [n|c pos|c|c]; cbn in W.
  - eauto.
  - destruct W as [cn [[Hc _] _]]. rewrite Hc. destruct (Nat.eqb pos (length (cnodes cn))); eauto.
  - destruct W as [cn [[Hc _] _]]. rewrite Hc. destruct (cowner cn); eauto.
  - destruct W as [pos [n [cn [[[Hc _] _] _]]]]. rewrite Hc.
    destruct (cowner cn) as [o|] eqn:Ho; eauto.
    pose proof (i_log _ I _ (i_owner _ I _ _ _ Hc Ho)) as [k [od [Hod _]]].
    unfold fail_node. st. rewrite Hod. destruct (ready od), (nfailed od); eauto.
Qed.

(** ** Termination *)

Definition klen s (c : nat) : nat :=
  match nth_error (cons s) c with Some cn => length (ckeys cn) | None => 0 end.

Definition m_proc s (p : proc) : nat :=
  match p with
  | PEnsure c ks _ => 10 * klen s c + 2 + 5 * length ks
  | PAdd c _ ks _ => 10 * klen s c + 2 + 5 * length ks + 4
  | PNode c _ ks _ => 10 * klen s c + 2 + 5 * length ks + 3
  | PPush c _ ks _ => 10 * klen s c + 2 + 5 * length ks + 2
  | PFail1 c pos => 10 * (klen s c - pos) + 1
  | PFail2 c pos => 10 * (klen s c - pos)
  | PWait1 c pos => 10 * (klen s c - pos) - 2
  | PWait2 c pos => 10 * (klen s c - pos) - 3
  | PRecord _ _ => 1
  end.
Definition m_task s (t : task) : nat :=
  match t with
  | TWhenAll c pos => 10 * (klen s c - pos) + 2
  | _ => 1
  end.
Definition m_node (nd : node) : nat := length (nonfail nd).
Definition measure s : nat :=
  sum (m_proc s) (procs s) + sum (m_task s) (pool s) + sum m_node (nodes s).

Lemma located_lt : forall s c pos, located s c pos -> pos < klen s c.
Proof.
  intros s c pos [cn [n [[Hc F] [Hp _]]]]. unfold klen. rewrite Hc.
  apply nth_some_lt in Hp. clear Hc. revert pos Hp.
  induction F; cbn; intros pos Hp; [lia|]. destruct pos; [lia|]. specialize (IHF pos). lia.
Qed.

Lemma m_wait_at : forall s cn c pos, m_proc s (wait_at cn c pos) <= 10 * (klen s c - pos) + 1.
Proof. intros s cn c pos. unfold wait_at. destruct (has_fail cn); cbn [m_proc]; lia. Qed.

Lemma measure_same_klen : forall s s', (forall c, klen s' c = klen s c) ->
  (forall p, m_proc s' p = m_proc s p) /\ (forall t, m_task s' t = m_task s t).
Proof.
  intros s s' K. split; intros x; destruct x; cbn [m_proc m_task]; rewrite ?K; reflexivity.
Qed.

Lemma onfail_task : forall s n nd, Inv s -> nth_error (nodes s) n = Some nd ->
  sum (m_task s) (nonfail nd) = length (nonfail nd).
Proof.
  intros s n nd I H.
  assert (forall t, In t (nonfail nd) -> m_task s t = 1) as E.
  { intros t J. destruct (wn_onfail _ _ _ (i_nodes _ I _ _ H) _ J) as [c [pos [cn [-> _]]]].
    reflexivity. }
  induction (nonfail nd) as [|t l IH]; [reflexivity|]. cbn. rewrite IH, E.
  - reflexivity.
  - now left.
  - intros; apply E; now right.
Qed.

Lemma measure_step : forall s a s', Inv s -> internal a -> step s a = Some s' ->
  measure s' < measure s.
Proof.
  intros s a s' I Ia H. destruct a as [ks h|j ks|j v|j|i|i tid]; cbn in Ia; try tauto; cbn in H.
  - unfold take_task in H. destruct (nth_error (pool s) i) as [t|] eqn:Ht; [|discriminate].
    pose proof (sum_del (m_task s) _ _ _ Ht) as SD. st.
    destruct t as [n|c pos|c|c].
    + injection H as <-. unfold measure. st. cbn [m_task] in SD.
      change (m_task (emit _ _)) with (m_task s). change (m_proc (emit _ _)) with (m_proc s). lia.
    + destruct (nth_error (cons s) c) as [cn|]; [|discriminate].
      cbn [m_task] in SD. destruct (Nat.eqb pos (length (cnodes cn))); injection H as <-;
        unfold measure; st.
      * change (m_task (queue _ _)) with (m_task s). change (m_proc (queue _ _)) with (m_proc s).
        rewrite sum_app. cbn [sum m_task]. lia.
      * change (m_task (set_procs _ _)) with (m_task s). change (m_proc (set_procs _ _)) with (m_proc s).
        rewrite sum_app. cbn [sum]. pose proof (m_wait_at s cn c pos). lia.
    + destruct (nth_error (cons s) c) as [cn|]; [|discriminate]. cbn [m_task] in SD.
      destruct (cowner cn); injection H as <-; unfold measure; st.
      * change (m_task (set_acts _ _)) with (m_task s). change (m_proc (set_acts _ _)) with (m_proc s). lia.
      * change (m_task (emit _ _)) with (m_task s). change (m_proc (emit _ _)) with (m_proc s). lia.
    + destruct (nth_error (cons s) c) as [cn|]; [|discriminate]. cbn [m_task] in SD.
      destruct (cowner cn) as [o|].
      * unfold fail_node in H. st. destruct (nth_error (nodes s) o) as [od|] eqn:Ho; [|discriminate].
        destruct (ready od); [|destruct (nfailed od)]; injection H as <-; unfold measure; st.
        -- change (m_task (emit _ _)) with (m_task s). change (m_proc (emit _ _)) with (m_proc s). lia.
        -- change (m_task (emit _ _)) with (m_task s). change (m_proc (emit _ _)) with (m_proc s). lia.
        -- change (m_task (queue _ _)) with (m_task s). change (m_proc (queue _ _)) with (m_proc s).
           rewrite sum_app, (onfail_task s o od I Ho).
           match goal with |- context [upd (nodes s) o ?x] =>
             pose proof (sum_upd m_node _ _ _ x Ho) as SU end.
           unfold m_node in SU at 2 4. cbn [nonfail length] in SU. lia.
      * injection H as <-. unfold measure. st.
        change (m_task (emit _ _)) with (m_task s). change (m_proc (emit _ _)) with (m_proc s). lia.
  - unfold step_proc in H.
    destruct (nth_error (procs s) i) as [p|] eqn:Hp; [|discriminate].
    pose proof (i_procs _ I p (nth_error_In _ _ Hp)) as W.
    pose proof (sum_del (m_proc s) _ _ _ Hp) as SD.
    pose proof (fun p' => sum_upd (m_proc s) _ _ _ p' Hp) as SU.
    assert (forall s1, (forall c, klen s1 c = klen s c) ->
              measure s1 = sum (m_proc s) (procs s1) + sum (m_task s) (pool s1) + sum m_node (nodes s1)) as MS.
    { intros s1 K. destruct (measure_same_klen s s1 K) as [E1 E2]. unfold measure.
      rewrite (sum_ext (m_proc s1) (m_proc s)) by auto.
      rewrite (sum_ext (m_task s1) (m_task s)) by auto. reflexivity. }
    unfold measure.
    destruct p as [c ks acc|c k ks acc|c n ks acc|c n ks acc|c pos|c pos|c pos|c pos|c pos]; cbn in W.
    + destruct ks as [|k ks].
      * destruct (nth_error (cons s) c) as [cn|] eqn:Hc; [|discriminate]. injection H as <-.
        fold (measure (set_procs (set_cons s (upd (cons s) c
                 {| ckeys := ckeys cn; cowner := cowner cn; chandler := chandler cn; cnodes := acc |}))
                 (upd (procs s) i (wait_at cn c 0)))).
        rewrite MS.
        -- st. specialize (SU (wait_at cn c 0)). pose proof (m_wait_at s cn c 0) as M.
           cbn [m_proc length] in SU. lia.
        -- intros c'. unfold klen. st. destruct (nth_error (upd _ _ _) c') as [cn'|] eqn:E.
           ++ apply nth_upd in E. destruct E as [[-> [-> _]]|[_ E]]; [now rewrite Hc|now rewrite E].
           ++ apply nth_error_None in E. rewrite upd_length in E. apply nth_error_None in E.
              now rewrite E.
      * destruct (lookup (kmap s) k); injection H as <-; st;
          change (m_task (set_procs _ _)) with (m_task s); change (m_proc (set_procs _ _)) with (m_proc s).
        -- specialize (SU (PNode c n ks acc)). cbn [m_proc length] in *. lia.
        -- specialize (SU (PAdd c k ks acc)). cbn [m_proc length] in *. lia.
    + destruct (lookup (kmap s) k); injection H as <-; st;
          change (m_task (set_procs _ _)) with (m_task s); change (m_proc (set_procs _ _)) with (m_proc s).
      * specialize (SU (PNode c n ks acc)). cbn [m_proc length] in *. lia.
      * specialize (SU (PNode c (length (nodes s)) ks acc)). rewrite sum_app. cbn [m_proc length sum m_node nonfail] in *. lia.
    + destruct (nth_error (nodes s) n) as [nd|] eqn:Hn; [|discriminate].
      destruct (nqueued nd); injection H as <-; st;
          change (m_task (set_procs _ _)) with (m_task s); change (m_proc (set_procs _ _)) with (m_proc s).
      * specialize (SU (PEnsure c ks (acc ++ [n]))). cbn [m_proc length] in *. lia.
      * specialize (SU (PPush c n ks acc)).
        match goal with |- context [upd (nodes s) n ?x] =>
             pose proof (sum_upd m_node _ _ _ x Hn) as SN end.
        change (m_node {| nkey := nkey nd; nqueued := true; nvalue := nvalue nd;
          nfailed := nfailed nd; nawait := nawait nd; nonfail := nonfail nd |}) with (m_node nd) in SN.
        cbn [m_proc length] in *. lia.
    + injection H as <-. st.
      change (m_task (set_procs _ _)) with (m_task s); change (m_proc (set_procs _ _)) with (m_proc s).
      specialize (SU (PEnsure c ks (acc ++ [n]))). rewrite sum_app. cbn [m_proc length m_task sum] in *. lia.
    + destruct W as [W _]. apply located_lt in W. crush H; injection H as <-; st;
      change (m_task (set_procs _ _)) with (m_task s); change (m_proc (set_procs _ _)) with (m_proc s).
      * specialize (SU (PWait1 c pos)). cbn [m_proc] in *. lia.
      * specialize (SU (PFail2 c pos)). cbn [m_proc] in *. lia.
    + destruct W as [W _]. apply located_lt in W.
      destruct (nth_error (cons s) c) as [cn|] eqn:Hc; [|discriminate].
      destruct (nth_error (cnodes cn) pos) as [n|] eqn:Hpos; [|discriminate].
      destruct (nth_error (nodes s) n) as [nd|] eqn:Hn; [|discriminate].
      specialize (SU (PWait1 c pos)).
      destruct (nfailed nd); injection H as <-; st;
      change (m_task (set_procs _ _)) with (m_task s); change (m_proc (set_procs _ _)) with (m_proc s).
      * rewrite sum_app. cbn [m_proc m_task sum] in *. lia.
      * match goal with |- context [upd (nodes s) n ?x] =>
             pose proof (sum_upd m_node _ _ _ x Hn) as SN end.
        match type of SN with context [m_node (mkNode ?a ?b ?d ?e ?f ?g)] =>
          change (m_node (mkNode a b d e f g)) with (length g) in SN end.
        rewrite app_length in SN. change (length (nonfail nd)) with (m_node nd) in SN.
        cbn [m_proc length] in *. lia.
    + apply located_lt in W. crush H; injection H as <-; st.
      * change (m_task (set_procs _ _)) with (m_task s); change (m_proc (set_procs _ _)) with (m_proc s).
        rewrite sum_app. cbn [m_proc m_task sum] in *. lia.
      * change (m_task (set_procs _ _)) with (m_task s); change (m_proc (set_procs _ _)) with (m_proc s).
        specialize (SU (PWait2 c pos)). cbn [m_proc] in *. lia.
    + apply located_lt in W.
      destruct (nth_error (cons s) c) as [cn|] eqn:Hc; [|discriminate].
      destruct (nth_error (cnodes cn) pos) as [n|] eqn:Hpos; [|discriminate].
      destruct (nth_error (nodes s) n) as [nd|] eqn:Hn; [|discriminate].
      specialize (SU (PRecord c pos)).
      destruct (nfailed nd) eqn:F; [|destruct (ready nd) eqn:R].
      * destruct (cowner cn); injection H as <-; st;
        change (m_task (set_procs _ _)) with (m_task s); change (m_proc (set_procs _ _)) with (m_proc s);
        cbn [m_proc] in *; lia.
      * injection H as <-; st.
        change (m_task (set_procs _ _)) with (m_task s); change (m_proc (set_procs _ _)) with (m_proc s).
        rewrite sum_app. cbn [m_proc m_task sum] in *. lia.
      * set (nd1 := mkNode (nkey nd) (nqueued nd) (nvalue nd) false
                         (nawait nd ++ [TWhenAll c (S pos)]) (nonfail nd)) in *.
        pose proof (sum_upd m_node _ _ _ nd1 Hn) as SN. change (m_node nd1) with (m_node nd) in SN.
        destruct (cowner cn); injection H as <-; st;
        change (m_task (set_procs _ _)) with (m_task s); change (m_proc (set_procs _ _)) with (m_proc s);
        cbn [m_proc] in *; lia.
    + crush H; injection H as <-; st;
        change (m_task (set_procs _ _)) with (m_task s); change (m_proc (set_procs _ _)) with (m_proc s).
      cbn [m_proc] in *. lia.
Qed.

Lemma measure_run : forall l s s', Inv s -> Forall internal l -> run s l = Some s' ->
  measure s' + length l <= measure s.
Proof.
  induction l as [|a l IH]; cbn; intros s s' I F H.
  - injection H as <-. lia.
  - inversion F; subst. destruct (step s a) as [s1|] eqn:E; [|discriminate].
    pose proof (measure_step _ _ _ I H2 E). 
    assert (Inv s1) as I1 by (eapply inv_step; eauto).
    specialize (IH _ _ I1 H3 H). lia.
Qed.

End Live.
