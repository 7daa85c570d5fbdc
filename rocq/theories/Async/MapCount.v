(** Counting invariant of the asynchronous map: every consumer exists once, as
    a process, a task, a waiter at a node, or having been run; it disappears
    only if one of its keys failed, and then its failure function is called
    once. *)

From Coq Require Import List Arith Bool Lia.
From Verif Require Import Async.Lists Async.Cycle Async.Map Async.MapInv.
Import ListNotations.

Section Count.
Context {V : Type}.
Notation state := (@state V).
Notation node := (@node V).
Implicit Types s : state.

Ltac st := cbn [nodes kmap cons pool procs reqs acts log set_nodes set_node
                set_kmap set_cons set_pool set_procs set_reqs set_acts emit queue acted] in *.

Ltac crush H := repeat match type of H with
  | context [match ?x with _ => _ end] => destruct x eqn:?; try discriminate H
  end.

Lemma fail_node_ext : forall s n s', fail_node s n = Some s' -> ext s s'.
Proof.
  intros s n s' H. unfold fail_node in H. crush H; injection H as <-.
  - apply ext_refl; auto.
  - apply ext_refl; auto.
  - eapply ext_node; st; eauto. repeat split; cbn; auto; congruence.
Qed.

Lemma set_value_ext : forall s n v s', set_value s n v = Some s' -> ext s s'.
Proof.
  intros s n v s' H. unfold set_value in H. crush H; injection H as <-.
  - apply ext_refl; auto.
  - eapply ext_node; st; eauto. repeat split; cbn; auto; congruence.
Qed.

Lemma step_proc_ext : forall s i tid s', Inv s -> step_proc s i tid = Some s' -> ext s s'.
Proof.
  intros s i tid s' I H. unfold step_proc in H.
  destruct (nth_error (procs s) i) as [p|] eqn:Hp; [|discriminate].
  pose proof (i_procs _ I p (nth_error_In _ _ Hp)) as W.
  crush H; injection H as <-;
    try (apply ext_refl; st; auto; fail);
    try (eapply ext_new_node; st; try reflexivity; auto; fail);
    try (eapply ext_node; st; [eassumption|reflexivity| |reflexivity|auto];
         repeat split; cbn; auto; congruence).
  destruct W as [cn' [dn [H' [E [N F]]]]].
  match goal with Hc : nth_error (cons s) ?c = Some ?x |- _ =>
    assert (cn' = x) as -> by congruence end.
  rewrite app_nil_r in E. subst dn.
  eapply ext_resolve; st; eauto.
Qed.

Lemma ext_trans : forall s1 s2 s3, ext s1 s2 -> ext s2 s3 -> ext s1 s3.
Proof.
  intros s1 s2 s3 X Y. constructor.
  - intros n nd H. destruct (x_nodes _ _ X _ _ H) as [nd' [H' [K [Q [R F]]]]].
    destruct (x_nodes _ _ Y _ _ H') as [nd2 [H2 [K2 [Q2 [R2 F2]]]]].
    exists nd2. split; [assumption|]. split; [congruence|]. auto.
  - intros c cn R. eapply x_res; eauto. eapply resolved_ext; eauto.
  - intros c cn H. destruct (x_cons _ _ X _ _ H) as [cn' [H' [K [Q R]]]].
    destruct (x_cons _ _ Y _ _ H') as [cn2 [H2 [K2 [Q2 R2]]]].
    exists cn2. split; [assumption|]. repeat split; congruence.
  - intros. eapply x_log; eauto. eapply x_log; eauto.
Qed.

Lemma step_ext : forall s a s', Inv s -> step s a = Some s' -> ext s s'.
Proof.
  intros s a s' I H. destruct a as [ks h|j ks|j v|j|i|i tid]; cbn in H.
  - injection H as <-. unfold start_call.
    destruct ks; eapply ext_new_cons; st; reflexivity || auto.
  - crush H. injection H as <-. unfold start_call.
    destruct ks; eapply ext_new_cons; st; reflexivity || auto.
  - crush H. eapply ext_trans; [|eapply set_value_ext; eauto].
    apply ext_refl; st; auto. intros; now right.
  - crush H. eapply ext_trans; [|eapply fail_node_ext; eauto].
    apply ext_refl; st; auto. intros; now right.
  - unfold take_task in H. destruct (nth_error (pool s) i) as [t|]; [|discriminate].
    destruct t; st; crush H;
      try (injection H as <-; apply ext_refl; st; auto; intros; now right).
    eapply ext_trans; [|eapply fail_node_ext; eauto].
    apply ext_refl; st; auto. intros; now right.
  - eapply step_proc_ext; eauto.
Qed.

(** ** Weights *)

Definition w_task (c : nat) (t : task) : nat :=
  match t with TWhenAll c' _ | TConsume c' => b2n (Nat.eqb c c') | _ => 0 end.
Definition w_fail (c : nat) (t : task) : nat :=
  match t with TFail c' => b2n (Nat.eqb c c') | _ => 0 end.
Definition w_proc (c : nat) (p : proc) : nat :=
  match p with
  | PEnsure c' _ _ | PAdd c' _ _ _ | PNode c' _ _ _ | PPush c' _ _ _
  | PFail1 c' _ | PFail2 c' _ | PWait1 c' _ | PWait2 c' _ => b2n (Nat.eqb c c')
  | PRecord _ _ => 0
  end.
Definition w_run (c : nat) (e : event V) : nat :=
  match e with ERun c' _ => b2n (Nat.eqb c c') | _ => 0 end.
Definition w_failed (c : nat) (e : event V) : nat :=
  match e with EFailed c' => b2n (Nat.eqb c c') | _ => 0 end.
Definition w_await (c : nat) (nd : node) : nat := sum (w_task c) (nawait nd).

(** Number of places where consumer [c] is. *)
Definition places s (c : nat) : nat :=
  sum (w_proc c) (procs s) + sum (w_task c) (pool s) + sum (w_await c) (nodes s)
  + sum (w_run c) (log s).

(** Number of calls of the failure function of [c], done or queued. *)
Definition failures s (c : nat) : nat :=
  sum (w_fail c) (pool s) + sum (w_failed c) (log s).

Definition node_of s (c pos : nat) : option nat :=
  match nth_error (cons s) c with Some cn => nth_error (cnodes cn) pos | None => None end.

(** Process [p] is consumer [c], which has registered its failure function at
    node [n] and not yet registered as waiting. *)
Definition w_at s (n c : nat) (p : proc) : nat :=
  match p with
  | PWait1 c' pos | PWait2 c' pos =>
      match node_of s c' pos with
      | Some m => if Nat.eqb c c' then b2n (Nat.eqb n m) else 0
      | None => 0
      end
  | _ => 0
  end.

Definition failedn s (n : nat) : nat :=
  match nth_error (nodes s) n with Some nd => b2n (nfailed nd) | None => 0 end.

Definition w_lost s (c : nat) (p : proc) : nat :=
  match p with
  | PWait1 c' pos | PWait2 c' pos =>
      match node_of s c' pos with
      | Some m => if Nat.eqb c c' then failedn s m else 0
      | None => 0
      end
  | _ => 0
  end.

Definition pending (nd : node) : Prop := ready nd = false /\ nfailed nd = false.

Definition dropped s c : Prop :=
  exists pos n cn, at_node s c pos n cn /\ nfail s n.

Record Cnt s : Prop := {
  k_once : forall c, places s c <= b2n (Nat.ltb c (length (cons s)));
  k_reg : forall c n nd, nth_error (nodes s) n = Some nd -> pending nd ->
     failing s c ->
     sum (w_fail c) (nonfail nd) = sum (w_at s n c) (procs s) + w_await c nd;
  k_fail : forall c, failing s c ->
     places s c + failures s c = 1 + sum (w_lost s c) (procs s);
  k_drop : forall c, c < length (cons s) -> places s c = 0 -> dropped s c
}.

Lemma dropped_ext : forall s s' c, ext s s' -> dropped s c -> dropped s' c.
Proof.
  intros s s' c X [pos [n [cn [A N]]]]. exists pos, n, cn.
  split; [eapply at_node_ext; eauto|eapply nfail_ext; eauto].
Qed.

Lemma failing_back : forall s s' c, ext s s' -> c < length (cons s) ->
  failing s' c -> failing s c.
Proof.
  intros s s' c X L [cn' [H' E]].
  destruct (nth_error (cons s) c) as [cn|] eqn:H.
  2:{ apply nth_error_None in H. lia. }
  destruct (x_cons _ _ X _ _ H) as [cn2 [H2 [_ [O C]]]].
  exists cn. split; [exact H|]. assert (cn2 = cn') as -> by congruence.
  unfold has_fail in *. now rewrite O, C in E.
Qed.

Lemma node_of_ext : forall s s' c pos, ext s s' -> located s c pos ->
  node_of s' c pos = node_of s c pos.
Proof.
  intros s s' c pos X [cn [n [R _]]]. unfold node_of.
  rewrite (x_res _ _ X _ _ R). destruct R as [H _]. now rewrite H.
Qed.

Lemma w_at_ext : forall s s' n c p, ext s s' -> wf_proc s p ->
  w_at s' n c p = w_at s n c p.
Proof.
  intros s s' n c p X W. destruct p; cbn in *; auto;
    now rewrite (node_of_ext s s').
Qed.

Lemma sum_at_ext : forall s s' n c, Inv s -> ext s s' ->
  sum (w_at s' n c) (procs s) = sum (w_at s n c) (procs s).
Proof.
  intros s s' n c I X. apply sum_ext. intros p J. apply w_at_ext; auto.
  now apply (i_procs _ I).
Qed.

Lemma w_lost_ext : forall s s' c p, ext s s' -> wf_proc s p ->
  (forall m, m < length (nodes s) -> failedn s' m = failedn s m) ->
  w_lost s' c p = w_lost s c p.
Proof.
  intros s s' c p X W F. destruct p; cbn in *; auto;
    rewrite (node_of_ext s s') by assumption;
    destruct W as [cn [m A]]; unfold node_of;
    destruct A as [R [Hm _]]; destruct R as [Hc Q]; rewrite Hc, Hm;
    rewrite F; auto;
    (assert (In m (cnodes cn)) as J by (eapply nth_error_In; eauto));
    clear - Q J; induction Q; destruct J; subst; auto;
    destruct H as [nd [H _]]; eapply nth_some_lt; eauto.
Qed.

Lemma sum_lost_ext : forall s s' c, Inv s -> ext s s' ->
  (forall m, m < length (nodes s) -> failedn s' m = failedn s m) ->
  sum (w_lost s' c) (procs s) = sum (w_lost s c) (procs s).
Proof.
  intros s s' c I X F. apply sum_ext. intros p J. apply w_lost_ext; auto.
  now apply (i_procs _ I).
Qed.

(** A consumer that does not exist yet is nowhere. *)
Lemma failures_new : forall s c, Inv s -> length (cons s) <= c -> failures s c = 0.
Proof.
  intros s c I L. unfold failures.
  assert (forall c', failed_at s c' -> c' < length (cons s)) as F.
  { intros c' [pos [n [cn [[[H _] _] _]]]]. eapply nth_some_lt; eauto. }
  assert (sum (w_fail c) (pool s) = 0) as ->.
  { apply sum_zero. intros t J. pose proof (i_pool _ I t J) as W. destruct t; cbn in *; auto.
    apply F in W. destruct (Nat.eqb_spec c c0); [lia|reflexivity]. }
  apply sum_zero. intros e J. pose proof (i_log _ I e J) as W. destruct e; cbn in *; auto.
  apply F in W. destruct (Nat.eqb_spec c c0); [lia|reflexivity].
Qed.

Lemma onfail_new : forall s c n nd, Inv s -> length (cons s) <= c ->
  nth_error (nodes s) n = Some nd -> sum (w_fail c) (nonfail nd) = 0.
Proof.
  intros s c n nd I L H. apply sum_zero. intros t J.
  destruct (wn_onfail _ _ _ (i_nodes _ I _ _ H) t J) as [c' [pos [cn [-> [[[Hc _] _] _]]]]].
  cbn. apply nth_some_lt in Hc. destruct (Nat.eqb_spec c c'); [lia|reflexivity].
Qed.

Lemma w_at_le : forall s n c p, w_at s n c p <= w_proc c p.
Proof.
  intros s n c p. destruct p; cbn; try lia;
    destruct (node_of s c0 pos); try lia; destruct (Nat.eqb c c0); cbn; try lia;
    destruct (Nat.eqb n n0); cbn; lia.
Qed.

Lemma w_lost_le : forall s c p, w_lost s c p <= w_proc c p.
Proof.
  intros s c p. destruct p; cbn; try lia;
    destruct (node_of s c0 pos); try lia; destruct (Nat.eqb c c0); cbn; try lia;
    unfold failedn; destruct (nth_error (nodes s) n); try lia; destruct (nfailed n0); cbn; lia.
Qed.

Lemma places_new : forall s c, Cnt s -> length (cons s) <= c -> places s c = 0.
Proof.
  intros s c K L. pose proof (k_once _ K c).
  destruct (Nat.ltb_spec c (length (cons s))); cbn in *; lia.
Qed.

Lemma await_le : forall s n nd c, nth_error (nodes s) n = Some nd ->
  w_await c nd <= sum (w_await c) (nodes s).
Proof. intros. eapply sum_ge; eauto. Qed.

Lemma sum_at_le : forall s n c, sum (w_at s n c) (procs s) <= sum (w_proc c) (procs s).
Proof. intros. apply sum_le. intros. apply w_at_le. Qed.

Lemma sum_lost_le : forall s c, sum (w_lost s c) (procs s) <= sum (w_proc c) (procs s).
Proof. intros. apply sum_le. intros. apply w_lost_le. Qed.

(** ** Preservation *)

Lemma cnt_init : Cnt (@init V).
Proof.
  constructor; cbn.
  - intros c. unfold places. cbn. lia.
  - intros c n nd H. destruct n; discriminate.
  - intros c [cn [H _]]. destruct c; discriminate.
  - intros c L. lia.
Qed.

(** The bookkeeping of user calls does not matter. *)
Lemma cnt_irrel : forall s s', nodes s' = nodes s -> cons s' = cons s ->
  pool s' = pool s -> procs s' = procs s ->
  (forall c, sum (w_run c) (log s') = sum (w_run c) (log s)) ->
  (forall c, sum (w_failed c) (log s') = sum (w_failed c) (log s)) ->
  (forall e, In e (log s) -> In e (log s')) ->
  Cnt s -> Cnt s'.
Proof.
  intros s s' N C P Q R F L K.
  assert (ext s s') as X by now apply ext_refl.
  assert (forall c, places s' c = places s c) as EP
    by (intros c; unfold places; now rewrite N, P, Q, R).
  assert (forall c, failures s' c = failures s c) as EF
    by (intros c; unfold failures; now rewrite P, F).
  assert (forall c, failing s' c -> failing s c) as FB.
  { intros c [cn [H E]]. exists cn. split; [congruence|exact E]. }
  assert (forall n c p, w_at s' n c p = w_at s n c p) as EA.
  { intros n c p. unfold w_at, node_of. now rewrite C. }
  assert (forall c p, w_lost s' c p = w_lost s c p) as EL.
  { intros c p. unfold w_lost, node_of, failedn. now rewrite C, N. }
  constructor.
  - intros c. rewrite EP, C. apply K.
  - intros c n nd H Pn Fl. rewrite Q, (sum_ext _ _ _ (fun p _ => EA n c p)).
    apply (k_reg _ K); auto. congruence.
  - intros c Fl. rewrite EP, EF, Q, (sum_ext _ _ _ (fun p _ => EL c p)).
    apply (k_fail _ K); auto.
  - intros c Lt Z. rewrite EP in Z. rewrite C in Lt.
    eapply dropped_ext; eauto. apply (k_drop _ K); auto.
Qed.

Lemma cnt_start_call : forall s ks owner h, Inv s -> Cnt s ->
  Cnt (start_call s ks owner h).
Proof.
  intros s ks owner h I K. unfold start_call.
  set (c0 := length (cons s)). set (cn0 := mkCons ks owner h []).
  match goal with |- Cnt ?x => set (s' := x) end.
  assert (ext s s') as X
    by (subst s'; destruct ks; eapply ext_new_cons; st; reflexivity || auto).
  assert (nodes s' = nodes s) as EN by (subst s'; now destruct ks).
  assert (cons s' = cons s ++ [cn0]) as EC by (subst s'; now destruct ks).
  assert (log s' = log s) as EL by (subst s'; now destruct ks).
  assert (forall c, sum (w_proc c) (procs s') + sum (w_task c) (pool s')
            = sum (w_proc c) (procs s) + sum (w_task c) (pool s) + b2n (Nat.eqb c c0)) as ET.
  { intros c. subst s'. destruct ks; st; rewrite ?sum_app; cbn; lia. }
  assert (forall c, sum (w_fail c) (pool s') = sum (w_fail c) (pool s)) as EF.
  { intros c. subst s'. destruct ks; st; rewrite ?sum_app; cbn; lia. }
  assert (forall c, places s' c = places s c + b2n (Nat.eqb c c0)) as EP.
  { intros c. unfold places. rewrite EN, EL. specialize (ET c). lia. }
  assert (forall c, failures s' c = failures s c) as EFl.
  { intros c. unfold failures. rewrite EL, EF. reflexivity. }
  assert (forall f, (forall c ks acc, f (PEnsure c ks acc) = 0) ->
            sum f (procs s') = sum f (procs s)) as EQ.
  { intros f Z. subst s'. destruct ks; st; rewrite ?sum_app; cbn; rewrite ?Z; lia. }
  constructor.
  - intros c. rewrite EP, EC, app_length. cbn [length].
    pose proof (k_once _ K c) as O. fold c0 in O. fold c0.
    destruct (Nat.eqb_spec c c0), (Nat.ltb_spec c c0), (Nat.ltb_spec c (c0 + 1));
      cbn in *; lia.
  - intros c n nd H P F. rewrite EN in H. rewrite EQ by reflexivity.
    rewrite (sum_at_ext s s' n c I X).
    destruct (Nat.lt_ge_cases c c0) as [Lt|Ge].
    + apply (k_reg _ K); auto. eapply failing_back; eauto.
    + rewrite (onfail_new s c n nd I Ge H).
      pose proof (places_new s c K Ge) as Z. unfold places in Z.
      pose proof (sum_at_le s n c). pose proof (await_le s n nd c H). lia.
  - intros c F. rewrite EP, EFl, EQ by reflexivity.
    rewrite (sum_lost_ext s s' c I X).
    2:{ intros m _. unfold failedn. now rewrite EN. }
    destruct (Nat.lt_ge_cases c c0) as [Lt|Ge].
    + assert (failing s c) as F' by (eapply failing_back; eauto).
      pose proof (k_fail _ K c F'). destruct (Nat.eqb_spec c c0); cbn; lia.
    + rewrite (failures_new s c I Ge). pose proof (places_new s c K Ge) as Z.
      pose proof (sum_lost_le s c). rewrite Z. unfold places in Z.
      destruct F as [cn [Hc _]]. apply nth_some_lt in Hc. rewrite EC, app_length in Hc.
      cbn in Hc. fold c0 in Hc. destruct (Nat.eqb_spec c c0); cbn; lia.
  - intros c L Z. rewrite EP in Z. rewrite EC, app_length in L. cbn in L. fold c0 in L.
    destruct (Nat.eqb_spec c c0); cbn in Z; [lia|].
    eapply dropped_ext; eauto. apply (k_drop _ K); [fold c0; lia|lia].
Qed.

Lemma sum_fail_await : forall s n nd c, Inv s -> nth_error (nodes s) n = Some nd ->
  sum (w_fail c) (nawait nd) = 0.
Proof.
  intros s n nd c I H. apply sum_zero. intros t J.
  destruct (wn_await _ _ _ (i_nodes _ I _ _ H) t J) as [c' [pos [cn [-> _]]]]. reflexivity.
Qed.

Lemma sum_task_onfail : forall s n nd c, Inv s -> nth_error (nodes s) n = Some nd ->
  sum (w_task c) (nonfail nd) = 0.
Proof.
  intros s n nd c I H. apply sum_zero. intros t J.
  destruct (wn_onfail _ _ _ (i_nodes _ I _ _ H) t J) as [c' [pos [cn [-> _]]]]. reflexivity.
Qed.

Lemma sum_fail_noh : forall s n nd c, Inv s -> nth_error (nodes s) n = Some nd ->
  ~ failing s c -> sum (w_fail c) (nonfail nd) = 0.
Proof.
  intros s n nd c I H NF. apply sum_zero. intros t J.
  destruct (wn_onfail _ _ _ (i_nodes _ I _ _ H) t J) as [c' [pos [cn [-> [A HF]]]]].
  cbn. destruct (Nat.eqb_spec c c'); [|reflexivity]. subst.
  exfalso. apply NF. exists cn. split; [apply A|exact HF].
Qed.

Lemma cnt_set_value : forall s n v s', Inv s -> Cnt s ->
  set_value s n v = Some s' -> Cnt s'.
Proof.
  intros s n v s' I K H. pose proof (set_value_ext _ _ _ _ H) as X. unfold set_value in H.
  destruct (nth_error (nodes s) n) as [nd|] eqn:Hn; [|discriminate].
  destruct (nfailed nd) eqn:F; [injection H as <-; exact K|].
  set (nd' := mkNode (nkey nd) (nqueued nd) (Some v) false [] []) in *.
  injection H as E.
  assert (forall c, places s' c = places s c) as EP.
  { intros c. subst s'. unfold places. st. rewrite sum_app.
    pose proof (sum_upd (w_await c) _ _ _ nd' Hn) as SU.
    change (w_await c nd') with 0 in SU. unfold w_await at 2 in SU. lia. }
  assert (forall c, failures s' c = failures s c) as EF.
  { intros c. subst s'. unfold failures. st. rewrite sum_app.
    rewrite (sum_fail_await s n nd c I Hn). lia. }
  assert (procs s' = procs s /\ cons s' = cons s /\ nodes s' = upd (nodes s) n nd')
    as [EQ [EC EN]] by (subst s'; auto).
  assert (forall m, m < length (nodes s) -> failedn s' m = failedn s m) as EFn.
  { intros m _. unfold failedn. rewrite EN. destruct (Nat.eq_dec n m) as [<-|NE].
    - rewrite nth_upd_same by (eapply nth_some_lt; eauto). rewrite Hn, F. reflexivity.
    - now rewrite nth_upd_other. }
  assert (forall c, failing s' c -> failing s c) as FB.
  { intros c [cn [Hc E']]. exists cn. split; [congruence|exact E']. }
  clear E. constructor.
  - intros c. rewrite EP, EC. apply K.
  - intros c m md H P Fc. rewrite EQ, (sum_at_ext s s' m c I X).
    rewrite EN in H. apply nth_upd in H. destruct H as [[_ [-> _]]|[NE H]].
    + destruct P as [P _]. discriminate.
    + apply (k_reg _ K); auto.
  - intros c Fc. rewrite EP, EF, EQ, (sum_lost_ext s s' c I X EFn).
    apply (k_fail _ K); auto.
  - intros c L Z. rewrite EP in Z. rewrite EC in L. eapply dropped_ext; eauto.
    apply (k_drop _ K); auto.
Qed.

Lemma cnt_fail_node : forall s n s', Inv s -> Cnt s -> fail_node s n = Some s' -> Cnt s'.
Proof.
  intros s n s' I K H. pose proof (fail_node_ext _ _ _ H) as X. unfold fail_node in H.
  destruct (nth_error (nodes s) n) as [nd|] eqn:Hn; [|discriminate].
  destruct (ready nd) eqn:R; [injection H as <-; exact K|].
  destruct (nfailed nd) eqn:F; [injection H as <-; exact K|].
  set (nd' := mkNode (nkey nd) (nqueued nd) (nvalue nd) true [] []) in *.
  injection H as E.
  assert (forall c, places s' c + w_await c nd = places s c) as EP.
  { intros c. subst s'. unfold places. st. rewrite sum_app.
    pose proof (sum_upd (w_await c) _ _ _ nd' Hn) as SU.
    change (w_await c nd') with 0 in SU.
    pose proof (sum_task_onfail s n nd c I Hn). lia. }
  assert (forall c, failures s' c = failures s c + sum (w_fail c) (nonfail nd)) as EF.
  { intros c. subst s'. unfold failures. st. rewrite sum_app. lia. }
  assert (procs s' = procs s /\ cons s' = cons s /\ nodes s' = upd (nodes s) n nd')
    as [EQ [EC EN]] by (subst s'; auto).
  assert (forall c, sum (w_lost s' c) (procs s)
                    = sum (w_lost s c) (procs s) + sum (w_at s n c) (procs s)) as EL.
  { intros c. rewrite <- sum_plus. apply sum_ext. intros p _.
    destruct p; cbn; auto; unfold node_of; rewrite EC;
    destruct (nth_error (cons s) c0) as [cn|]; auto;
    destruct (nth_error (cnodes cn) pos) as [m|]; auto;
    destruct (Nat.eqb c c0); auto; unfold failedn; rewrite EN;
    (destruct (Nat.eqb_spec n m) as [<-|NE];
     [rewrite nth_upd_same by (eapply nth_some_lt; eauto); rewrite Hn, F; reflexivity
     |rewrite nth_upd_other by assumption; cbn; lia]). }
  assert (forall c, failing s' c -> failing s c) as FB.
  { intros c [cn [Hc E']]. exists cn. split; [congruence|exact E']. }
  assert (nfail s' n) as NF.
  { exists nd'. rewrite EN. rewrite nth_upd_same by (eapply nth_some_lt; eauto). auto. }
  assert (pending nd) as Pn by (split; assumption).
  clear E. constructor.
  - intros c. rewrite EC. pose proof (k_once _ K c). specialize (EP c). lia.
  - intros c m md H P Fc. rewrite EQ, (sum_at_ext s s' m c I X).
    rewrite EN in H. apply nth_upd in H. destruct H as [[_ [-> _]]|[NE H]].
    + destruct P as [_ P]. discriminate.
    + apply (k_reg _ K); auto.
  - intros c Fc. apply FB in Fc. rewrite EF, EQ, EL.
    pose proof (k_fail _ K c Fc). pose proof (k_reg _ K c n nd Hn Pn Fc).
    specialize (EP c). lia.
  - intros c L Z. rewrite EC in L. specialize (EP c).
    destruct (w_await c nd) eqn:W.
    + eapply dropped_ext; eauto. apply (k_drop _ K); auto. lia.
    + unfold w_await in W. destruct (sum_pos (w_task c) (nawait nd)) as [t [J P]]; [lia|].
      destruct (wn_await _ _ _ (i_nodes _ I _ _ Hn) t J) as [c' [pos [cn [-> A]]]].
      cbn in P. destruct (Nat.eqb_spec c c') as [<-|]; cbn in P; [|lia].
      exists pos, n, cn. split; [eapply at_node_ext; eauto|exact NF].
Qed.

Definition wopt (f : proc -> nat) (po : option proc) : nat :=
  match po with Some p => f p | None => 0 end.

Lemma sum_replace : forall (f : proc -> nat) l i p po l',
  nth_error l i = Some p ->
  l' = match po with Some p' => upd l i p' | None => del l i end ->
  sum f l' + f p = sum f l + wopt f po.
Proof.
  intros f l i p po l' H ->. destruct po as [p'|]; cbn.
  - apply sum_upd. exact H.
  - pose proof (sum_del f l i p H). lia.
Qed.

(** A step of process [p], which becomes [po] and queues [ts]. *)
Lemma cnt_proc_step : forall s s' i p po ts,
  Inv s -> Cnt s -> ext s s' -> nth_error (procs s) i = Some p ->
  procs s' = match po with Some p' => upd (procs s) i p' | None => del (procs s) i end ->
  pool s' = pool s ++ ts -> log s' = log s -> length (cons s') = length (cons s) ->
  (forall m, m < length (nodes s) -> failedn s' m = failedn s m) ->
  (forall c, wopt (w_proc c) po + sum (w_task c) ts + sum (w_await c) (nodes s')
             <= w_proc c p + sum (w_await c) (nodes s)) ->
  (forall c, failing s c ->
     wopt (w_proc c) po + sum (w_task c) ts + sum (w_await c) (nodes s')
     + sum (w_fail c) ts + w_lost s c p
     = w_proc c p + sum (w_await c) (nodes s) + wopt (w_lost s' c) po) ->
  (forall c n nd', nth_error (nodes s') n = Some nd' -> pending nd' -> failing s c ->
     (exists nd, nth_error (nodes s) n = Some nd /\ pending nd /\
        sum (w_fail c) (nonfail nd') + w_await c nd + w_at s n c p
        = sum (w_fail c) (nonfail nd) + w_await c nd' + wopt (w_at s' n c) po) \/
     (nonfail nd' = [] /\ nawait nd' = [] /\ sum (w_at s' n c) (procs s') = 0)) ->
  (forall c, wopt (w_proc c) po + sum (w_task c) ts + sum (w_await c) (nodes s') = 0 ->
     (w_proc c p = 0 /\ sum (w_await c) (nodes s) = 0) \/ dropped s' c) ->
  Cnt s'.
Proof.
  intros s s' i p po ts I K X Hp EQ ET EL EC EFn A B C D.
  pose proof (i_procs _ I p (nth_error_In _ _ Hp)) as Wp.
  assert (forall c, failing s' c -> failing s c) as FB.
  { intros c F. eapply failing_back; eauto. destruct F as [cn [Hc _]].
    apply nth_some_lt in Hc. lia. }
  assert (forall c, sum (w_proc c) (procs s') + w_proc c p
                    = sum (w_proc c) (procs s) + wopt (w_proc c) po) as SP
    by (intros; eapply sum_replace; eauto).
  assert (forall c, places s' c + w_proc c p + sum (w_await c) (nodes s)
     = places s c + wopt (w_proc c) po + sum (w_task c) ts + sum (w_await c) (nodes s')) as PL.
  { intros c. unfold places. rewrite ET, EL, sum_app. specialize (SP c). lia. }
  assert (forall c, failures s' c = failures s c + sum (w_fail c) ts) as FL.
  { intros c. unfold failures. rewrite ET, EL, sum_app. lia. }
  constructor.
  - intros c. rewrite EC. pose proof (k_once _ K c). specialize (A c). specialize (PL c). lia.
  - intros c n nd' H P F. apply FB in F.
    destruct (C c n nd' H P F) as [[nd [Hn [Pn E]]]|[E1 [E2 E3]]].
    + pose proof (k_reg _ K c n nd Hn Pn F) as R.
      pose proof (sum_replace (w_at s' n c) _ _ _ _ _ Hp EQ) as SA.
      rewrite (sum_at_ext s s' n c I X) in SA.
      rewrite (w_at_ext s s' n c p X Wp) in SA. lia.
    + unfold w_await. rewrite E1, E2, E3. reflexivity.
  - intros c F. apply FB in F. specialize (B c F). pose proof (k_fail _ K c F).
    pose proof (sum_replace (w_lost s' c) _ _ _ _ _ Hp EQ) as SL.
    rewrite (sum_lost_ext s s' c I X EFn) in SL.
    rewrite (w_lost_ext s s' c p X Wp EFn) in SL.
    specialize (PL c). rewrite FL. lia.
  - intros c L Z. rewrite EC in L. specialize (PL c). specialize (A c).
    destruct (D c) as [[Z1 Z2]|Dr].
    + pose proof (k_once _ K c).
      (* the consumer is gone, so what is left of the sum is zero *)
      unfold places in Z, PL. specialize (SP c).
      rewrite ET, EL, sum_app in Z. 
      assert (wopt (w_proc c) po <= sum (w_proc c) (procs s')).
      { rewrite EQ. destruct po as [p'|]; cbn; [|lia].
        eapply sum_In. eapply In_upd_new; eauto. }
      lia.
    + eapply dropped_ext; eauto. apply (k_drop _ K); auto. lia.
    + exact Dr.
Qed.

Lemma failedn_same : forall s s', nodes s' = nodes s ->
  forall m, m < length (nodes s) -> failedn s' m = failedn s m.
Proof. intros s s' E m _. unfold failedn. now rewrite E. Qed.

Lemma failedn_upd : forall s s' n nd nd', nth_error (nodes s) n = Some nd ->
  nodes s' = upd (nodes s) n nd' -> nfailed nd' = nfailed nd ->
  forall m, m < length (nodes s) -> failedn s' m = failedn s m.
Proof.
  intros s s' n nd nd' H E F m _. unfold failedn. rewrite E.
  destruct (Nat.eq_dec n m) as [<-|NE].
  - rewrite nth_upd_same by (eapply nth_some_lt; eauto). now rewrite H, F.
  - now rewrite nth_upd_other.
Qed.

(** Processes that neither wait nor have registered anything. *)
Definition plain (p : proc) : bool :=
  match p with PWait1 _ _ | PWait2 _ _ => false | _ => true end.

Lemma plain_at : forall s n c p, plain p = true -> w_at s n c p = 0.
Proof. intros s n c p. destruct p; cbn; congruence. Qed.
Lemma plain_lost : forall s c p, plain p = true -> w_lost s c p = 0.
Proof. intros s c p. destruct p; cbn; congruence. Qed.

(** A step that moves a plain process on. *)
Lemma cnt_plain : forall s s' i p p' ts,
  Inv s -> Cnt s -> ext s s' -> nth_error (procs s) i = Some p ->
  procs s' = upd (procs s) i p' ->
  pool s' = pool s ++ ts -> log s' = log s -> length (cons s') = length (cons s) ->
  (forall m, m < length (nodes s) -> failedn s' m = failedn s m) ->
  plain p = true -> (forall c, failing s c -> w_proc c p' = 0 \/ plain p' = true) ->
  (forall c, w_proc c p' = w_proc c p) ->
  (forall c, sum (w_task c) ts = 0) -> (forall c, sum (w_fail c) ts = 0) ->
  (forall c, sum (w_await c) (nodes s') = sum (w_await c) (nodes s)) ->
  (forall n nd', nth_error (nodes s') n = Some nd' -> pending nd' ->
     (exists nd, nth_error (nodes s) n = Some nd /\ pending nd /\
        nonfail nd' = nonfail nd /\ nawait nd' = nawait nd) \/
     (nonfail nd' = [] /\ nawait nd' = [] /\ length (nodes s) <= n)) ->
  Cnt s'.
Proof.
  intros s s' i p p' ts I K X Hp EQ ET EL EC EFn P1 P2 EW Z1 Z2 EA N.
  assert (forall n c, failing s c -> w_at s' n c p' = 0) as Z3.
  { intros n c F. destruct (P2 c F) as [Z|P].
    - pose proof (w_at_le s' n c p'). lia.
    - now apply plain_at. }
  assert (forall c, failing s c -> w_lost s' c p' = 0) as Z4.
  { intros c F. destruct (P2 c F) as [Z|P].
    - pose proof (w_lost_le s' c p'). lia.
    - now apply plain_lost. }
  eapply cnt_proc_step with (po := Some p') (ts := ts); eauto; cbn [wopt].
  - intros c. rewrite EW, Z1, EA. lia.
  - intros c F. rewrite EW, Z1, Z2, EA, Z4 by assumption.
    rewrite (plain_lost s c p P1). lia.
  - intros c n nd' H P F.
    destruct (N n nd' H P) as [[nd [Hn [Pn [E1 E2]]]]|[E1 [E2 L]]].
    + left. exists nd. split; [exact Hn|]. split; [exact Pn|].
      unfold w_await. rewrite E1, E2, Z3 by assumption.
      rewrite (plain_at s n c p P1). lia.
    + right. split; [exact E1|]. split; [exact E2|].
      pose proof (sum_upd (w_at s' n c) _ _ _ p' Hp) as SU. rewrite <- EQ in SU.
      rewrite Z3, (plain_at s' n c p P1) in SU by assumption.
      rewrite (sum_at_ext s s' n c I X) in SU.
      assert (sum (w_at s n c) (procs s) = 0) as Z5.
      { apply sum_zero. intros q J. pose proof (i_procs _ I q J) as W.
        destruct q; cbn in *; auto; destruct W as [cn [m [[Hc Fq] [Hm _]]]];
          unfold node_of; rewrite Hc, Hm; destruct (Nat.eqb c c0); auto;
          (destruct (Nat.eqb_spec n m) as [->|]; [|reflexivity]);
          exfalso; (assert (In m (cnodes cn)) as Jm by (eapply nth_error_In; eauto));
          clear - Fq Jm L; induction Fq; destruct Jm; subst; auto;
          destruct H as [nd [H _]]; apply nth_some_lt in H; lia. }
      lia.
  - intros c Z. rewrite EW, Z1, EA in Z. left. lia.
Qed.

Lemma wait_at_failing : forall s c pos cn, nth_error (cons s) c = Some cn ->
  forall c', failing s c' -> w_proc c' (wait_at cn c pos) = 0 \/
                             plain (wait_at cn c pos) = true.
Proof.
  intros s c pos cn H c' [cn' [H' F]]. unfold wait_at. destruct (has_fail cn) eqn:E.
  - now right.
  - left. cbn. destruct (Nat.eqb_spec c' c) as [->|]; [|reflexivity].
    assert (cn' = cn) as -> by congruence. congruence.
Qed.

Lemma w_proc_wait_at : forall c' cn c pos,
  w_proc c' (wait_at cn c pos) = b2n (Nat.eqb c' c).
Proof. intros. unfold wait_at. now destruct (has_fail cn). Qed.

Lemma node_of_at : forall s c pos n cn, nth_error (cons s) c = Some cn ->
  nth_error (cnodes cn) pos = Some n -> node_of s c pos = Some n.
Proof. intros s c pos n cn H E. unfold node_of. now rewrite H. Qed.

Lemma failedn_at : forall s n nd, nth_error (nodes s) n = Some nd ->
  failedn s n = b2n (nfailed nd).
Proof. intros s n nd H. unfold failedn. now rewrite H. Qed.

Lemma cnt_step_proc : forall s i tid s', Inv s -> Cnt s ->
  step_proc s i tid = Some s' -> Cnt s'.
Proof.
  intros s i tid s' I K H. pose proof (step_proc_ext _ _ _ _ I H) as X.
  unfold step_proc in H.
  destruct (nth_error (procs s) i) as [p|] eqn:Hp; [|discriminate].
  pose proof (i_procs _ I p (nth_error_In _ _ Hp)) as W.
  destruct p as [c ks acc|c k ks acc|c n ks acc|c n ks acc|c pos|c pos|c pos|c pos|c pos].
  - destruct ks as [|k ks].
    + destruct (nth_error (cons s) c) as [cn|] eqn:Hc; [|discriminate].
      injection H as <-.
      eapply cnt_plain with (ts := []); [exact I|exact K|exact X|exact Hp|..]; st; eauto;
        rewrite ?app_nil_r; auto.
      * now rewrite upd_length.
      * now apply wait_at_failing with (s := s).
      * intros c'. now rewrite w_proc_wait_at.
      * intros n nd' Hn P. left. exists nd'. auto.
    + destruct (lookup (kmap s) k) as [n|]; injection H as <-;
        (eapply cnt_plain with (ts := []); [exact I|exact K|exact X|exact Hp|..]; st; eauto;
         rewrite ?app_nil_r; auto; intros m nd' Hn P; left; exists nd'; auto).
  - destruct (lookup (kmap s) k) as [n|] eqn:Lk; injection H as <-.
    + eapply cnt_plain with (ts := []); [exact I|exact K|exact X|exact Hp|..]; st; eauto;
         rewrite ?app_nil_r; auto; intros m nd' Hn P; left; exists nd'; auto.
    + eapply cnt_plain with (ts := []); [exact I|exact K|exact X|exact Hp|..]; st; eauto;
         rewrite ?app_nil_r; auto.
      * intros m L. unfold failedn. st. now rewrite nth_error_app1.
      * intros c'. rewrite sum_app. cbn [sum].
        change (w_await c' (mkNode k false None false [] [])) with 0. lia.
      * intros m nd' Hn P. apply nth_app_one in Hn. destruct Hn as [[_ Hn]|[-> ->]].
        -- left. exists nd'. auto.
        -- right. cbn. auto.
  - destruct (nth_error (nodes s) n) as [nd|] eqn:Hn; [|discriminate].
    destruct (nqueued nd) eqn:Q; injection H as <-.
    + eapply cnt_plain with (ts := []); [exact I|exact K|exact X|exact Hp|..]; st; eauto;
         rewrite ?app_nil_r; auto; intros m nd' Hm P; left; exists nd'; auto.
    + eapply cnt_plain with (ts := []); [exact I|exact K|exact X|exact Hp|..]; st; eauto;
         rewrite ?app_nil_r; auto.
      * eapply failedn_upd; st; eauto.
      * intros c'. 
        pose proof (sum_upd (w_await c') _ _ _ (mkNode (nkey nd) true (nvalue nd) (nfailed nd)
                      (nawait nd) (nonfail nd)) Hn) as SU.
        unfold w_await in *. cbn [nawait] in SU. lia.
      * intros m nd' Hm P. left. apply nth_upd in Hm. destruct Hm as [[<- [-> _]]|[_ Hm]].
        -- exists nd. auto.
        -- exists nd'. auto.
  - injection H as <-.
    eapply cnt_plain with (ts := [TCreate n]); [exact I|exact K|exact X|exact Hp|..]; st; eauto;
         rewrite ?app_nil_r; auto; intros m nd' Hn P; left; exists nd'; auto.
  - (* PFail1 *)
    destruct (nth_error (cons s) c) as [cn|] eqn:Hc; [|discriminate].
    destruct (nth_error (cnodes cn) pos) as [n|] eqn:Hpos; [|discriminate].
    destruct (nth_error (nodes s) n) as [nd|] eqn:Hn; [|discriminate].
    injection H as H.
    assert (wn_x : nfailed nd = true -> ready nd = false) by (apply (i_nodes _ I n nd Hn)).
    destruct (ready nd) eqn:R; subst s'.
    + assert (nfailed nd = false) as F by (destruct (nfailed nd); auto; discriminate wn_x; auto).
      eapply cnt_proc_step with (po := Some (PWait1 c pos)) (ts := []);
        [exact I|exact K|exact X|exact Hp|..]; st; eauto;
        rewrite ?app_nil_r; auto; cbn [wopt sum].
      * intros c'. cbn. lia.
      * intros c' _. cbn [w_proc w_lost]. st.
        rewrite (node_of_at _ c pos n cn) by assumption.
        rewrite (failedn_at _ n nd) by assumption. rewrite F. cbn.
        destruct (Nat.eqb c' c); lia.
      * intros c' m nd' Hm P _. left. exists nd'. split; [exact Hm|]. split; [exact P|].
        cbn [w_at]. rewrite (node_of_at _ c pos n cn) by assumption.
        destruct (Nat.eqb_spec m n) as [->|].
        -- assert (nd' = nd) as -> by congruence. destruct P. congruence.
        -- cbn. destruct (Nat.eqb c' c); lia.
      * intros c' Z. left. cbn in *. lia.
    + eapply cnt_plain with (ts := []); [exact I|exact K|exact X|exact Hp|..]; st; eauto;
         rewrite ?app_nil_r; auto; intros m nd' Hm P; left; exists nd'; auto.
  - (* PFail2 *)
    destruct (nth_error (cons s) c) as [cn|] eqn:Hc; [|discriminate].
    destruct (nth_error (cnodes cn) pos) as [n|] eqn:Hpos; [|discriminate].
    destruct (nth_error (nodes s) n) as [nd|] eqn:Hn; [|discriminate].
    destruct (nfailed nd) eqn:F; injection H as <-.
    + eapply cnt_proc_step with (po := Some (PWait1 c pos)) (ts := [TFail c]);
        [exact I|exact K|exact X|exact Hp|..]; st; eauto; cbn [wopt sum].
      * intros c'. cbn. lia.
      * intros c' _. cbn [w_proc w_lost w_task w_fail]. st.
        rewrite (node_of_at _ c pos n cn) by assumption.
        rewrite (failedn_at _ n nd) by assumption. rewrite F. cbn.
        destruct (Nat.eqb c' c); cbn; lia.
      * intros c' m nd' Hm P _. left. exists nd'. split; [exact Hm|]. split; [exact P|].
        cbn [w_at]. rewrite (node_of_at _ c pos n cn) by assumption.
        destruct (Nat.eqb_spec m n) as [->|].
        -- assert (nd' = nd) as -> by congruence. destruct P. congruence.
        -- cbn. destruct (Nat.eqb c' c); lia.
      * intros c' Z. left. cbn in *. lia.
    + set (nd1 := mkNode (nkey nd) (nqueued nd) (nvalue nd) false (nawait nd)
                         (nonfail nd ++ [TFail c])) in *.
      assert (forall c', sum (w_await c') (upd (nodes s) n nd1) = sum (w_await c') (nodes s)) as EA.
      { intros c'. pose proof (sum_upd (w_await c') _ _ _ nd1 Hn) as SU.
        change (w_await c' nd1) with (w_await c' nd) in SU. lia. }
      assert (nth_error (upd (nodes s) n nd1) n = Some nd1) as Hn1
        by (apply nth_upd_same; eapply nth_some_lt; eauto).
      eapply cnt_proc_step with (po := Some (PWait1 c pos)) (ts := []);
        [exact I|exact K|exact X|exact Hp|..]; st; eauto; rewrite ?app_nil_r; auto;
        cbn [wopt sum].
      * eapply failedn_upd with (nd' := nd1); st; eauto.
      * intros c'. rewrite EA. cbn. lia.
      * intros c' _. rewrite EA. cbn [w_proc w_lost]. st.
        rewrite (node_of_at _ c pos n cn) by assumption.
        rewrite (failedn_at _ n nd1) by assumption. cbn.
        destruct (Nat.eqb c' c); cbn; lia.
      * intros c' m nd' Hm P _. left. cbn [w_at].
        rewrite (node_of_at _ c pos n cn) by assumption.
        apply nth_upd in Hm. destruct Hm as [[<- [-> _]]|[NE Hm]].
        -- exists nd. split; [exact Hn|]. split; [split; [apply P|exact F]|].
           cbn [nonfail nd1]. rewrite sum_app. cbn [sum w_fail].
           change (w_await c' nd1) with (w_await c' nd). rewrite Nat.eqb_refl.
           destruct (Nat.eqb c' c); cbn [b2n]; lia.
        -- exists nd'. split; [exact Hm|]. split; [exact P|].
           destruct (Nat.eqb_spec m n); [congruence|]. cbn.
           destruct (Nat.eqb c' c); cbn; lia.
      * intros c' Z. left. rewrite EA in Z. cbn in *. lia.
  - (* PWait1 *)
    destruct (nth_error (cons s) c) as [cn|] eqn:Hc; [|discriminate].
    destruct (nth_error (cnodes cn) pos) as [n|] eqn:Hpos; [|discriminate].
    destruct (nth_error (nodes s) n) as [nd|] eqn:Hn; [|discriminate].
    assert (wn_x : nfailed nd = true -> ready nd = false) by (apply (i_nodes _ I n nd Hn)).
    destruct (ready nd) eqn:R; injection H as <-.
    + assert (nfailed nd = false) as F by (destruct (nfailed nd); auto; discriminate wn_x; auto).
      eapply cnt_proc_step with (po := None) (ts := [TWhenAll c (S pos)]);
        [exact I|exact K|exact X|exact Hp|..]; st; eauto; cbn [wopt sum].
      * intros c'. cbn. lia.
      * intros c' _. cbn [w_proc w_lost w_task w_fail]. st.
        rewrite (node_of_at _ c pos n cn) by assumption.
        rewrite (failedn_at _ n nd) by assumption. rewrite F. cbn.
        destruct (Nat.eqb c' c); cbn; lia.
      * intros c' m nd' Hm P _. left. exists nd'. split; [exact Hm|]. split; [exact P|].
        cbn [w_at]. rewrite (node_of_at _ c pos n cn) by assumption.
        destruct (Nat.eqb_spec m n) as [->|].
        -- assert (nd' = nd) as -> by congruence. destruct P. congruence.
        -- cbn. destruct (Nat.eqb c' c); lia.
      * intros c' Z. left. cbn in *. lia.
    + eapply cnt_proc_step with (po := Some (PWait2 c pos)) (ts := []);
        [exact I|exact K|exact X|exact Hp|..]; st; eauto; rewrite ?app_nil_r; auto;
        cbn [wopt sum].
      * intros c'. cbn. lia.
      * intros c' _. cbn [w_proc].
        change (w_lost (set_procs s (upd (procs s) i (PWait2 c pos))) c' (PWait2 c pos))
          with (w_lost s c' (PWait1 c pos)). lia.
      * intros c' Z. left. cbn in *. lia.
  - (* PWait2 *)
    destruct (nth_error (cons s) c) as [cn|] eqn:Hc; [|discriminate].
    destruct (nth_error (cnodes cn) pos) as [n|] eqn:Hpos; [|discriminate].
    destruct (nth_error (nodes s) n) as [nd|] eqn:Hn; [|discriminate].
    assert (at_node s c pos n cn) as A.
    { destruct W as [cn' [n' A]].
      assert (nth_error (cons s) c = Some cn') as Hc' by apply A.
      assert (cn' = cn) as -> by congruence.
      assert (n' = n) as -> by (destruct A as [_ [A _]]; congruence). exact A. }
    destruct (nfailed nd) eqn:F.
    + set (po := match cowner cn with Some _ => Some (PRecord c pos) | None => None end).
      assert (s' = set_procs s (match po with Some p' => upd (procs s) i p'
                                            | None => del (procs s) i end)) as E.
      { subst po. destruct (cowner cn); injection H as <-; reflexivity. }
      assert (forall c', wopt (w_proc c') po = 0) as Z1
        by (intros; subst po; now destruct (cowner cn)).
      assert (forall c', wopt (w_lost s' c') po = 0) as Z2
        by (intros; subst po; now destruct (cowner cn)).
      assert (forall m c', wopt (w_at s' m c') po = 0) as Z3
        by (intros; subst po; now destruct (cowner cn)).
      clear H. 
      eapply cnt_proc_step with (po := po) (ts := []);
        [exact I|exact K|exact X|exact Hp|..]; try (subst s'; st; rewrite ?app_nil_r; eauto; fail);
        cbn [sum].
      * intros c'. rewrite Z1. subst s'. st. lia.
      * intros c' _. rewrite Z1, Z2. cbn [w_proc w_lost].
        rewrite (node_of_at _ c pos n cn) by assumption.
        rewrite (failedn_at _ n nd) by assumption. rewrite F. subst s'. st. cbn.
        destruct (Nat.eqb c' c); cbn; lia.
      * intros c' m nd' Hm P _. left. exists nd'.
        assert (nth_error (nodes s) m = Some nd') as Hm' by (subst s'; exact Hm).
        split; [exact Hm'|]. split; [exact P|]. rewrite Z3.
        cbn [w_at]. rewrite (node_of_at _ c pos n cn) by assumption.
        destruct (Nat.eqb_spec m n) as [->|].
        -- assert (nd' = nd) as -> by congruence. destruct P. congruence.
        -- cbn. destruct (Nat.eqb c' c); lia.
      * intros c' Z. cbn. destruct (Nat.eqb_spec c' c) as [->|].
        -- right. exists pos, n, cn. split; [eapply at_node_ext; eauto|].
           eapply nfail_ext; eauto. exists nd. auto.
        -- left. subst s'. cbn [nodes set_procs] in Z. cbn. lia.
    + destruct (ready nd) eqn:R.
      * injection H as <-.
        eapply cnt_proc_step with (po := None) (ts := [TWhenAll c (S pos)]);
          [exact I|exact K|exact X|exact Hp|..]; st; eauto; cbn [wopt sum].
        -- intros c'. cbn. lia.
        -- intros c' _. cbn [w_proc w_lost w_task w_fail]. st.
           rewrite (node_of_at _ c pos n cn) by assumption.
           rewrite (failedn_at _ n nd) by assumption. rewrite F. cbn.
           destruct (Nat.eqb c' c); cbn; lia.
        -- intros c' m nd' Hm P _. left. exists nd'. split; [exact Hm|]. split; [exact P|].
           cbn [w_at]. rewrite (node_of_at _ c pos n cn) by assumption.
           destruct (Nat.eqb_spec m n) as [->|].
           ++ assert (nd' = nd) as -> by congruence. destruct P. congruence.
           ++ cbn. destruct (Nat.eqb c' c); lia.
        -- intros c' Z. left. cbn in *. lia.
      * set (nd1 := mkNode (nkey nd) (nqueued nd) (nvalue nd) false
                           (nawait nd ++ [TWhenAll c (S pos)]) (nonfail nd)) in *.
        assert (forall c', w_await c' nd1 = w_await c' nd + b2n (Nat.eqb c' c)) as EW.
        { intros c'. unfold w_await. cbn [nawait nd1]. rewrite sum_app. cbn. lia. }
        assert (forall c', sum (w_await c') (upd (nodes s) n nd1)
                           = sum (w_await c') (nodes s) + b2n (Nat.eqb c' c)) as EA.
        { intros c'. pose proof (sum_upd (w_await c') _ _ _ nd1 Hn) as SU.
          rewrite EW in SU. lia. }
        set (po := match cowner cn with Some _ => Some (PRecord c pos) | None => None end).
        assert (s' = set_procs (set_node s n nd1)
                       (match po with Some p' => upd (procs s) i p'
                                    | None => del (procs s) i end)) as E.
        { subst po. destruct (cowner cn); injection H as <-; reflexivity. }
        assert (forall c', wopt (w_proc c') po = 0) as Z1
          by (intros; subst po; now destruct (cowner cn)).
        assert (forall c', wopt (w_lost s' c') po = 0) as Z2
          by (intros; subst po; now destruct (cowner cn)).
        assert (forall m c', wopt (w_at s' m c') po = 0) as Z3
          by (intros; subst po; now destruct (cowner cn)).
        assert (nodes s' = upd (nodes s) n nd1) as EN by (subst s'; reflexivity).
        clear H.
        eapply cnt_proc_step with (po := po) (ts := []);
          [exact I|exact K|exact X|exact Hp|..];
          try (subst s'; st; rewrite ?app_nil_r; eauto; fail);
          cbn [sum].
        -- eapply failedn_upd with (nd' := nd1); eauto.
        -- intros c'. rewrite Z1, EN, EA. cbn. lia.
        -- intros c' _. rewrite Z1, Z2, EN, EA. cbn [w_proc w_lost].
           rewrite (node_of_at _ c pos n cn) by assumption.
           rewrite (failedn_at _ n nd) by assumption. rewrite F. cbn.
           destruct (Nat.eqb c' c); cbn; lia.
        -- intros c' m nd' Hm P _. left. rewrite Z3. cbn [w_at].
           rewrite (node_of_at _ c pos n cn) by assumption.
           rewrite EN in Hm. apply nth_upd in Hm. destruct Hm as [[<- [-> _]]|[NE Hm]].
           ++ exists nd. split; [exact Hn|]. split; [split; [apply P|exact F]|].
              rewrite EW, Nat.eqb_refl. cbn [nonfail nd1].
              destruct (Nat.eqb c' c); cbn; lia.
           ++ exists nd'. split; [exact Hm|]. split; [exact P|].
              destruct (Nat.eqb_spec m n); [congruence|]. cbn.
              destruct (Nat.eqb c' c); cbn; lia.
        -- intros c' Z. left. rewrite Z1, EN, EA in Z. cbn. lia.
  - (* PRecord *)
    destruct (nth_error (cons s) c) as [cn|] eqn:Hc; [|discriminate].
    destruct (cowner cn) as [o|]; [|discriminate].
    destruct (nth_error (cnodes cn) pos) as [n|] eqn:Hpos; [|discriminate].
    destruct (nth_error (nodes s) o) as [nd|] eqn:Hn; [|discriminate].
    injection H as <-.
    eapply cnt_proc_step with (po := None) (ts := []);
      [exact I|exact K|exact X|exact Hp|..]; st; eauto; rewrite ?app_nil_r; auto;
      cbn [wopt sum].
Qed.

Lemma cnt_take_task : forall s i s', Inv s -> Cnt s -> take_task s i = Some s' -> Cnt s'.
Proof.
  intros s i s' I K H. unfold take_task in H.
  destruct (nth_error (pool s) i) as [t|] eqn:Ht; [|discriminate].
  pose proof (i_pool _ I t (nth_error_In _ _ Ht)) as W.
  pose proof (fun f => sum_del f _ _ _ Ht) as SD.
  destruct t as [n|c pos|c|c]; st.
  - injection H as <-.
    assert (Cnt (set_pool s (del (pool s) i))) as K1.
    { set (s1 := set_pool s (del (pool s) i)).
      assert (forall c, places s1 c = places s c) as EP.
      { intros c. unfold places. subst s1. st. specialize (SD (w_task c)). cbn in SD. lia. }
      assert (forall c, failures s1 c = failures s c) as EF.
      { intros c. unfold failures. subst s1. st. specialize (SD (w_fail c)). cbn in SD. lia. }
      constructor.
      - intros c. rewrite EP. apply K.
      - exact (k_reg _ K).
      - intros c F. rewrite EP, EF. exact (k_fail _ K c F).
      - intros c L Z. rewrite EP in Z. exact (k_drop _ K c L Z). }
    eapply cnt_irrel; [..|exact K1]; st; auto. intros; now right.
  - destruct (nth_error (cons s) c) as [cn|] eqn:Hc; [|discriminate].
    destruct (Nat.eqb pos (length (cnodes cn))); injection H as <-.
    + match goal with |- Cnt ?x => set (s1 := x) end.
      assert (forall c, places s1 c = places s c) as EP.
      { intros c'. unfold places. subst s1. st. rewrite sum_app.
        specialize (SD (w_task c')). cbn in *. lia. }
      assert (forall c, failures s1 c = failures s c) as EF.
      { intros c'. unfold failures. subst s1. st. rewrite sum_app.
        specialize (SD (w_fail c')). cbn in *. lia. }
      constructor.
      * intros c'. rewrite EP. apply K.
      * exact (k_reg _ K).
      * intros c' F. rewrite EP, EF. exact (k_fail _ K c' F).
      * intros c' L Z. rewrite EP in Z. exact (k_drop _ K c' L Z).
    + match goal with |- Cnt ?x => set (s1 := x) end.
      assert (forall c, places s1 c = places s c) as EP.
      { intros c'. unfold places. subst s1. st. rewrite sum_app. cbn [sum].
        rewrite w_proc_wait_at.
        specialize (SD (w_task c')). cbn in *. lia. }
      assert (forall c, failures s1 c = failures s c) as EF.
      { intros c'. unfold failures. subst s1. st.
        specialize (SD (w_fail c')). cbn in *. lia. }
      assert (forall c', failing s c' -> w_proc c' (wait_at cn c pos) = 0 \/
                         plain (wait_at cn c pos) = true) as WF
        by (now apply wait_at_failing).
      constructor.
      * intros c'. rewrite EP. apply K.
      * intros c' n nd H P F. subst s1. st. rewrite sum_app. cbn [sum].
        match goal with |- context [sum (w_at ?x n c') (procs s)] =>
          change (sum (w_at x n c') (procs s)) with (sum (w_at s n c') (procs s));
          assert (w_at x n c' (wait_at cn c pos) = 0) as -> end.
        { destruct (WF c' F) as [Z|Z]; [|now apply plain_at].
          match goal with |- w_at ?x _ _ ?p = 0 => pose proof (w_at_le x n c' p) end. lia. }
        pose proof (k_reg _ K c' n nd H P F). lia.
      * intros c' F. rewrite EP, EF. subst s1. st. rewrite sum_app. cbn [sum].
        match goal with |- context [sum (w_lost ?x c') (procs s)] =>
          change (sum (w_lost x c') (procs s)) with (sum (w_lost s c') (procs s));
          assert (w_lost x c' (wait_at cn c pos) = 0) as -> end.
        { destruct (WF c' F) as [Z|Z]; [|now apply plain_lost].
          match goal with |- w_lost ?x _ ?p = 0 => pose proof (w_lost_le x c' p) end. lia. }
        pose proof (k_fail _ K c' F). lia.
      * intros c' L Z. rewrite EP in Z. exact (k_drop _ K c' L Z).
  - destruct (nth_error (cons s) c) as [cn|] eqn:Hc; [|discriminate].
    match type of H with context [ERun c ?v] => set (vs := v) in * end.
    set (s0 := emit (set_pool s (del (pool s) i)) (ERun c vs)) in *.
    assert (Cnt s0) as K1.
    { assert (forall c, places s0 c = places s c) as EP.
      { intros c'. unfold places. subst s0. st. specialize (SD (w_task c')). cbn in *. lia. }
      assert (forall c, failures s0 c = failures s c) as EF.
      { intros c'. unfold failures. subst s0. st. specialize (SD (w_fail c')). cbn in *. lia. }
      assert (ext s s0) as X by (apply ext_refl; subst s0; st; auto; intros; now right).
      constructor.
      - intros c'. rewrite EP. apply K.
      - exact (k_reg _ K).
      - intros c' F. rewrite EP, EF. exact (k_fail _ K c' F).
      - intros c' L Z. rewrite EP in Z. eapply dropped_ext; [exact X|].
        exact (k_drop _ K c' L Z). }
    destruct (cowner cn) as [o|]; injection H as <-.
    + eapply cnt_irrel; [..|exact K1]; st; auto.
    + exact K1.
  - destruct (nth_error (cons s) c) as [cn|] eqn:Hc; [|discriminate].
    set (s0 := emit (set_pool s (del (pool s) i)) (EFailed c)) in *.
    assert (ext s s0) as X by (apply ext_refl; subst s0; st; auto; intros; now right).
    assert (Cnt s0) as K1.
    { assert (forall c, places s0 c = places s c) as EP.
      { intros c'. unfold places. subst s0. st. specialize (SD (w_task c')). cbn in *. lia. }
      assert (forall c, failures s0 c = failures s c) as EF.
      { intros c'. unfold failures. subst s0. st. specialize (SD (w_fail c')). cbn in *. lia. }
      constructor.
      - intros c'. rewrite EP. apply K.
      - exact (k_reg _ K).
      - intros c' F. rewrite EP, EF. exact (k_fail _ K c' F).
      - intros c' L Z. rewrite EP in Z. eapply dropped_ext; [exact X|].
        exact (k_drop _ K c' L Z). }
    destruct (cowner cn) as [o|] eqn:Ow.
    + eapply cnt_fail_node; [|exact K1|exact H].
      eapply inv_ext; [exact I|exact X|..]; subst s0; st.
      * exact (i_map1 _ I).
      * exact (i_map2 _ I).
      * auto.
      * intros t J. left. eapply In_del; eauto.
      * auto.
      * intros c' cn' o' H1 H2. left. exists cn'. auto.
      * intros n b J. left. exists b. exact J.
      * intros e [<-|J]; [right|now left]. eapply failed_at_ext; eauto.
      * intros m. pose proof (i_count _ I m). specialize (SD (w_create m)). cbn in *.
        unfold queuedn in *. st. lia.
    + injection H as <-. exact K1.
Qed.

Lemma cnt_step : forall s a s', Inv s -> Cnt s -> step s a = Some s' -> Cnt s'.
Proof.
  intros s a s' I K H. destruct a as [ks h|j ks|j v|j|i|i tid]; cbn in H.
  - injection H as <-. now apply cnt_start_call.
  - destruct (nth_error (acts s) j) as [[n b]|] eqn:Ha; [|discriminate].
    injection H as <-. apply cnt_start_call.
    + eapply inv_acted; eauto.
    + eapply cnt_irrel; [..|exact K]; st; auto.
  - destruct (nth_error (acts s) j) as [[n b]|] eqn:Ha; [|discriminate].
    eapply cnt_set_value; [| |exact H].
    + apply (inv_emit_acts s (ESet n v) (upd (acts s) j (n, true)));
        [exact I| |exact Logic.I|reflexivity].
      intros m d J. apply In_upd in J. destruct J as [J|J]; eauto.
      injection J as -> ->. left. exists b. eapply nth_error_In; eauto.
    + eapply cnt_irrel; [..|exact K]; st; auto. intros; now right.
  - destruct (nth_error (acts s) j) as [[n b]|] eqn:Ha; [|discriminate].
    eapply cnt_fail_node; [| |exact H].
    + apply (inv_emit_acts s (EFatal n) (upd (acts s) j (n, true)));
        [exact I| |exact Logic.I|reflexivity].
      intros m d J. apply In_upd in J. destruct J as [J|J]; eauto.
      injection J as -> ->. left. exists b. eapply nth_error_In; eauto.
    + eapply cnt_irrel; [..|exact K]; st; auto. intros; now right.
  - eapply cnt_take_task; eauto.
  - eapply cnt_step_proc; eauto.
Qed.

Lemma cnt_run : forall l s s', Inv s -> Cnt s -> run s l = Some s' -> Inv s' /\ Cnt s'.
Proof.
  induction l as [|a l IH]; cbn; intros s s' I K H.
  - injection H as <-. auto.
  - destruct (step s a) as [s1|] eqn:E; [|discriminate].
    eapply IH; [eapply inv_step; eauto|eapply cnt_step; eauto|exact H].
Qed.

End Count.
