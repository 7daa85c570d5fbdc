(** Structural invariant of the asynchronous map. *)

From Coq Require Import List Arith Bool Lia.
From Verif Require Import Async.Lists Async.Cycle Async.Map.
Import ListNotations.

Section Inv.
Context {V : Type}.
Notation state := (@state V).
Notation node := (@node V).
Implicit Types s : state.

Definition is_node s (k : key) (n : nat) : Prop :=
  exists nd, nth_error (nodes s) n = Some nd /\ nkey nd = k.
Definition is_qnode s (k : key) (n : nat) : Prop :=
  exists nd, nth_error (nodes s) n = Some nd /\ nkey nd = k /\ nqueued nd = true.
Definition nready s (n : nat) : Prop :=
  exists nd, nth_error (nodes s) n = Some nd /\ ready nd = true.
Definition nfail s (n : nat) : Prop :=
  exists nd, nth_error (nodes s) n = Some nd /\ nfailed nd = true.

Definition resolved s (c : nat) (cn : consumer) : Prop :=
  nth_error (cons s) c = Some cn /\ Forall2 (is_qnode s) (ckeys cn) (cnodes cn).
Definition before s (cn : consumer) (pos : nat) : Prop :=
  forall i n, i < pos -> nth_error (cnodes cn) i = Some n -> nready s n.
Definition at_node s c pos n cn : Prop :=
  resolved s c cn /\ nth_error (cnodes cn) pos = Some n /\ before s cn pos.
Definition located s c pos : Prop := exists cn n, at_node s c pos n cn.
Definition collecting s c (ks : list key) (acc : list nat) : Prop :=
  exists cn dn, nth_error (cons s) c = Some cn /\ ckeys cn = dn ++ ks /\
    ckeys cn <> [] /\ Forall2 (is_qnode s) dn acc.
Definition failing s c : Prop :=
  exists cn, nth_error (cons s) c = Some cn /\ has_fail cn = true.
Definition owned s c : Prop :=
  exists cn o, nth_error (cons s) c = Some cn /\ cowner cn = Some o.

Definition wf_proc s (p : proc) : Prop :=
  match p with
  | PEnsure c ks acc => collecting s c ks acc
  | PAdd c k ks acc => collecting s c (k :: ks) acc
  | PNode c n ks acc => exists k, collecting s c (k :: ks) acc /\ is_node s k n
  | PPush c n ks acc => exists k, collecting s c (k :: ks) acc /\ is_qnode s k n
  | PFail1 c pos | PFail2 c pos => located s c pos /\ failing s c
  | PWait1 c pos | PWait2 c pos => located s c pos
  | PRecord c pos => located s c pos /\ owned s c
  end.

(** The failure function of [c] is called because of a failed key. *)
Definition failed_at s c : Prop :=
  exists pos n cn, at_node s c pos n cn /\ nfail s n /\ has_fail cn = true.

Definition wf_task s (t : task) : Prop :=
  match t with
  | TCreate n => exists k, is_qnode s k n
  | TWhenAll c pos =>
      exists cn, resolved s c cn /\ before s cn pos /\ 0 < pos <= length (cnodes cn)
  | TConsume c => exists cn, resolved s c cn /\ before s cn (length (cnodes cn))
  | TFail c => failed_at s c
  end.

Definition wf_await s n (t : task) : Prop :=
  exists c pos cn, t = TWhenAll c (S pos) /\ at_node s c pos n cn.
Definition wf_onfail s n (t : task) : Prop :=
  exists c pos cn, t = TFail c /\ at_node s c pos n cn /\ has_fail cn = true.

Record wf_node s (n : nat) (nd : node) : Prop := {
  wn_await : forall t, In t (nawait nd) -> wf_await s n t;
  wn_onfail : forall t, In t (nonfail nd) -> wf_onfail s n t;
  wn_excl : nfailed nd = true -> ready nd = false;
  wn_ready : ready nd = true -> nawait nd = [];
  wn_failed : nfailed nd = true -> nawait nd = [] /\ nonfail nd = [];
  wn_value : forall v, nvalue nd = Some v -> In (ESet n v) (log s)
}.

Definition wf_event s (e : event V) : Prop :=
  match e with
  | ERun c vs => exists cn, resolved s c cn /\
      Forall2 (fun n ov => exists v, ov = Some v /\ In (ESet n v) (log s)) (cnodes cn) vs
  | EFailed c => failed_at s c
  | EStart n => exists k, is_qnode s k n
  | _ => True
  end.

Definition w_push (n : nat) (p : proc) : nat :=
  match p with PPush _ m _ _ => b2n (Nat.eqb n m) | _ => 0 end.
Definition w_create (n : nat) (t : task) : nat :=
  match t with TCreate m => b2n (Nat.eqb n m) | _ => 0 end.
Definition w_start (n : nat) (e : event V) : nat :=
  match e with EStart m => b2n (Nat.eqb n m) | _ => 0 end.
Definition queuedn s (n : nat) : nat :=
  match nth_error (nodes s) n with Some nd => b2n (nqueued nd) | None => 0 end.

Record Inv s : Prop := {
  i_map1 : forall k n, lookup (kmap s) k = Some n -> is_node s k n;
  i_map2 : forall n nd, nth_error (nodes s) n = Some nd ->
             lookup (kmap s) (nkey nd) = Some n;
  i_procs : forall p, In p (procs s) -> wf_proc s p;
  i_pool : forall t, In t (pool s) -> wf_task s t;
  i_nodes : forall n nd, nth_error (nodes s) n = Some nd -> wf_node s n nd;
  i_owner : forall c cn o, nth_error (cons s) c = Some cn -> cowner cn = Some o ->
              In (EStart o) (log s);
  i_acts : forall n b, In (n, b) (acts s) -> In (EStart n) (log s);
  i_log : forall e, In e (log s) -> wf_event s e;
  i_count : forall n, sum (w_push n) (procs s) + sum (w_create n) (pool s)
                      + sum (w_start n) (log s) = queuedn s n
}.

(** ** Monotonicity *)

Record ext s s' : Prop := {
  x_nodes : forall n nd, nth_error (nodes s) n = Some nd ->
     exists nd', nth_error (nodes s') n = Some nd' /\ nkey nd' = nkey nd /\
       (nqueued nd = true -> nqueued nd' = true) /\
       (ready nd = true -> ready nd' = true) /\
       (nfailed nd = true -> nfailed nd' = true);
  x_res : forall c cn, resolved s c cn -> nth_error (cons s') c = Some cn;
  x_cons : forall c cn, nth_error (cons s) c = Some cn ->
     exists cn', nth_error (cons s') c = Some cn' /\ ckeys cn' = ckeys cn /\
       cowner cn' = cowner cn /\ chandler cn' = chandler cn;
  x_log : forall e, In e (log s) -> In e (log s')
}.

Lemma is_node_ext : forall s s' k n, ext s s' -> is_node s k n -> is_node s' k n.
Proof.
  intros s s' k n X [nd [H K]]. destruct (x_nodes _ _ X _ _ H) as [nd' [H' [K' _]]].
  exists nd'. split; congruence.
Qed.

Lemma is_qnode_ext : forall s s' k n, ext s s' -> is_qnode s k n -> is_qnode s' k n.
Proof.
  intros s s' k n X [nd [H [K Q]]].
  destruct (x_nodes _ _ X _ _ H) as [nd' [H' [K' [Q' _]]]].
  exists nd'. split; [assumption|]. split; [congruence|auto].
Qed.

Lemma nready_ext : forall s s' n, ext s s' -> nready s n -> nready s' n.
Proof.
  intros s s' n X [nd [H Q]].
  destruct (x_nodes _ _ X _ _ H) as [nd' [H' [_ [_ [R _]]]]]. exists nd'. auto.
Qed.

Lemma nfail_ext : forall s s' n, ext s s' -> nfail s n -> nfail s' n.
Proof.
  intros s s' n X [nd [H Q]].
  destruct (x_nodes _ _ X _ _ H) as [nd' [H' [_ [_ [_ R]]]]]. exists nd'. auto.
Qed.

Lemma Forall2_impl2 : forall {A B} (P Q : A -> B -> Prop) l1 l2,
  (forall a b, P a b -> Q a b) -> Forall2 P l1 l2 -> Forall2 Q l1 l2.
Proof. intros A B P Q l1 l2 H F. induction F; constructor; auto. Qed.

Lemma resolved_ext : forall s s' c cn, ext s s' -> resolved s c cn -> resolved s' c cn.
Proof.
  intros s s' c cn X R. split; [eapply x_res; eauto|].
  destruct R as [_ F]. eapply Forall2_impl2; [|exact F].
  intros. eapply is_qnode_ext; eauto.
Qed.

Lemma before_ext : forall s s' cn pos, ext s s' -> before s cn pos -> before s' cn pos.
Proof. intros s s' cn pos X B i n L H. eapply nready_ext; eauto. Qed.

Lemma at_node_ext : forall s s' c pos n cn,
  ext s s' -> at_node s c pos n cn -> at_node s' c pos n cn.
Proof.
  intros s s' c pos n cn X [R [N B]].
  split; [eapply resolved_ext; eauto|]. split; [assumption|eapply before_ext; eauto].
Qed.

Lemma located_ext : forall s s' c pos, ext s s' -> located s c pos -> located s' c pos.
Proof. intros s s' c pos X [cn [n A]]. exists cn, n. eapply at_node_ext; eauto. Qed.

Lemma collecting_ext : forall s s' c ks acc,
  ext s s' -> collecting s c ks acc -> collecting s' c ks acc.
Proof.
  intros s s' c ks acc X [cn [dn [H [E [N F]]]]].
  destruct (x_cons _ _ X _ _ H) as [cn' [H' [K _]]].
  exists cn', dn. rewrite K. repeat split; auto.
  eapply Forall2_impl2; [|exact F]. intros. eapply is_qnode_ext; eauto.
Qed.

Lemma failing_ext : forall s s' c, ext s s' -> failing s c -> failing s' c.
Proof.
  intros s s' c X [cn [H E]]. destruct (x_cons _ _ X _ _ H) as [cn' [H' [K [O L]]]].
  exists cn'. split; [assumption|]. unfold has_fail in *. now rewrite O, L.
Qed.

Lemma owned_ext : forall s s' c, ext s s' -> owned s c -> owned s' c.
Proof.
  intros s s' c X [cn [o [H E]]]. destruct (x_cons _ _ X _ _ H) as [cn' [H' [K [O L]]]].
  exists cn', o. split; [assumption|]. congruence.
Qed.

Lemma failed_at_ext : forall s s' c, ext s s' -> failed_at s c -> failed_at s' c.
Proof.
  intros s s' c X [pos [n [cn [A [N F]]]]]. exists pos, n, cn.
  split; [eapply at_node_ext; eauto|]. split; [eapply nfail_ext; eauto|assumption].
Qed.

Lemma wf_proc_ext : forall s s' p, ext s s' -> wf_proc s p -> wf_proc s' p.
Proof.
  intros s s' p X W. destruct p; cbn in *;
    try (destruct W as [k' [C N]]; exists k'; split;
         [eapply collecting_ext; eauto|
          eapply is_node_ext + eapply is_qnode_ext; eauto]; fail);
    try (eapply collecting_ext; eauto; fail);
    try (eapply located_ext; eauto; fail);
    destruct W as [L F]; split;
      try (eapply located_ext; eauto; fail);
      try (eapply failing_ext; eauto; fail); eapply owned_ext; eauto.
Qed.

Lemma wf_task_ext : forall s s' t, ext s s' -> wf_task s t -> wf_task s' t.
Proof.
  intros s s' t X W. destruct t; cbn in *.
  - destruct W as [k W]. exists k. eapply is_qnode_ext; eauto.
  - destruct W as [cn [R [B L]]]. exists cn.
    split; [eapply resolved_ext; eauto|]. split; [eapply before_ext; eauto|assumption].
  - destruct W as [cn [R B]]. exists cn.
    split; [eapply resolved_ext; eauto|eapply before_ext; eauto].
  - eapply failed_at_ext; eauto.
Qed.

Lemma wf_await_ext : forall s s' n t, ext s s' -> wf_await s n t -> wf_await s' n t.
Proof.
  intros s s' n t X [c [pos [cn [E A]]]]. exists c, pos, cn.
  split; [assumption|eapply at_node_ext; eauto].
Qed.

Lemma wf_onfail_ext : forall s s' n t, ext s s' -> wf_onfail s n t -> wf_onfail s' n t.
Proof.
  intros s s' n t X [c [pos [cn [E [A F]]]]]. exists c, pos, cn.
  split; [assumption|]. split; [eapply at_node_ext; eauto|assumption].
Qed.

Lemma wf_node_ext : forall s s' n nd, ext s s' -> wf_node s n nd -> wf_node s' n nd.
Proof.
  intros s s' n nd X [A B C D E F]. constructor; auto.
  - intros. eapply wf_await_ext; eauto.
  - intros. eapply wf_onfail_ext; eauto.
  - intros. eapply x_log; eauto.
Qed.

Lemma wf_event_ext : forall s s' e, ext s s' -> wf_event s e -> wf_event s' e.
Proof.
  intros s s' e X W. destruct e; cbn in *; auto.
  - destruct W as [k W]. exists k. eapply is_qnode_ext; eauto.
  - destruct W as [cn [R F]]. exists cn. split; [eapply resolved_ext; eauto|].
    eapply Forall2_impl2; [|exact F]. cbn. intros a b [v [E I]]. exists v.
    split; [assumption|eapply x_log; eauto].
  - eapply failed_at_ext; eauto.
Qed.

Lemma ext_refl : forall s s', nodes s' = nodes s -> cons s' = cons s ->
  (forall e, In e (log s) -> In e (log s')) -> ext s s'.
Proof.
  intros s s' N C L. constructor; auto.
  - intros n nd H. exists nd. rewrite N. auto.
  - intros c cn [H _]. now rewrite C.
  - intros c cn H. exists cn. rewrite C. auto.
Qed.

Definition node_le (nd nd' : node) : Prop :=
  nkey nd' = nkey nd /\ (nqueued nd = true -> nqueued nd' = true) /\
  (ready nd = true -> ready nd' = true) /\ (nfailed nd = true -> nfailed nd' = true).

Lemma ext_node : forall s s' n nd nd',
  nth_error (nodes s) n = Some nd -> nodes s' = upd (nodes s) n nd' ->
  node_le nd nd' -> cons s' = cons s ->
  (forall e, In e (log s) -> In e (log s')) -> ext s s'.
Proof.
  intros s s' n nd nd' H N [L1 [L2 [L3 L4]]] C L. constructor; auto.
  - intros m md Hm. rewrite N. destruct (Nat.eq_dec n m) as [<-|NE].
    + exists nd'. rewrite nth_upd_same by (eapply nth_some_lt; eauto).
      assert (md = nd) as -> by congruence. auto.
    + exists md. rewrite nth_upd_other by assumption. auto.
  - intros c cn [Hc _]. now rewrite C.
  - intros c cn Hc. exists cn. rewrite C. auto.
Qed.

Lemma ext_new_node : forall s s' nd,
  nodes s' = nodes s ++ [nd] -> cons s' = cons s ->
  (forall e, In e (log s) -> In e (log s')) -> ext s s'.
Proof.
  intros s s' nd N C L. constructor; auto.
  - intros m md Hm. exists md. rewrite N. split; [now apply nth_app_old|auto].
  - intros c cn [Hc _]. now rewrite C.
  - intros c cn Hc. exists cn. rewrite C. auto.
Qed.

Lemma ext_new_cons : forall s s' cn0,
  nodes s' = nodes s -> cons s' = cons s ++ [cn0] ->
  (forall e, In e (log s) -> In e (log s')) -> ext s s'.
Proof.
  intros s s' cn0 N C L. constructor; auto.
  - intros m md Hm. exists md. rewrite N. auto.
  - intros c cn [Hc _]. rewrite C. now apply nth_app_old.
  - intros c cn Hc. exists cn. rewrite C. split; [now apply nth_app_old|auto].
Qed.

(** Nodes are determined by their keys, so resolving twice gives the same. *)
Lemma node_unique : forall s k n m, Inv s -> is_qnode s k n -> is_qnode s k m -> n = m.
Proof.
  intros s k n m I [nd [H [K _]]] [md [H' [K' _]]].
  apply (i_map2 _ I) in H. apply (i_map2 _ I) in H'. congruence.
Qed.

Lemma nodes_unique : forall s, Inv s -> forall ks l1 l2,
  Forall2 (is_qnode s) ks l1 -> Forall2 (is_qnode s) ks l2 -> l1 = l2.
Proof.
  intros s I ks l1 l2 F. revert l2. induction F; intros l2 G; inversion G; subst; auto.
  f_equal; auto. eapply node_unique; eauto.
Qed.

Lemma ext_resolve : forall s s' c cn acc, Inv s ->
  nth_error (cons s) c = Some cn ->
  Forall2 (is_qnode s) (ckeys cn) acc ->
  nodes s' = nodes s ->
  cons s' = upd (cons s) c (mkCons (ckeys cn) (cowner cn) (chandler cn) acc) ->
  (forall e, In e (log s) -> In e (log s')) -> ext s s'.
Proof.
  intros s s' c cn acc I H F N C L. constructor; auto.
  - intros m md Hm. exists md. rewrite N. auto.
  - intros c' cn' [H' F']. rewrite C. destruct (Nat.eq_dec c c') as [<-|NE].
    + rewrite nth_upd_same by (eapply nth_some_lt; eauto).
      assert (cn' = cn) as -> by congruence.
      rewrite (nodes_unique s I _ _ _ F F'). now destruct cn.
    + now rewrite nth_upd_other by assumption.
  - intros c' cn' H'. rewrite C. destruct (Nat.eq_dec c c') as [<-|NE].
    + rewrite nth_upd_same by (eapply nth_some_lt; eauto).
      assert (cn' = cn) as -> by congruence. eexists. split; [reflexivity|]. auto.
    + rewrite nth_upd_other by assumption. eauto.
Qed.

(** ** Preservation *)

(** Everything that was well formed stays so; what is new has to be checked. *)
Lemma inv_ext : forall s s', Inv s -> ext s s' ->
  (forall k n, lookup (kmap s') k = Some n -> is_node s' k n) ->
  (forall n nd, nth_error (nodes s') n = Some nd -> lookup (kmap s') (nkey nd) = Some n) ->
  (forall p, In p (procs s') -> In p (procs s) \/ wf_proc s' p) ->
  (forall t, In t (pool s') -> In t (pool s) \/ wf_task s' t) ->
  (forall n nd, nth_error (nodes s') n = Some nd ->
     nth_error (nodes s) n = Some nd \/ wf_node s' n nd) ->
  (forall c cn o, nth_error (cons s') c = Some cn -> cowner cn = Some o ->
     (exists cn0, nth_error (cons s) c = Some cn0 /\ cowner cn0 = Some o) \/
     In (EStart o) (log s')) ->
  (forall n b, In (n, b) (acts s') -> (exists b', In (n, b') (acts s)) \/
     In (EStart n) (log s')) ->
  (forall e, In e (log s') -> In e (log s) \/ wf_event s' e) ->
  (forall n, sum (w_push n) (procs s') + sum (w_create n) (pool s')
             + sum (w_start n) (log s') = queuedn s' n) ->
  Inv s'.
Proof.
  intros s s' I X M1 M2 P T N O A E C. constructor; auto.
  - intros p H. destruct (P p H); auto. eapply wf_proc_ext; eauto. now apply i_procs.
  - intros t H. destruct (T t H); auto. eapply wf_task_ext; eauto. now apply i_pool.
  - intros n nd H. destruct (N n nd H); auto. eapply wf_node_ext; eauto.
    now apply i_nodes.
  - intros c cn o H Ho. destruct (O c cn o H Ho) as [[cn0 [H0 Ho0]]|]; auto.
    eapply x_log; eauto. eapply i_owner; eauto.
  - intros n b H. destruct (A n b H) as [[b' Hb]|]; auto.
    eapply x_log; eauto. eapply i_acts; eauto.
  - intros e H. destruct (E e H); auto. eapply wf_event_ext; eauto. now apply i_log.
Qed.

Lemma inv_init : Inv (@init V).
Proof.
  constructor; cbn; try discriminate; try tauto.
  - intros n nd H. destruct n; discriminate.
  - intros n nd H. destruct n; discriminate.
  - intros c cn o H. destruct c; discriminate.
  - intros n. unfold queuedn. cbn. destruct n; reflexivity.
Qed.

Ltac st := cbn [nodes kmap cons pool procs reqs acts log set_nodes set_node
                set_kmap set_cons set_pool set_procs set_reqs set_acts emit queue acted] in *.

(** Side conditions that hold because a component is unchanged. *)
Ltac same I :=
  first [ exact (i_map1 _ I) | exact (i_map2 _ I) | intros ? ?; left; assumption
        | intros ? ? ?; left; assumption
        | let c := fresh in let cn := fresh in let o := fresh in
          intros c cn o ? ?; left; exists cn; split; assumption
        | let n := fresh in let b := fresh in
          intros n b ?; left; exists b; assumption
        | exact (i_count _ I)
        | intros; assumption ].

Lemma In_app_one : forall {A} (l : list A) x y, In y (l ++ [x]) -> In y l \/ y = x.
Proof.
  intros A l x y H. apply in_app_iff in H. cbn in H. intuition.
Qed.

Lemma inv_start_call : forall s ks owner h, Inv s ->
  (forall o, owner = Some o -> In (EStart o) (log s)) ->
  Inv (start_call s ks owner h).
Proof.
  intros s ks owner h I O. unfold start_call.
  set (cn0 := mkCons ks owner h []).
  assert (nth_error (cons s ++ [cn0]) (length (cons s)) = Some cn0) as Hn
    by apply nth_app_new.
  destruct ks as [|k ks].
  - eapply inv_ext; st; try same I; eauto.
    + eapply ext_new_cons; st; reflexivity || auto.
    + intros t H. apply In_app_one in H. destruct H as [H| ->]; [now left|right].
      cbn. exists cn0. split; [split; [exact Hn|constructor]|].
      intros i n L. cbn in L. lia.
    + intros c cn o H Ho. apply nth_app_one in H. destruct H as [[_ H]|[_ ->]]; eauto.
    + intros n. rewrite sum_app. cbn. pose proof (i_count _ I n).
      unfold queuedn in *. st. lia.
  - eapply inv_ext; st; try same I; eauto.
    + eapply ext_new_cons; st; reflexivity || auto.
    + intros p H. apply In_app_one in H. destruct H as [H| ->]; [now left|right].
      cbn. exists cn0, []. split; [exact Hn|]. split; [reflexivity|].
      split; [discriminate|constructor].
    + intros c cn o H Ho. apply nth_app_one in H. destruct H as [[_ H]|[_ ->]]; eauto.
    + intros n. rewrite sum_app. cbn. pose proof (i_count _ I n).
      unfold queuedn in *. st. lia.
Qed.

Lemma inv_emit_acts : forall s e a, Inv s ->
  (forall n b, In (n, b) a -> (exists b', In (n, b') (acts s)) \/ In (EStart n) (e :: log s)) ->
  wf_event (emit (set_acts s a) e) e -> (forall n, w_start n e = 0) ->
  Inv (emit (set_acts s a) e).
Proof.
  intros s e a I A W C. eapply inv_ext; st; try same I; eauto.
  - apply ext_refl; st; auto. intros; now right.
  - intros e' [<-|H]; [now right|now left].
  - intros n. cbn. rewrite C. exact (i_count _ I n).
Qed.

Lemma queuedn_upd : forall s n nd nd' m, nth_error (nodes s) n = Some nd ->
  nqueued nd' = nqueued nd ->
  match nth_error (upd (nodes s) n nd') m with Some d => b2n (nqueued d) | None => 0 end
  = queuedn s m.
Proof.
  intros s n nd nd' m H Q. unfold queuedn. destruct (Nat.eq_dec n m) as [<-|N].
  - rewrite nth_upd_same by (eapply nth_some_lt; eauto). now rewrite H, Q.
  - now rewrite nth_upd_other.
Qed.

Lemma map1_upd : forall s n nd nd', Inv s -> nth_error (nodes s) n = Some nd ->
  nkey nd' = nkey nd ->
  forall k m, lookup (kmap s) k = Some m ->
    exists d, nth_error (upd (nodes s) n nd') m = Some d /\ nkey d = k.
Proof.
  intros s n nd nd' I H K k m L. destruct (i_map1 _ I _ _ L) as [d [Hd Kd]].
  destruct (Nat.eq_dec n m) as [<-|N].
  - exists nd'. rewrite nth_upd_same by (eapply nth_some_lt; eauto).
    split; [reflexivity|]. congruence.
  - exists d. rewrite nth_upd_other; auto.
Qed.

Lemma map2_upd : forall s n nd nd', Inv s -> nth_error (nodes s) n = Some nd ->
  nkey nd' = nkey nd ->
  forall m d, nth_error (upd (nodes s) n nd') m = Some d ->
    lookup (kmap s) (nkey d) = Some m.
Proof.
  intros s n nd nd' I H K m d L. apply nth_upd in L.
  destruct L as [[<- [-> _]]|[_ L]].
  - rewrite K. exact (i_map2 _ I _ _ H).
  - exact (i_map2 _ I _ _ L).
Qed.

Lemma sum_create_await : forall s n nd m, Inv s -> nth_error (nodes s) n = Some nd ->
  sum (w_create m) (nawait nd) = 0.
Proof.
  intros s n nd m I H. apply sum_zero. intros t T.
  destruct (wn_await _ _ _ (i_nodes _ I _ _ H) t T) as [c [pos [cn [-> _]]]]. reflexivity.
Qed.

Lemma sum_create_onfail : forall s n nd m, Inv s -> nth_error (nodes s) n = Some nd ->
  sum (w_create m) (nonfail nd) = 0.
Proof.
  intros s n nd m I H. apply sum_zero. intros t T.
  destruct (wn_onfail _ _ _ (i_nodes _ I _ _ H) t T) as [c [pos [cn [-> _]]]]. reflexivity.
Qed.

Lemma inv_set_value : forall s n v s', Inv s -> In (ESet n v) (log s) ->
  set_value s n v = Some s' -> Inv s'.
Proof.
  intros s n v s' I L H. unfold set_value in H.
  destruct (nth_error (nodes s) n) as [nd|] eqn:Hn; [|discriminate].
  destruct (nfailed nd) eqn:F; [injection H as <-; exact I|]. injection H as <-.
  set (nd' := mkNode (nkey nd) (nqueued nd) (Some v) false [] []).
  assert (ext s (queue (set_node s n nd') (nawait nd))) as X.
  { eapply ext_node with (n := n) (nd := nd) (nd' := nd'); st; auto.
    repeat split; cbn; auto; congruence. }
  eapply inv_ext; [exact I|exact X|..]; st; try same I; eauto.
  - apply map1_upd with (nd := nd); auto.
  - apply map2_upd with (nd := nd); auto.
  - intros t T. apply in_app_iff in T. destruct T as [T|T]; [now left|right].
    pose proof (wn_await _ _ _ (i_nodes _ I _ _ Hn) t T) as W.
    apply (wf_await_ext _ _ _ _ X) in W.
    destruct W as [c [pos [cn [-> [R [N B]]]]]]. cbn. exists cn.
    split; [exact R|]. split.
    + intros i m Li Hm. destruct (Nat.eq_dec i pos) as [->|NE].
      * assert (m = n) as -> by congruence. exists nd'. st.
        rewrite nth_upd_same by (eapply nth_some_lt; eauto). split; reflexivity.
      * apply (B i m); [lia|assumption].
    + apply nth_some_lt in N. lia.
  - intros m d Hm. apply nth_upd in Hm. destruct Hm as [[<- [-> _]]|[_ Hm]]; [|now left].
    right. constructor; cbn; try tauto; try congruence.
  - intros m. rewrite sum_app. pose proof (i_count _ I m).
    pose proof (sum_create_await s n nd m I Hn).
    unfold queuedn. st. rewrite (queuedn_upd s n nd nd' m Hn eq_refl). lia.
Qed.

Lemma inv_fail_node : forall s n s', Inv s -> fail_node s n = Some s' -> Inv s'.
Proof.
  intros s n s' I H. unfold fail_node in H.
  destruct (nth_error (nodes s) n) as [nd|] eqn:Hn; [|discriminate].
  destruct (ready nd) eqn:R; [injection H as <-; exact I|].
  destruct (nfailed nd) eqn:F; [injection H as <-; exact I|]. injection H as <-.
  set (nd' := mkNode (nkey nd) (nqueued nd) (nvalue nd) true [] []).
  assert (ext s (queue (set_node s n nd') (nonfail nd))) as X.
  { eapply ext_node with (n := n) (nd := nd) (nd' := nd'); st; auto.
    repeat split; cbn; auto; congruence. }
  eapply inv_ext; [exact I|exact X|..]; st; try same I; eauto.
  - apply map1_upd with (nd := nd); auto.
  - apply map2_upd with (nd := nd); auto.
  - intros t T. apply in_app_iff in T. destruct T as [T|T]; [now left|right].
    pose proof (wn_onfail _ _ _ (i_nodes _ I _ _ Hn) t T) as W.
    apply (wf_onfail_ext _ _ _ _ X) in W.
    destruct W as [c [pos [cn [-> [A HF]]]]]. cbn. exists pos, n, cn.
    split; [exact A|]. split; [|exact HF]. exists nd'. st.
    rewrite nth_upd_same by (eapply nth_some_lt; eauto). split; reflexivity.
  - intros m d Hm. apply nth_upd in Hm. destruct Hm as [[<- [-> _]]|[_ Hm]]; [|now left].
    right. constructor; cbn; try tauto; try congruence.
    + intros v0 E. unfold ready in R. rewrite E in R. discriminate.
  - intros m. rewrite sum_app. pose proof (i_count _ I m).
    pose proof (sum_create_onfail s n nd m I Hn).
    unfold queuedn. st. rewrite (queuedn_upd s n nd nd' m Hn eq_refl). lia.
Qed.

Lemma has_fail_mk : forall cn acc,
  has_fail (mkCons (ckeys cn) (cowner cn) (chandler cn) acc) = has_fail cn.
Proof. reflexivity. Qed.

Lemma wf_wait_at : forall s c pos cn0 cn n, at_node s c pos n cn ->
  has_fail cn0 = has_fail cn -> wf_proc s (wait_at cn0 c pos).
Proof.
  intros s c pos cn0 cn n A E. unfold wait_at. rewrite E.
  destruct (has_fail cn) eqn:F; cbn.
  - split; [exists cn, n; exact A|]. exists cn. split; [apply A|assumption].
  - exists cn, n. exact A.
Qed.

Lemma push_wait_at : forall m cn c pos, w_push m (wait_at cn c pos) = 0.
Proof. intros. unfold wait_at. now destruct (has_fail cn). Qed.

(** A process changes, nothing else does. *)
Lemma inv_become : forall s i p p', Inv s -> nth_error (procs s) i = Some p ->
  wf_proc (set_procs s (upd (procs s) i p')) p' ->
  (forall m, w_push m p = w_push m p') ->
  Inv (set_procs s (upd (procs s) i p')).
Proof.
  intros s i p p' I H W Q. eapply inv_ext; st; try same I; eauto.
  - apply ext_refl; st; auto.
  - intros q T. apply In_upd in T. destruct T as [->|T]; auto.
  - intros m. pose proof (i_count _ I m). pose proof (sum_upd (w_push m) _ _ _ p' H).
    rewrite (Q m) in H1. unfold queuedn in *. st. lia.
Qed.

Lemma wf_proc_irrel : forall s s' p, nodes s' = nodes s -> cons s' = cons s ->
  log s' = log s -> wf_proc s p -> wf_proc s' p.
Proof.
  intros s s' p N C L W. eapply wf_proc_ext; [|exact W]. apply ext_refl; auto.
  now rewrite L.
Qed.

Lemma wf_task_irrel : forall s s' p, nodes s' = nodes s -> cons s' = cons s ->
  log s' = log s -> wf_task s p -> wf_task s' p.
Proof.
  intros s s' p N C L W. eapply wf_task_ext; [|exact W]. apply ext_refl; auto.
  now rewrite L.
Qed.

(** A process ends and queues tasks. *)
Lemma inv_finish : forall s i p ts, Inv s -> nth_error (procs s) i = Some p ->
  (forall t, In t ts -> wf_task s t) ->
  (forall m, w_push m p = sum (w_create m) ts) ->
  Inv (set_procs (queue s ts) (del (procs s) i)).
Proof.
  intros s i p ts I H W Q. eapply inv_ext; st; try same I; eauto.
  - apply ext_refl; st; auto.
  - intros q T. apply In_del in T. auto.
  - intros t T. apply in_app_iff in T. destruct T as [T|T]; [now left|right].
    eapply wf_task_irrel; [..|exact (W t T)]; reflexivity.
  - intros m. pose proof (i_count _ I m). pose proof (sum_del (w_push m) _ _ _ H).
    rewrite sum_app. rewrite (Q m) in H1. unfold queuedn in *. st. lia.
Qed.

(** A process changes and queues tasks. *)
Lemma inv_become_queue : forall s i p p' ts, Inv s -> nth_error (procs s) i = Some p ->
  wf_proc s p' ->
  (forall t, In t ts -> wf_task s t) ->
  (forall m, w_push m p = w_push m p' + sum (w_create m) ts) ->
  Inv (set_procs (queue s ts) (upd (procs s) i p')).
Proof.
  intros s i p p' ts I H W T Q. eapply inv_ext; st; try same I; eauto.
  - apply ext_refl; st; auto.
  - intros q J. apply In_upd in J. destruct J as [->|J]; [right|now left].
    eapply wf_proc_irrel; [..|exact W]; reflexivity.
  - intros t J. apply in_app_iff in J. destruct J as [J|J]; [now left|right].
    eapply wf_task_irrel; [..|exact (T t J)]; reflexivity.
  - intros m. pose proof (i_count _ I m). pose proof (sum_upd (w_push m) _ _ _ p' H).
    rewrite sum_app. rewrite (Q m) in H1. unfold queuedn in *. st. lia.
Qed.

(** A process changes, and a node. *)
Lemma inv_become_node : forall s i p p' n nd nd', Inv s ->
  nth_error (procs s) i = Some p -> nth_error (nodes s) n = Some nd ->
  node_le nd nd' ->
  (forall s', ext s s' -> nth_error (nodes s') n = Some nd' -> wf_proc s' p') ->
  (forall s', ext s s' -> nth_error (nodes s') n = Some nd' -> wf_node s' n nd') ->
  (forall m, w_push m p' + (if Nat.eqb n m then b2n (nqueued nd) else 0)
             = w_push m p + (if Nat.eqb n m then b2n (nqueued nd') else 0)) ->
  Inv (set_procs (set_node s n nd') (upd (procs s) i p')).
Proof.
  intros s i p p' n nd nd' I H Hn Le W WN Q.
  assert (ext s (set_procs (set_node s n nd') (upd (procs s) i p'))) as X.
  { eapply ext_node with (n := n) (nd := nd) (nd' := nd'); st; auto. }
  assert (nth_error (upd (nodes s) n nd') n = Some nd') as Hn'
    by (apply nth_upd_same; eapply nth_some_lt; eauto).
  eapply inv_ext; [exact I|exact X|..]; st; try same I; eauto.
  - apply map1_upd with (nd := nd); auto. apply Le.
  - apply map2_upd with (nd := nd); auto. apply Le.
  - intros q J. apply In_upd in J. destruct J as [->|J]; auto.
  - intros m d Hm. apply nth_upd in Hm. destruct Hm as [[<- [-> _]]|[_ Hm]]; [|now left].
    right. apply WN; auto.
  - intros m. pose proof (i_count _ I m). pose proof (sum_upd (w_push m) _ _ _ p' H).
    specialize (Q m). unfold queuedn in *. st.
    destruct (Nat.eqb n m) eqn:E.
    + apply Nat.eqb_eq in E. subst m. rewrite Hn'. rewrite Hn in H0. lia.
    + apply Nat.eqb_neq in E. rewrite nth_upd_other by assumption. lia.
Qed.

(** A process ends, and a node changes. *)
Lemma inv_finish_node : forall s i p n nd nd', Inv s ->
  nth_error (procs s) i = Some p -> nth_error (nodes s) n = Some nd ->
  node_le nd nd' -> nqueued nd' = nqueued nd ->
  (forall s', ext s s' -> nth_error (nodes s') n = Some nd' -> wf_node s' n nd') ->
  (forall m, w_push m p = 0) ->
  Inv (set_procs (set_node s n nd') (del (procs s) i)).
Proof.
  intros s i p n nd nd' I H Hn Le QE WN Q.
  assert (ext s (set_procs (set_node s n nd') (del (procs s) i))) as X.
  { eapply ext_node with (n := n) (nd := nd) (nd' := nd'); st; auto. }
  assert (nth_error (upd (nodes s) n nd') n = Some nd') as Hn'
    by (apply nth_upd_same; eapply nth_some_lt; eauto).
  eapply inv_ext; [exact I|exact X|..]; st; try same I; eauto.
  - apply map1_upd with (nd := nd); auto. apply Le.
  - apply map2_upd with (nd := nd); auto. apply Le.
  - intros q J. apply In_del in J. auto.
  - intros m d Hm. apply nth_upd in Hm. destruct Hm as [[<- [-> _]]|[_ Hm]]; [|now left].
    right. apply WN; auto.
  - intros m. pose proof (i_count _ I m). pose proof (sum_del (w_push m) _ _ _ H).
    specialize (Q m). unfold queuedn. st. rewrite (queuedn_upd s n nd nd' m Hn QE). lia.
Qed.

Lemma wf_node_same : forall s s' n nd nd', ext s s' -> wf_node s n nd ->
  nvalue nd' = nvalue nd -> nfailed nd' = nfailed nd -> nawait nd' = nawait nd ->
  nonfail nd' = nonfail nd -> wf_node s' n nd'.
Proof.
  intros s s' n nd nd' X W E1 E2 E3 E4. apply (wf_node_ext _ _ _ _ X) in W.
  destruct W as [A B C D E F].
  assert (ready nd' = ready nd) as E5 by (unfold ready; now rewrite E1).
  constructor; rewrite ?E1, ?E2, ?E3, ?E4, ?E5; auto.
Qed.

Lemma inv_step_proc : forall s i tid s', Inv s -> step_proc s i tid = Some s' -> Inv s'.
Proof.
  intros s i tid s' I H. unfold step_proc in H.
  destruct (nth_error (procs s) i) as [p|] eqn:Hp; [|discriminate].
  assert (In p (procs s)) as Ip by (eapply nth_error_In; eauto).
  pose proof (i_procs _ I p Ip) as W.
  destruct p as [c ks acc|c k ks acc|c n ks acc|c n ks acc|c pos|c pos|c pos|c pos|c pos].
  - destruct ks as [|k ks].
    + destruct (nth_error (cons s) c) as [cn|] eqn:Hc; [|discriminate].
      injection H as <-. st.
      destruct W as [cn' [dn [H' [E [N F]]]]].
      assert (cn' = cn) as -> by congruence. rewrite app_nil_r in E. subst dn.
      set (cn1 := mkCons (ckeys cn) (cowner cn) (chandler cn) acc).
      assert (ext s (set_procs (set_cons s (upd (cons s) c cn1))
                       (upd (procs s) i (wait_at cn c 0)))) as X.
      { eapply ext_resolve with (c := c) (cn := cn) (acc := acc); st; auto. }
      assert (nth_error (upd (cons s) c cn1) c = Some cn1) as Hc1
        by (apply nth_upd_same; eapply nth_some_lt; eauto).
      eapply inv_ext; [exact I|exact X|..]; st; try same I; eauto.
      * intros q J. apply In_upd in J. destruct J as [->|J]; auto. right.
        destruct acc as [|n0 acc'] eqn:Ea.
        { inversion F as [E|]. symmetry in E. contradiction. }
        apply wf_wait_at with (cn := cn1) (n := n0); [|reflexivity].
        split; [|split; [reflexivity|intros j m L; lia]].
        split; [exact Hc1|]. cbn [ckeys cnodes cn1].
        eapply Forall2_impl2; [|exact F]. intros. eapply is_qnode_ext; eauto.
      * intros c' cn' o Hc' Ho. left. apply nth_upd in Hc'.
        destruct Hc' as [[<- [-> _]]|[_ Hc']]; eauto.
      * intros m. pose proof (i_count _ I m).
        pose proof (sum_upd (w_push m) _ _ _ (wait_at cn c 0) Hp) as SU.
        rewrite push_wait_at in SU. cbn in SU. unfold queuedn in *. st. lia.
    + destruct (lookup (kmap s) k) as [n|] eqn:Lk; injection H as <-.
      * eapply inv_become; eauto. exists k. split.
        -- eapply collecting_ext; [|exact W]. apply ext_refl; auto.
        -- eapply is_node_ext; [|exact (i_map1 _ I _ _ Lk)]. apply ext_refl; auto.
      * eapply inv_become; eauto.
  - destruct (lookup (kmap s) k) as [n|] eqn:Lk; injection H as <-.
    + eapply inv_become; eauto. exists k. split.
      * eapply collecting_ext; [|exact W]. apply ext_refl; auto.
      * eapply is_node_ext; [|exact (i_map1 _ I _ _ Lk)]. apply ext_refl; auto.
    + set (nd := mkNode k false None false [] []). st.
      assert (forall n d, nth_error (nodes s) n = Some d -> nkey d <> k) as Fresh.
      { intros n d Hd E. apply (i_map2 _ I) in Hd. congruence. }
      assert (nth_error (nodes s ++ [nd]) (length (nodes s)) = Some nd) as Hn
        by apply nth_app_new.
      match goal with |- Inv ?x => set (s1 := x) end.
      assert (ext s s1) as X by (eapply ext_new_node; st; reflexivity || auto).
      eapply inv_ext; [exact I|exact X|..]; subst s1; st; try same I; eauto.
      * intros k' m L. cbn in L. destruct (Nat.eqb k' k) eqn:E.
        -- injection L as <-. apply Nat.eqb_eq in E. subst k'. exists nd. auto.
        -- eapply is_node_ext; [exact X|]. now apply (i_map1 _ I).
      * intros m d Hd. apply nth_app_one in Hd. destruct Hd as [[_ Hd]|[-> ->]].
        -- cbn. pose proof (Fresh _ _ Hd) as NE. apply Nat.eqb_neq in NE. rewrite NE.
           now apply (i_map2 _ I).
        -- cbn. now rewrite Nat.eqb_refl.
      * intros q J. apply In_upd in J. destruct J as [->|J]; auto. right.
        exists k. split; [eapply collecting_ext; eauto|]. exists nd. auto.
      * intros m d Hd. apply nth_app_one in Hd. destruct Hd as [[_ Hd]|[-> ->]]; auto.
        right. constructor; cbn; try tauto; discriminate.
      * intros m. pose proof (i_count _ I m).
        pose proof (sum_upd (w_push m) _ _ _ (PNode c (length (nodes s)) ks acc) Hp) as SU.
        cbn in SU. unfold queuedn in *. st.
        destruct (Nat.lt_ge_cases m (length (nodes s))) as [Lt|Ge].
        -- rewrite nth_error_app1 by assumption. lia.
        -- assert (nth_error (nodes s) m = None) as Nm by now apply nth_error_None.
           rewrite Nm in H.
           destruct (nth_error (nodes s ++ [nd]) m) as [d|] eqn:Hd; [|lia].
           apply nth_app_one in Hd. destruct Hd as [[? _]|[_ ->]]; [lia|]. cbn. lia.
  - destruct (nth_error (nodes s) n) as [nd|] eqn:Hn; [|discriminate].
    destruct W as [k [Co [nd0 [Hn0 K]]]].
    assert (nd0 = nd) as -> by congruence.
    destruct (nqueued nd) eqn:Q; injection H as <-.
    + eapply inv_become; eauto. cbn.
      destruct Co as [cn [dn [Hc [E [N F]]]]]. exists cn, (dn ++ [k]).
      split; [exact Hc|]. split; [now rewrite <- app_assoc|]. split; [exact N|].
      apply Forall2_app.
      * exact F.
      * constructor; [|constructor]. exists nd. auto.
    + eapply inv_become_node with (nd := nd); eauto.
      * repeat split; cbn; auto.
      * intros s' X H'. exists k. split; [eapply collecting_ext; eauto|].
        eexists. split; [exact H'|]. cbn. auto.
      * intros s' X H'. eapply wf_node_same with (nd := nd); eauto.
        now apply (i_nodes _ I).
      * intros m. cbn. rewrite Q. rewrite (Nat.eqb_sym m n).
        destruct (Nat.eqb n m); reflexivity.
  - injection H as <-. destruct W as [k [Co Qn]].
    eapply inv_become_queue; eauto.
    + destruct Co as [cn [dn [Hc [E [N F]]]]]. exists cn, (dn ++ [k]).
      split; [exact Hc|]. split; [now rewrite <- app_assoc|]. split; [exact N|].
      apply Forall2_app; [exact F|]. constructor; [exact Qn|constructor].
    + intros t [<-|[]]. exists k. exact Qn.
    + intros m. cbn. lia.
  - destruct (nth_error (cons s) c) as [cn|] eqn:Hc; [|discriminate].
    destruct (nth_error (cnodes cn) pos) as [n|] eqn:Hpos; [|discriminate].
    destruct (nth_error (nodes s) n) as [nd|] eqn:Hn; [|discriminate].
    injection H as <-. destruct W as [L F].
    eapply inv_become; eauto.
    + apply wf_proc_irrel with (s := s); try reflexivity.
      destruct (ready nd); cbn; auto.
    + intros m. now destruct (ready nd).
  - destruct (nth_error (cons s) c) as [cn|] eqn:Hc; [|discriminate].
    destruct (nth_error (cnodes cn) pos) as [n|] eqn:Hpos; [|discriminate].
    destruct (nth_error (nodes s) n) as [nd|] eqn:Hn; [|discriminate].
    destruct W as [L F].
    assert (exists cn', at_node s c pos n cn' /\ has_fail cn' = true) as [cn' [A HF]].
    { destruct L as [cn' [n' A]]. destruct F as [cn2 [Hc2 HF]].
      assert (nth_error (cons s) c = Some cn') as Hc' by apply A.
      assert (cn' = cn) as -> by congruence. assert (cn2 = cn) as -> by congruence.
      exists cn. split; [|exact HF].
      assert (n' = n) as -> by (destruct A as [_ [A _]]; congruence). exact A. }
    destruct (nfailed nd) eqn:Fl; injection H as <-.
    + eapply inv_become_queue; eauto.
      intros t [<-|[]]. exists pos, n, cn'. split; [exact A|].
      split; [|exact HF]. exists nd. auto.
    + eapply inv_become_node with (nd := nd); eauto.
      * repeat split; cbn; auto. congruence.
      * intros s' X H'. cbn. eapply located_ext; eauto.
      * intros s' X H'. pose proof (wf_node_ext _ _ _ _ X (i_nodes _ I _ _ Hn)) as WN.
        constructor; cbn; try apply WN; try congruence.
        intros t J. apply In_app_one in J. destruct J as [J| ->]; [now apply WN|].
        exists c, pos, cn'. split; [reflexivity|].
        split; [eapply at_node_ext; eauto|exact HF].
  - destruct (nth_error (cons s) c) as [cn|] eqn:Hc; [|discriminate].
    destruct (nth_error (cnodes cn) pos) as [n|] eqn:Hpos; [|discriminate].
    destruct (nth_error (nodes s) n) as [nd|] eqn:Hn; [|discriminate].
    destruct (ready nd) eqn:Rd; injection H as <-.
    + eapply inv_finish; eauto.
      intros t [<-|[]]. destruct W as [cn' [n' [R [Hp' B]]]].
      assert (cn' = cn) as -> by (destruct R; congruence).
      exists cn. split; [exact R|]. split.
      * intros j m Lj Hm. destruct (Nat.eq_dec j pos) as [->|NE].
        -- assert (m = n) as -> by congruence. exists nd. auto.
        -- apply (B j m); [lia|assumption].
      * apply nth_some_lt in Hpos. lia.
    + eapply inv_become; eauto.
  - destruct (nth_error (cons s) c) as [cn|] eqn:Hc; [|discriminate].
    destruct (nth_error (cnodes cn) pos) as [n|] eqn:Hpos; [|discriminate].
    destruct (nth_error (nodes s) n) as [nd|] eqn:Hn; [|discriminate].
    assert (at_node s c pos n cn) as A.
    { destruct W as [cn' [n' A]].
      assert (nth_error (cons s) c = Some cn') as Hc' by apply A.
      assert (cn' = cn) as -> by congruence.
      assert (n' = n) as -> by (destruct A as [_ [A _]]; congruence). exact A. }
    destruct (nfailed nd) eqn:Fl.
    + destruct (cowner cn) as [o|] eqn:Ow; injection H as <-.
      * eapply inv_become; eauto.
        apply wf_proc_irrel with (s := s); try reflexivity. cbn. split; [exact W|].
        exists cn, o. auto.
      * replace s with (queue s []) at 1.
        2:{ unfold queue, set_pool. rewrite app_nil_r. now destruct s. }
        eapply inv_finish; eauto. intros t [].
    + destruct (ready nd) eqn:Rd.
      * injection H as <-. eapply inv_finish; eauto.
        intros t [<-|[]]. destruct A as [R [Hp' B]].
        exists cn. split; [exact R|]. split.
        -- intros j m Lj Hm. destruct (Nat.eq_dec j pos) as [->|NE].
           ++ assert (m = n) as -> by congruence. exists nd. auto.
           ++ apply (B j m); [lia|assumption].
        -- apply nth_some_lt in Hpos. lia.
      * assert (forall s', ext s s' -> wf_node s' n
            (mkNode (nkey nd) (nqueued nd) (nvalue nd) false
               (nawait nd ++ [TWhenAll c (S pos)]) (nonfail nd))) as WN'.
        { intros s2 X. pose proof (wf_node_ext _ _ _ _ X (i_nodes _ I _ _ Hn)) as WN.
          constructor; cbn; try apply WN; try congruence.
          - intros t J. apply In_app_one in J. destruct J as [J| ->]; [now apply WN|].
            exists c, pos, cn. split; [reflexivity|]. eapply at_node_ext; eauto.
          - unfold ready in *. cbn. intros. congruence. }
        destruct (cowner cn) as [o|] eqn:Ow; injection H as <-.
        -- eapply inv_become_node with (nd := nd); eauto.
           ++ repeat split; cbn; auto. congruence.
           ++ intros s' X H'. cbn. split; [eapply located_ext; eauto|].
              eapply owned_ext; eauto. exists cn, o. auto.
        -- eapply inv_finish_node with (nd := nd); eauto.
           repeat split; cbn; auto. congruence.
  - destruct (nth_error (cons s) c) as [cn|] eqn:Hc; [|discriminate].
    destruct (cowner cn) as [o|]; [|discriminate].
    destruct (nth_error (cnodes cn) pos) as [n|] eqn:Hpos; [|discriminate].
    destruct (nth_error (nodes s) o) as [nd|] eqn:Hn; [|discriminate].
    injection H as <-. eapply inv_ext; st; try same I; eauto.
    + apply ext_refl; st; auto.
    + intros q J. apply In_del in J. auto.
    + intros m. pose proof (i_count _ I m). pose proof (sum_del (w_push m) _ _ _ Hp) as SD.
      cbn in SD. unfold queuedn in *. st. lia.
Qed.

(** A task is taken. *)
Lemma count_take : forall s i t m, Inv s -> nth_error (pool s) i = Some t ->
  sum (w_push m) (procs s) + sum (w_create m) (del (pool s) i) + w_create m t
  + sum (w_start m) (log s) = queuedn s m.
Proof.
  intros s i t m I H. pose proof (i_count _ I m).
  pose proof (sum_del (w_create m) _ _ _ H). lia.
Qed.

Lemma inv_take_task : forall s i s', Inv s -> take_task s i = Some s' -> Inv s'.
Proof.
  intros s i s' I H. unfold take_task in H.
  destruct (nth_error (pool s) i) as [t|] eqn:Ht; [|discriminate].
  pose proof (i_pool _ I t (nth_error_In _ _ Ht)) as W.
  pose proof (fun m => count_take s i t m I Ht) as C.
  assert (forall q, In q (del (pool s) i) -> In q (pool s)) as Del
    by (intros; eapply In_del; eauto).
  destruct t as [n|c pos|c|c]; st.
  - injection H as <-. eapply inv_ext; st; try same I; eauto.
    + apply ext_refl; st; auto. intros; now right.
    + intros m b J. apply In_app_one in J. destruct J as [J|J]; eauto.
      injection J as -> ->. right. now left.
    + intros e [<-|J]; [right|now left]. destruct W as [k W]. exists k. exact W.
    + intros m. specialize (C m). cbn in *. unfold queuedn in *. st. lia.
  - destruct (nth_error (cons s) c) as [cn|] eqn:Hc; [|discriminate].
    destruct W as [cn' [R [B L]]]. assert (cn' = cn) as -> by (destruct R; congruence).
    destruct (Nat.eqb pos (length (cnodes cn))) eqn:E; injection H as <-.
    + apply Nat.eqb_eq in E. subst pos.
      eapply inv_ext; st; try same I; eauto.
      * apply ext_refl; st; auto.
      * intros q J. apply In_app_one in J. destruct J as [J| ->]; auto.
        right. exists cn. split; [|exact B]. exact R.
      * intros m. specialize (C m). rewrite sum_app. cbn in *. unfold queuedn in *. st. lia.
    + apply Nat.eqb_neq in E.
      destruct (nth_error (cnodes cn) pos) as [n|] eqn:Hpos.
      2:{ apply nth_error_None in Hpos. lia. }
      eapply inv_ext; st; try same I; eauto.
      * apply ext_refl; st; auto.
      * intros q J. apply In_app_one in J. destruct J as [J| ->]; auto.
        right. apply wf_wait_at with (cn := cn) (n := n); [|reflexivity].
        split; [exact R|]. split; assumption.
      * intros m. specialize (C m). rewrite sum_app. cbn [sum]. rewrite push_wait_at.
        cbn in C. unfold queuedn in *. st. lia.
  - destruct (nth_error (cons s) c) as [cn|] eqn:Hc; [|discriminate].
    destruct W as [cn' [R B]]. assert (cn' = cn) as -> by (destruct R; congruence).
    set (vs := map (fun n => match nth_error (nodes s) n with
                             | Some nd => nvalue nd | None => None end) (cnodes cn)) in *.
    assert (Forall2 (fun n ov => exists v, ov = Some v /\ In (ESet n v) (log s))
              (cnodes cn) vs) as FV.
    { subst vs. assert (forall n, In n (cnodes cn) -> nready s n) as AR.
      { intros n J. apply In_nth_error in J. destruct J as [j J].
        apply (B j n); [eapply nth_some_lt; eauto|assumption]. }
      clear B H. revert AR. induction (cnodes cn) as [|n l IH]; intros AR; constructor.
      - destruct (AR n (or_introl eq_refl)) as [nd [Hn Rn]]. rewrite Hn.
        unfold ready in Rn. destruct (nvalue nd) as [v|] eqn:E; [|discriminate].
        exists v. split; [reflexivity|]. eapply (wn_value _ _ _ (i_nodes _ I _ _ Hn)). exact E.
      - apply IH. intros m J. apply AR. now right. }
    assert (forall sx, nodes sx = nodes s -> cons sx = cons s ->
              (forall e, In e (log s) -> In e (log sx)) -> wf_event sx (ERun c vs)) as WE.
    { intros sx E1 E2 E3. exists cn. split.
      - eapply resolved_ext; [|exact R]. apply ext_refl; auto.
      - eapply Forall2_impl2; [|exact FV]. cbn. intros a b [v [E J]]. eauto. }
    destruct (cowner cn) as [o|] eqn:Ow; injection H as <-;
      eapply inv_ext; st; try same I; eauto.
    + apply ext_refl; st; auto. intros; now right.
    + intros m b J. apply In_app_one in J. destruct J as [J|J]; eauto.
      injection J as -> ->. right. right. eapply (i_owner _ I); eauto.
    + intros e [<-|J]; [right|now left]. apply WE; st; auto. intros; now right.
    + intros m. specialize (C m). cbn in *. unfold queuedn in *. st. lia.
    + apply ext_refl; st; auto. intros; now right.
    + intros e [<-|J]; [right|now left]. apply WE; st; auto. intros; now right.
    + intros m. specialize (C m). cbn in *. unfold queuedn in *. st. lia.
  - destruct (nth_error (cons s) c) as [cn|] eqn:Hc; [|discriminate].
    assert (Inv (emit (set_pool s (del (pool s) i)) (EFailed c))) as I1.
    { eapply inv_ext; st; try same I; eauto.
      - apply ext_refl; st; auto. intros; now right.
      - intros e [<-|J]; [right|now left]. eapply failed_at_ext; [|exact W].
        apply ext_refl; st; auto. intros; now right.
      - intros m. specialize (C m). cbn in *. unfold queuedn in *. st. lia. }
    destruct (cowner cn) as [o|] eqn:Ow.
    + eapply inv_fail_node; eauto.
    + injection H as <-. exact I1.
Qed.

Lemma inv_acted : forall s j n b, Inv s -> nth_error (acts s) j = Some (n, b) ->
  Inv (acted s j n).
Proof.
  intros s j n b I Ha. eapply inv_ext; st; try same I; eauto.
  - apply ext_refl; st; auto.
  - intros m d J. apply In_upd in J. destruct J as [J|J]; eauto.
    injection J as -> ->. left. exists b. eapply nth_error_In; eauto.
Qed.

Lemma inv_step : forall s a s', Inv s -> step s a = Some s' -> Inv s'.
Proof.
  intros s a s' I H. destruct a as [ks h|j ks|j v|j|i|i tid]; cbn in H.
  - injection H as <-. apply inv_start_call; [exact I|]. discriminate.
  - destruct (nth_error (acts s) j) as [[n b]|] eqn:Ha; [|discriminate].
    injection H as <-. apply inv_start_call.
    + eapply inv_acted; eauto.
    + intros o E. injection E as <-. st. eapply (i_acts _ I). eapply nth_error_In; eauto.
  - destruct (nth_error (acts s) j) as [[n b]|] eqn:Ha; [|discriminate].
    eapply inv_set_value; [| |exact H]; [|left; reflexivity].
    apply (inv_emit_acts s (ESet n v) (upd (acts s) j (n, true)));
      [exact I| |exact Logic.I|reflexivity].
    intros m d J. apply In_upd in J. destruct J as [J|J]; eauto.
    injection J as -> ->. left. exists b. eapply nth_error_In; eauto.
  - destruct (nth_error (acts s) j) as [[n b]|] eqn:Ha; [|discriminate].
    eapply inv_fail_node; [|exact H].
    apply (inv_emit_acts s (EFatal n) (upd (acts s) j (n, true)));
      [exact I| |exact Logic.I|reflexivity].
    intros m d J. apply In_upd in J. destruct J as [J|J]; eauto.
    injection J as -> ->. left. exists b. eapply nth_error_In; eauto.
  - eapply inv_take_task; eauto.
  - eapply inv_step_proc; eauto.
Qed.

Lemma inv_run : forall l s s', Inv s -> run s l = Some s' -> Inv s'.
Proof.
  induction l as [|a l IH]; cbn; intros s s' I H.
  - now injection H as <-.
  - destruct (step s a) as [s1|] eqn:E; [|discriminate].
    eapply IH; [eapply inv_step; eauto|exact H].
Qed.

End Inv.
