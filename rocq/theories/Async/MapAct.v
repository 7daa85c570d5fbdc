(** Started user code, and what is left to wait for once every task has been
    taken. *)

From Coq Require Import List Arith Bool Lia Relations.
From Verif Require Import Async.Lists Async.Cycle Async.Map Async.MapInv Async.MapCount
  Async.MapQuiet.
Import ListNotations.

(** A finite set in which everything has a successor: from each element one
    gets to a cycle. *)
Lemma successors_cycle : forall (R : nat -> nat -> Prop) (L : list nat) x0,
  (forall x, In x L -> exists y, In y L /\ R x y) ->
  In x0 L -> exists x, clos_refl_trans nat R x0 x /\ clos_trans nat R x x.
Proof.
  intros R L x0 S J0.
  assert (forall k p x, length L - length p <= k -> NoDup (x :: p) -> incl (x :: p) L ->
            (forall y, In y p -> clos_trans nat R y x) -> clos_refl_trans nat R x0 x ->
            exists z, clos_refl_trans nat R x0 z /\ clos_trans nat R z z) as P.
  { induction k as [|k IH]; intros p x B ND IN RE R0.
    - pose proof (NoDup_incl_length ND IN) as LE. cbn in LE. lia.
    - destruct (S x (IN x (or_introl eq_refl))) as [y [Hy Rxy]].
      destruct (in_dec Nat.eq_dec y (x :: p)) as [[E|J]|J].
      + subst y. exists x. split; [exact R0|now apply t_step].
      + exists x. split; [exact R0|].
        eapply t_trans; [apply t_step; exact Rxy|now apply RE].
      + apply (IH (x :: p) y).
        * cbn. lia.
        * now constructor.
        * intros z [<-|Hz]; [exact Hy|now apply IN].
        * intros z [<-|Hz]; [now apply t_step|].
          eapply t_trans; [now apply RE|now apply t_step].
        * eapply rt_trans; [exact R0|now apply rt_step]. }
  apply (P (length L) [] x0).
  - cbn. lia.
  - constructor; [intros []|constructor].
  - intros y [<-|[]]. exact J0.
  - intros y [].
  - apply rt_refl.
Qed.

Section Act.
Context {V : Type}.
Notation state := (@state V).
Notation node := (@node V).
Implicit Types s : state.

Ltac st := cbn [nodes kmap cons pool procs reqs acts log set_nodes set_node
                set_kmap set_cons set_pool set_procs set_reqs set_acts emit queue acted] in *.

Ltac crush H := repeat match type of H with
  | context [match ?x with _ => _ end] => destruct x eqn:?; try discriminate H
  end.

Definition w_act (n : nat) (a : nat * bool) : nat := b2n (Nat.eqb n (fst a)).
Definition w_acted (n : nat) (a : nat * bool) : nat := b2n (Nat.eqb n (fst a) && snd a).
Definition own (n : nat) (cn : consumer) : nat :=
  match cowner cn with Some o => b2n (Nat.eqb n o) | None => 0 end.
Definition owned_runs s (n : nat) : nat :=
  isum (fun c cn => own n cn * sum (w_run c) (log s)) 0 (cons s).

Definition npending s n : Prop :=
  exists nd, nth_error (nodes s) n = Some nd /\ pending nd.

Record Act s : Prop := {
  a_count : forall n, sum (w_act n) (acts s) = sum (w_start n) (log s) + owned_runs s n;
  a_acted : forall n, npending s n -> sum (w_acted n) (acts s) <= sum (own n) (cons s);
  a_unq : forall n nd, nth_error (nodes s) n = Some nd -> nqueued nd = false ->
     exists c ks acc, In (PNode c n ks acc) (procs s);
  a_failed : forall c cn o, In (EFailed c) (log s) -> nth_error (cons s) c = Some cn ->
     cowner cn = Some o -> ~ npending s o
}.

Lemma pending_back : forall s s' n, ext s s' -> n < length (nodes s) ->
  npending s' n -> npending s n.
Proof.
  intros s s' n X L [nd' [H' [R F]]].
  destruct (nth_error (nodes s) n) as [nd|] eqn:H; [|apply nth_error_None in H; lia].
  exists nd. split; [exact H|].
  destruct (x_nodes _ _ X _ _ H) as [nd1 [H1 [_ [_ [R1 F1]]]]].
  assert (nd1 = nd') as -> by congruence.
  split; [destruct (ready nd)|destruct (nfailed nd)]; auto; firstorder congruence.
Qed.

Lemma acted_new : forall s n, Inv s -> length (nodes s) <= n -> sum (w_acted n) (acts s) = 0.
Proof.
  intros s n I L. apply sum_zero. intros [m b] J. unfold w_acted. cbn.
  destruct (Nat.eqb_spec n m); [|reflexivity]. subst m. exfalso.
  pose proof (i_log _ I _ (i_acts _ I _ _ J)) as [k [nd [H _]]].
  apply nth_some_lt in H. lia.
Qed.

Lemma runs_new : forall s c, Cnt s -> length (cons s) <= c -> sum (w_run c) (log s) = 0.
Proof. intros s c K L. pose proof (places_new _ _ K L). unfold places in *. lia. Qed.

(** A step that leaves the consumers' owners, the log and the started user code
    alone. *)
Lemma act_keep : forall s s', Inv s -> Act s -> ext s s' ->
  acts s' = acts s -> log s' = log s ->
  (forall n, owned_runs s' n = owned_runs s n) ->
  (forall n, sum (own n) (cons s) <= sum (own n) (cons s')) ->
  (forall n nd', nth_error (nodes s') n = Some nd' -> nqueued nd' = false ->
     (exists nd, nth_error (nodes s) n = Some nd /\ nqueued nd = false /\
        forall c ks acc, In (PNode c n ks acc) (procs s) -> In (PNode c n ks acc) (procs s')) \/
     exists c ks acc, In (PNode c n ks acc) (procs s')) ->
  Act s'.
Proof.
  intros s s' I [A B C D] X EA EL EO LO U. constructor.
  - intros n. now rewrite EA, EL, EO.
  - intros n P. rewrite EA. destruct (Nat.lt_ge_cases n (length (nodes s))) as [L|L].
    + specialize (B n (pending_back _ _ _ X L P)). specialize (LO n). lia.
    + rewrite (acted_new _ _ I L). lia.
  - intros n nd' H Q. destruct (U n nd' H Q) as [[nd [H1 [Q1 P1]]]|W]; [|exact W].
    destruct (C _ _ H1 Q1) as [c [ks [acc J]]]. exists c, ks, acc. auto.
  - intros c cn' o J H O P. rewrite EL in J.
    destruct (i_log _ I _ J) as [pos [n [cn [[[Hc _] _] _]]]].
    destruct (x_cons _ _ X _ _ Hc) as [cn1 [Hc1 [_ [O1 _]]]].
    assert (cn1 = cn') as -> by congruence.
    assert (cowner cn = Some o) as O2 by congruence.
    apply (D _ _ _ J Hc O2). eapply pending_back; eauto.
    pose proof (i_log _ I _ (i_owner _ I _ _ _ Hc O2)) as [k [nd [Hn _]]].
    now apply nth_some_lt in Hn.
Qed.

Lemma owned_runs_same : forall s s' n, log s' = log s -> cons s' = cons s ->
  owned_runs s' n = owned_runs s n.
Proof. intros s s' n L C. unfold owned_runs. now rewrite L, C. Qed.

Lemma act_upd_node : forall s s' n nd nd', Inv s -> Act s -> ext s s' ->
  acts s' = acts s -> log s' = log s -> cons s' = cons s ->
  (forall c ks acc m, In (PNode c m ks acc) (procs s) ->
     In (PNode c m ks acc) (procs s') \/ (m = n /\ nqueued nd' = true)) ->
  nth_error (nodes s) n = Some nd -> nodes s' = upd (nodes s) n nd' ->
  nqueued nd' = nqueued nd \/ nqueued nd' = true -> Act s'.
Proof.
  intros s s' n nd nd' I A X EA EL EC EP H EN EQ.
  eapply act_keep; [exact I|exact A|exact X|exact EA|exact EL| | |].
  - intros. now apply owned_runs_same.
  - intros. now rewrite EC.
  - intros m md Hm Q. left. rewrite EN in Hm. apply nth_upd in Hm.
    destruct Hm as [[-> [-> _]]|[NE Hm]].
    + destruct EQ as [EQ|EQ]; [|congruence]. exists nd. split; [exact H|].
      split; [congruence|]. intros c ks acc J. destruct (EP _ _ _ _ J) as [|[_ ?]]; auto; congruence.
    + exists md. split; [exact Hm|]. split; [exact Q|]. intros c ks acc J.
      destruct (EP _ _ _ _ J) as [|[-> _]]; auto; congruence.
Qed.

Lemma act_fail_node : forall s n s', Inv s -> Act s -> fail_node s n = Some s' -> Act s'.
Proof.
  intros s n s' I A H. pose proof (fail_node_ext _ _ _ H) as X.
  unfold fail_node in H. crush H; injection H as <-; auto.
  eapply act_upd_node; [exact I|exact A|exact X|..]; st; eauto.
Qed.

Lemma act_set_value : forall s n v s', Inv s -> Act s -> set_value s n v = Some s' -> Act s'.
Proof.
  intros s n v s' I A H. pose proof (set_value_ext _ _ _ _ H) as X.
  unfold set_value in H. crush H; injection H as <-; auto.
  eapply act_upd_node; [exact I|exact A|exact X|..]; st; eauto.
Qed.

Lemma owned_runs_app : forall s s' n cn, Cnt s -> log s' = log s ->
  cons s' = cons s ++ [cn] -> owned_runs s' n = owned_runs s n.
Proof.
  intros s s' n cn K L C. unfold owned_runs. rewrite L, C, isum_app. cbn [isum].
  rewrite runs_new; [lia|exact K|]. cbn. lia.
Qed.

Lemma act_start_call : forall s ks owner h, Inv s -> Cnt s -> Act s ->
  Act (start_call s ks owner h).
Proof.
  intros s ks owner h I K A. unfold start_call.
  assert (forall s', nodes s' = nodes s -> log s' = log s -> acts s' = acts s ->
            cons s' = cons s ++ [mkCons ks owner h []] ->
            (forall p, In p (procs s) -> In p (procs s')) -> Act s') as G.
  { intros s' EN EL EA EC EP. eapply act_keep; [exact I|exact A|..]; auto.
    - eapply ext_new_cons; eauto. intros e. now rewrite EL.
    - intros n. eapply owned_runs_app; eauto.
    - intros n. rewrite EC, sum_app. lia.
    - intros n nd Hn Q. left. exists nd. rewrite EN in Hn. auto. }
  destruct ks; apply G; st; auto. intros p J. apply in_or_app. now left.
Qed.

Lemma In_upd_node : forall s i p p' c m ks acc, nth_error (procs s) i = Some p ->
  p <> PNode c m ks acc -> In (PNode c m ks acc) (procs s) ->
  In (PNode c m ks acc) (upd (procs s) i p').
Proof.
  intros s i p p' c m ks acc H N J.
  destruct (In_upd_or _ _ _ _ p' H J) as [E|]; [congruence|assumption].
Qed.

Lemma In_del_node : forall s i p c m ks acc, nth_error (procs s) i = Some p ->
  p <> PNode c m ks acc -> In (PNode c m ks acc) (procs s) ->
  In (PNode c m ks acc) (del (procs s) i).
Proof.
  intros s i p c m ks acc H N J.
  destruct (In_del_or _ _ _ _ H J) as [E|]; [congruence|assumption].
Qed.

Ltac same_procs := intros; ((eapply In_upd_node + eapply In_del_node); eauto; discriminate).

Lemma act_procs : forall s s', Inv s -> Act s -> ext s s' ->
  acts s' = acts s -> log s' = log s -> nodes s' = nodes s ->
  (forall n, owned_runs s' n = owned_runs s n) ->
  (forall n, sum (own n) (cons s) <= sum (own n) (cons s')) ->
  (forall c ks acc m, In (PNode c m ks acc) (procs s) -> In (PNode c m ks acc) (procs s')) ->
  Act s'.
Proof.
  intros s s' I A X EA EL EN EO LO P. eapply act_keep; eauto.
  intros n nd Hn Q. left. exists nd. rewrite EN in Hn. auto.
Qed.

Ltac ap I A X := eapply act_procs; [exact I|exact A|exact X|..]; st; auto; same_procs.

Lemma act_step_proc : forall s i tid s', Inv s -> Act s ->
  step_proc s i tid = Some s' -> Act s'.
Proof.
  intros s i tid s' I A H. pose proof (step_proc_ext _ _ _ _ I H) as X.
  unfold step_proc in H.
  destruct (nth_error (procs s) i) as [p|] eqn:Hp; [|discriminate].
  destruct p as [c ks acc|c k ks acc|c n ks acc|c n ks acc|c pos|c pos|c pos|c pos|c pos].
  - destruct ks as [|k ks].
    + destruct (nth_error (cons s) c) as [cn|] eqn:Hc; [|discriminate]. injection H as <-.
      eapply act_procs; [exact I|exact A|exact X|..]; st; auto.
      * intros n. unfold owned_runs. st. eapply isum_upd; eauto.
      * intros n. pose proof (sum_upd (own n) _ _ _
            (mkCons (ckeys cn) (cowner cn) (chandler cn) acc) Hc) as E.
        unfold own in *. cbn in E. lia.
      * same_procs.
    + crush H; injection H as <-; ap I A X.
  - destruct (lookup (kmap s) k) as [n|] eqn:Lk; injection H as <-; [ap I A X|].
    eapply act_keep; [exact I|exact A|exact X|..]; st; auto.
    intros n nd Hn Q. apply nth_app_one in Hn. destruct Hn as [[_ Hn]|[-> _]].
    + left. exists nd. split; [exact Hn|]. split; [exact Q|]. same_procs.
    + right. exists c, ks, acc. eapply In_upd_new; eauto.
  - destruct (nth_error (nodes s) n) as [nd|] eqn:Hn; [|discriminate].
    destruct (nqueued nd) eqn:Qn; injection H as <-.
    + eapply act_keep; [exact I|exact A|exact X|..]; st; auto.
      intros m md Hm Q. left. exists md. split; [exact Hm|]. split; [exact Q|].
      intros c' ks' acc' J. destruct (In_upd_or _ _ _ _ (PEnsure c ks (acc ++ [n])) Hp J) as [E|]; [|assumption].
      injection E as <- <- <- <-. congruence.
    + eapply act_upd_node; [exact I|exact A|exact X|..]; st; eauto.
      intros c' ks' acc' m J. destruct (In_upd_or _ _ _ _ (PPush c n ks acc) Hp J) as [E|]; [|auto].
      injection E as <- <- <- <-. auto.
  - injection H as <-. ap I A X.
  - crush H; injection H as <-; ap I A X.
  - crush H; injection H as <-; [ap I A X|].
    eapply act_upd_node; [exact I|exact A|exact X|..]; st; eauto.
    intros. left. same_procs.
  - crush H; injection H as <-; ap I A X.
  - destruct (nth_error (cons s) c) as [cn|] eqn:Hc; [|discriminate].
    destruct (nth_error (cnodes cn) pos) as [n|] eqn:Hpos; [|discriminate].
    destruct (nth_error (nodes s) n) as [nd|] eqn:Hn; [|discriminate].
    destruct (nfailed nd) eqn:F; [|destruct (ready nd) eqn:Rd].
    + crush H; injection H as <-; ap I A X.
    + crush H; injection H as <-; ap I A X.
    + crush H; injection H as <-; (eapply act_upd_node; [exact I|exact A|exact X|..]; st; eauto);
      intros; left; same_procs.
  - crush H; injection H as <-; ap I A X.
Qed.

Lemma owned_runs_log : forall s s' n, cons s' = cons s ->
  (forall c, sum (w_run c) (log s') = sum (w_run c) (log s)) ->
  owned_runs s' n = owned_runs s n.
Proof.
  intros s s' n C L. unfold owned_runs. rewrite C. apply isum_ext.
  intros j x _. now rewrite L.
Qed.

Lemma act_emit : forall s e, Act s ->
  (forall n, w_start n e = 0) -> (forall c, w_run c e = 0) ->
  (forall c cn o, e = EFailed c -> nth_error (cons s) c = Some cn -> cowner cn = Some o ->
     ~ npending s o) ->
  Act (emit s e).
Proof.
  intros s e [A B C D] S R F. constructor; st.
  - intros n. rewrite A. cbn [sum]. rewrite S.
    rewrite (owned_runs_log s (emit s e) n); [reflexivity|reflexivity|].
    intros c. st. cbn [sum]. now rewrite R.
  - exact B.
  - exact C.
  - intros c cn o [->|J] Hc Ho; [eapply F; eauto|eapply D; eauto].
Qed.

Lemma act_pool : forall s p, Act s -> Act (set_pool s p).
Proof. intros s p [A B C D]. constructor; auto. Qed.

Lemma fail_node_emit : forall s n e s', fail_node (emit s e) n = Some s' ->
  exists s1, fail_node s n = Some s1 /\ s' = emit s1 e.
Proof.
  intros s n e s' H. unfold fail_node in *. st.
  destruct (nth_error (nodes s) n) as [nd|]; [|discriminate].
  destruct (ready nd); [|destruct (nfailed nd)]; injection H as <-; eexists; split; reflexivity.
Qed.

Lemma fail_node_done : forall s n s', fail_node s n = Some s' -> ~ npending s' n.
Proof.
  intros s n s' H [nd' [Hn [R F]]]. unfold fail_node in H.
  destruct (nth_error (nodes s) n) as [nd|] eqn:Hd; [|discriminate].
  destruct (ready nd) eqn:Rd; [|destruct (nfailed nd) eqn:Fd]; injection H as <-; st;
    try congruence.
  rewrite nth_upd_same in Hn; [|now apply nth_some_lt in Hd].
  injection Hn as <-. discriminate F.
Qed.

Lemma fail_node_cons : forall s n s', fail_node s n = Some s' -> cons s' = cons s.
Proof. intros s n s' H. unfold fail_node in H. crush H; now injection H as <-. Qed.

Lemma act_take_task : forall s i s', Inv s -> Act s -> take_task s i = Some s' -> Act s'.
Proof.
  intros s i s' I A H. unfold take_task in H.
  destruct (nth_error (pool s) i) as [t|] eqn:Ht; [|discriminate].
  pose proof (fun f => sum_del f _ _ _ Ht) as SD.
  destruct t as [n|c pos|c|c]; st.
  - injection H as <-. destruct A as [A B C D]. constructor; st.
    + intros m. rewrite sum_app, A. cbn [sum w_act fst w_start log].
      assert (owned_runs (emit (set_acts (set_pool s (del (pool s) i)) (acts s ++ [(n, false)]))
                               (EStart n)) m = owned_runs s m) as ->
        by (apply owned_runs_log; reflexivity).
      unfold w_act. cbn. lia.
    + intros m P. rewrite sum_app. cbn. unfold w_acted at 2. cbn [fst snd].
      rewrite andb_false_r. cbn. specialize (B m P). lia.
    + exact C.
    + intros c cn o [J|J]; [discriminate|]. apply D; assumption.
  - crush H; injection H as <-.
    + now apply act_pool, act_pool.
    + destruct A as [A B C D]. constructor; st; auto.
      intros m md Hm Q. destruct (C _ _ Hm Q) as [c' [ks [acc J]]]. exists c', ks, acc.
      apply in_or_app. now left.
  - destruct (nth_error (cons s) c) as [cn|] eqn:Hc; [|discriminate].
    set (vs := map _ (cnodes cn)) in H.
    destruct A as [A B C D].
    assert (forall s1 m, cons s1 = cons s -> log s1 = ERun c vs :: log s ->
              owned_runs s1 m = owned_runs s m + own m cn) as RR.
    { intros s1 m EC EL. unfold owned_runs. rewrite EC, EL.
      pose proof (isum_at (fun c1 cn1 => own m cn1 * sum (w_run c1) (ERun c vs :: log s))
                          (fun c1 cn1 => own m cn1 * sum (w_run c1) (log s)) (cons s) 0 c cn Hc) as E.
      cbn [Nat.add sum w_run] in E. rewrite Nat.eqb_refl in E. cbn [b2n] in E.
      rewrite Nat.mul_add_distr_l in E. cbn [sum w_run].
      assert (forall j y, nth_error (cons s) j = Some y -> j <> c ->
                own m y * (b2n (Nat.eqb j c) + sum (w_run j) (log s)) =
                own m y * sum (w_run j) (log s)) as EE.
      { intros j y _ NE. apply Nat.eqb_neq in NE. now rewrite NE. }
      specialize (E EE). lia. }
    destruct (cowner cn) as [o|] eqn:Ow; injection H as <-; constructor; st.
    + intros m. rewrite sum_app, A. cbn [sum]. match goal with |- _ = _ + owned_runs ?x m => rewrite (RR x m eq_refl eq_refl) end.
      cbn. unfold own, w_act. rewrite Ow. cbn. lia.
    + intros m P. rewrite sum_app. cbn [sum]. unfold w_acted at 2. cbn [fst snd].
      rewrite andb_false_r. cbn. specialize (B m P). lia.
    + exact C.
    + intros c' cn' o' [J|J]; [discriminate|]. apply D; assumption.
    + intros m. rewrite A. match goal with |- _ = _ + owned_runs ?x m => rewrite (RR x m eq_refl eq_refl) end.
      cbn. unfold own. rewrite Ow. lia.
    + exact B.
    + exact C.
    + intros c' cn' o' [J|J]; [discriminate|]. apply D; assumption.
  - destruct (nth_error (cons s) c) as [cn|] eqn:Hc; [|discriminate].
    destruct (cowner cn) as [o|] eqn:Ow.
    + apply fail_node_emit in H. destruct H as [s1 [H ->]].
      assert (Inv (set_pool s (del (pool s) i))) as I1.
      { eapply inv_ext; [exact I|apply ext_refl; st; auto|..]; st.
        - exact (i_map1 _ I).
        - exact (i_map2 _ I).
        - auto.
        - intros t J. left. eapply In_del; eauto.
        - auto.
        - intros c' cn' o' H1 H2. left. exists cn'. auto.
        - intros n' b J. left. exists b. exact J.
        - auto.
        - intros m. pose proof (i_count _ I m). specialize (SD (w_create m)). cbn in *.
          unfold queuedn in *. st. lia. }
      apply act_emit; auto.
      * eapply act_fail_node; [exact I1| |exact H]. now apply act_pool.
      * intros c' cn' o' E H1 H2. injection E as <-.
        rewrite (fail_node_cons _ _ _ H) in H1. st.
        assert (o' = o) as -> by congruence. eapply fail_node_done; eauto.
    + injection H as <-. apply act_emit; auto; [now apply act_pool|].
      intros c' cn' o' E H1 H2. injection E as <-. st. congruence.
Qed.

(** The user code calls the setter or reports an error. *)
Lemma act_user : forall s j n b e s', Inv s -> Act s -> nth_error (acts s) j = Some (n, b) ->
  (forall m, w_start m e = 0) -> (forall c, w_run c e = 0) -> (forall c, e <> EFailed c) ->
  ext (emit (acted s j n) e) s' ->
  acts s' = upd (acts s) j (n, true) -> log s' = e :: log s -> cons s' = cons s ->
  procs s' = procs s -> ~ npending s' n ->
  (forall m md', nth_error (nodes s') m = Some md' ->
     exists md, nth_error (nodes s) m = Some md /\ nqueued md' = nqueued md) ->
  Act s'.
Proof.
  intros s j n b e s' I [A B C D] Ha S R F X EA EL EC EP NP EN. constructor.
  - intros m. rewrite EA, EL. cbn [sum]. rewrite S.
    rewrite (owned_runs_log s s' m EC) by (intros c; rewrite EL; cbn; now rewrite R).
    pose proof (sum_upd (w_act m) _ _ _ (n, true) Ha) as E. unfold w_act in *. cbn [fst] in *.
    specialize (A m). lia.
  - intros m P. rewrite EA, EC.
    pose proof (sum_upd (w_acted m) _ _ _ (n, true) Ha) as E.
    assert (forall d, w_acted m (n, d) = 0) as Z.
    { intros d. unfold w_acted. cbn. destruct (Nat.eqb_spec m n) as [->|NE]; [contradiction|reflexivity]. }
    rewrite !Z in E.
    assert (npending s m) as P'.
    { destruct P as [md' [Hm Pm]]. destruct (EN _ _ Hm) as [md [Hm' _]].
      apply (pending_back (emit (acted s j n) e) s'); [exact X| |exists md'; auto].
      st. now apply nth_some_lt in Hm'. }
    specialize (B m P'). lia.
  - intros m md' Hm Q. destruct (EN _ _ Hm) as [md [Hm' EQ]].
    destruct (C m md Hm') as [c [ks [acc J]]]; [congruence|]. exists c, ks, acc. now rewrite EP.
  - intros c cn o J Hc Ho P. rewrite EL in J. destruct J as [J|J]; [now apply (F c)|].
    rewrite EC in Hc. apply (D _ _ _ J Hc Ho).
    assert (o < length (nodes s)) as L.
    { pose proof (i_log _ I _ (i_owner _ I _ _ _ Hc Ho)) as [k [nd [Hn _]]].
      now apply nth_some_lt in Hn. }
    exact (pending_back (emit (acted s j n) e) s' o X L P).
Qed.

Lemma set_value_done : forall s n v s', set_value s n v = Some s' -> ~ npending s' n.
Proof.
  intros s n v s' H [nd' [Hn [R F]]]. unfold set_value in H.
  destruct (nth_error (nodes s) n) as [nd|] eqn:Hd; [|discriminate].
  destruct (nfailed nd) eqn:Fd; injection H as <-; st; [congruence|].
  rewrite nth_upd_same in Hn; [|now apply nth_some_lt in Hd].
  injection Hn as <-. discriminate R.
Qed.

Lemma upd_queued : forall (ns : list node) n nd nd' m md', nth_error ns n = Some nd ->
  nqueued nd' = nqueued nd -> nth_error (upd ns n nd') m = Some md' ->
  exists md, nth_error ns m = Some md /\ nqueued md' = nqueued md.
Proof.
  intros ns n nd nd' m md' H Q Hm. apply nth_upd in Hm.
  destruct Hm as [[<- [-> _]]|[_ Hm]]; eauto.
Qed.

Lemma act_step : forall s a s', Inv s -> Cnt s -> Act s -> step s a = Some s' -> Act s'.
Proof.
  intros s a s' I K A H. destruct a as [ks h|j ks|j v|j|i|i tid]; cbn in H.
  - injection H as <-. now apply act_start_call.
  - destruct (nth_error (acts s) j) as [[n b]|] eqn:Ha; [|discriminate].
    injection H as <-.
    assert (forall s', nodes s' = nodes s -> log s' = log s ->
              acts s' = upd (acts s) j (n, true) ->
              cons s' = cons s ++ [mkCons ks (Some n) false []] ->
              (forall p, In p (procs s) -> In p (procs s')) -> Act s') as G.
    { destruct A as [A B C D]. intros s' EN EL EA EC EP. constructor.
      - intros m. rewrite EA, EL, (owned_runs_app s s' m _ K EL EC).
        pose proof (sum_upd (w_act m) _ _ _ (n, true) Ha) as E.
        unfold w_act in *. cbn [fst] in *. specialize (A m). lia.
      - intros m [md [Hm P]]. rewrite EA, EC, sum_app. rewrite EN in Hm.
        pose proof (sum_upd (w_acted m) _ _ _ (n, true) Ha) as E.
        assert (w_acted m (n, true) = own m (mkCons ks (Some n) false [])) as Z.
        { unfold w_acted, own. cbn. now rewrite andb_true_r. }
        rewrite Z in E. cbn [sum].
        assert (npending s m) as P' by (exists md; auto).
        specialize (B m P'). lia.
      - intros m md Hm Q. rewrite EN in Hm. destruct (C _ _ Hm Q) as [c [ks' [acc J]]].
        exists c, ks', acc. auto.
      - intros c cn o J Hc Ho [od [Hod P]]. rewrite EN in Hod. rewrite EL in J.
        rewrite EC in Hc. apply nth_app_one in Hc. destruct Hc as [[_ Hc]|[-> _]].
        + apply (D _ _ _ J Hc Ho). exists od. auto.
        + destruct (i_log _ I _ J) as [pos [n' [cn' [[[Hc' _] _] _]]]].
          apply nth_some_lt in Hc'. lia. }
    unfold start_call. destruct ks; apply G; st; auto. intros p J. apply in_or_app. now left.
  - destruct (nth_error (acts s) j) as [[n b]|] eqn:Ha; [|discriminate].
    pose proof (set_value_ext _ _ _ _ H) as X. pose proof (set_value_done _ _ _ _ H) as ND.
    unfold set_value in H. st.
    destruct (nth_error (nodes s) n) as [nd|] eqn:Hn; [|discriminate].
    destruct (nfailed nd) eqn:Fd; injection H as <-;
      (eapply act_user with (e := ESet n v); [exact I|exact A|exact Ha| | | |exact X| | | | |exact ND|]; st; auto;
       try discriminate).
    + intros m md Hm. exists md. auto.
    + intros m md Hm. eapply upd_queued; [exact Hn| |exact Hm]; reflexivity.
  - destruct (nth_error (acts s) j) as [[n b]|] eqn:Ha; [|discriminate].
    pose proof (fail_node_ext _ _ _ H) as X. pose proof (fail_node_done _ _ _ H) as ND.
    unfold fail_node in H. st.
    destruct (nth_error (nodes s) n) as [nd|] eqn:Hn; [|discriminate].
    destruct (ready nd) eqn:Rd; [|destruct (nfailed nd) eqn:Fd]; injection H as <-;
      (eapply act_user with (e := EFatal n); [exact I|exact A|exact Ha| | | |exact X| | | | |exact ND|]; st; auto;
       try discriminate).
    + intros m md Hm. exists md. auto.
    + intros m md Hm. exists md. auto.
    + intros m md Hm. eapply upd_queued; [exact Hn| |exact Hm]; reflexivity.
  - eapply act_take_task; eauto.
  - eapply act_step_proc; eauto.
Qed.

Lemma act_init : Act (@init V).
Proof.
  constructor; cbn; intros; try contradiction; try lia.
  destruct n; discriminate.
Qed.

Record All s : Prop := { all_inv : Inv s; all_cnt : Cnt s; all_rec : Rec s; all_act : Act s }.

Lemma all_init : All (@init V).
Proof. constructor; [apply inv_init|apply cnt_init|apply rec_init|apply act_init]. Qed.

Lemma all_run : forall l s s', All s -> run s l = Some s' -> All s'.
Proof.
  induction l as [|a l IH]; cbn; intros s s' [I K R A] H.
  - injection H as <-. constructor; auto.
  - destruct (step s a) as [s1|] eqn:E; [|discriminate].
    eapply IH; [|exact H]. constructor.
    + eapply inv_step; eauto.
    + eapply cnt_step; eauto.
    + eapply rec_step; eauto.
    + eapply act_step; eauto.
Qed.

(** ** The requests reported *)

Lemma add_request_keys : forall r k ds, NoDup (map fst r) ->
  NoDup (map fst (add_request r k ds)) /\
  (forall x, In x (map fst (add_request r k ds)) <-> x = k \/ In x (map fst r)).
Proof.
  induction r as [|[k' ds'] r IH]; cbn; intros k ds N.
  - split; [constructor; [intros []|constructor]|]. intros x. intuition.
  - inversion N; subst. destruct (Nat.eqb_spec k k') as [->|NE]; cbn.
    + split; [exact N|]. intros x. intuition.
    + destruct (IH k ds) as [N' K]; [assumption|]. split.
      * constructor; [|exact N']. rewrite K. intros [->|J]; [congruence|contradiction].
      * intros x. rewrite K. intuition.
Qed.

Lemma add_request_edges : forall r k ds a b,
  waits_for (add_request r k ds) a b <-> waits_for r a b \/ (a = k /\ In b ds).
Proof.
  unfold waits_for. induction r as [|[k' ds'] r IH]; cbn; intros k ds a b.
  - split.
    + intros [e [[E|[]] J]]. injection E as <- <-. auto.
    + intros [[e [[] _]]|[-> J]]. exists ds. auto.
  - destruct (Nat.eqb_spec k k') as [->|NE]; cbn.
    + split.
      * intros [e [[E|J] B]].
        -- injection E as <- <-. apply in_app_or in B. destruct B as [B|B]; [|auto].
           left. exists ds'. auto.
        -- left. exists e. auto.
      * intros [[e [[E|J] B]]|[-> B]].
        -- injection E as <- <-. exists (ds' ++ ds). split; [auto|]. apply in_or_app. auto.
        -- exists e. auto.
        -- exists (ds' ++ ds). split; [auto|]. apply in_or_app. auto.
    + split.
      * intros [e [[E|J] B]].
        -- left. exists e. auto.
        -- destruct (proj1 (IH k ds a b)) as [[e' [J' B']]|Q]; [exists e; auto| |auto].
           left. exists e'. auto.
      * intros [[e [[E|J] B]]|Q].
        -- exists e. auto.
        -- destruct (proj2 (IH k ds a b)) as [e' [J' B']]; [left; exists e; auto|]. exists e'. auto.
        -- destruct (proj2 (IH k ds a b)) as [e' [J' B']]; [right; exact Q|]. exists e'. auto.
Qed.

Lemma pending_requests_fold : forall s l r,
  NoDup (map fst r) ->
  let r' := fold_left (fun r '(k, n) =>
               match nth_error (nodes s) n with
               | Some nd => add_request r k (if ready nd then [] else [nkey nd])
               | None => r
               end) l r in
  NoDup (map fst r') /\
  forall a b, waits_for r' a b <->
    waits_for r a b \/
    exists n nd, In (a, n) l /\ nth_error (nodes s) n = Some nd /\
                 ready nd = false /\ nkey nd = b.
Proof.
  intros s. induction l as [|[k n] l IH]; cbn; intros r N.
  - split; [exact N|]. intros a b. split; [auto|]. intros [H|[n [nd [[] _]]]]. exact H.
  - destruct (nth_error (nodes s) n) as [nd|] eqn:Hn.
    + destruct (add_request_keys r k (if ready nd then [] else [nkey nd]) N) as [N' _].
      destruct (IH _ N') as [N2 E]. split; [exact N2|]. intros a b. rewrite E, add_request_edges.
      split.
      * intros [[H|[-> H]]|[m [md [J R]]]].
        -- auto.
        -- right. destruct (ready nd) eqn:Rd; [destruct H|]. destruct H as [<-|[]].
           exists n, nd. auto.
        -- right. exists m, md. tauto.
      * intros [H|[m [md [[J|J] [Hm [R K]]]]]].
        -- auto.
        -- injection J as <- <-. assert (md = nd) as -> by congruence. left. right.
           rewrite R. cbn. auto.
        -- right. exists m, md. auto.
    + destruct (IH _ N) as [N2 E]. split; [exact N2|]. intros a b. rewrite E. split.
      * intros [H|[m [md [J R]]]]; [auto|]. right. exists m, md. tauto.
      * intros [H|[m [md [[J|J] [Hm R]]]]]; [auto| |right; exists m, md; auto].
        injection J as <- <-. congruence.
Qed.

Lemma pending_requests_spec : forall s,
  NoDup (map fst (pending_requests s)) /\
  forall a b, waits_for (pending_requests s) a b <->
    exists n nd, recorded s a n /\ nth_error (nodes s) n = Some nd /\
                 ready nd = false /\ nkey nd = b.
Proof.
  intros s. destruct (pending_requests_fold s (flat_map snd (reqs s)) []) as [N E].
  - constructor.
  - split; [exact N|]. intros a b. unfold pending_requests. rewrite E. split.
    + intros [[ds [[] _]]|H]. exact H.
    + auto.
Qed.

(** ** At rest *)

Definition at_rest s : Prop := procs s = [] /\ pool s = [].

Lemma rest_parked : forall s c, All s -> at_rest s -> 0 < sum (w_await c) (nodes s) ->
  exists n nd pos, nth_error (nodes s) n = Some nd /\ pending nd /\
    In (TWhenAll c (S pos)) (nawait nd).
Proof.
  intros s c [I K R A] [EP EL] P. apply sum_pos in P. destruct P as [nd [J W]].
  apply In_nth_error in J. destruct J as [n Hn]. unfold w_await in W.
  apply sum_pos in W. destruct W as [t [J W]].
  destruct (wn_await _ _ _ (i_nodes _ I _ _ Hn) _ J) as [c' [pos [cn [-> At]]]].
  cbn in W. destruct (Nat.eqb_spec c c') as [<-|]; [|cbn in W; lia].
  exists n, nd, pos. split; [exact Hn|]. split; [|exact J].
  split; [destruct (ready nd) eqn:E|destruct (nfailed nd) eqn:E]; auto.
  - rewrite (wn_ready _ _ _ (i_nodes _ I _ _ Hn) E) in J. destruct J.
  - destruct (wn_failed _ _ _ (i_nodes _ I _ _ Hn) E) as [E' _]. rewrite E' in J. destruct J.
Qed.

(** Every pending node waits for another pending node. *)
Lemma rest_waits : forall s n, All s -> at_rest s ->
  (forall j m b, nth_error (acts s) j = Some (m, b) -> b = true) ->
  npending s n ->
  exists m, npending s m /\
    exists nd md, nth_error (nodes s) n = Some nd /\ nth_error (nodes s) m = Some md /\
      recorded s (nkey nd) m.
Proof.
  intros s n AL RS AA P. pose proof AL as [I K R A]. pose proof RS as [EP EL].
  destruct P as [nd [Hn Pn]].
  assert (sum (w_start n) (log s) = 1) as S1.
  { pose proof (i_count _ I n) as C. rewrite EP, EL in C. cbn in C. unfold queuedn in C.
    rewrite Hn in C. destruct (nqueued nd) eqn:Q; [exact C|].
    destruct (a_unq _ A _ _ Hn Q) as [c [ks [acc J]]]. rewrite EP in J. destruct J. }
  assert (sum (w_act n) (acts s) = sum (w_acted n) (acts s)) as EA.
  { apply sum_ext. intros [m b] J. apply In_nth_error in J. destruct J as [j Hj].
    apply AA in Hj. subst b. unfold w_act, w_acted. cbn. now rewrite andb_true_r. }
  pose proof (a_count _ A n) as C1.
  pose proof (a_acted _ A n (ex_intro _ nd (conj Hn Pn))) as C2.
  assert (owned_runs s n < sum (own n) (cons s)) as LT by lia.
  assert (exists c cn, nth_error (cons s) c = Some cn /\ own n cn = 1 /\
            sum (w_run c) (log s) = 0) as [c [cn [Hc [Ow Rn]]]].
  { unfold owned_runs in LT. rewrite <- (isum_const (own n) (cons s) 0) in LT.
    assert (forall l i, isum (fun c cn => own n cn * sum (w_run c) (log s)) i l <
                        isum (fun _ => own n) i l ->
              exists c cn, nth_error l c = Some cn /\ own n cn = 1 /\
                sum (w_run (i + c)) (log s) = 0) as G.
    { induction l as [|x l IH]; cbn; intros i L; [lia|].
      assert (own n x = 0 \/ own n x = 1) as [O|O].
      { unfold own. destruct (cowner x); [destruct (Nat.eqb n n0); cbn; auto|auto]. }
      - rewrite O in L. destruct (IH (S i)) as [c [cn [H1 [H2 H3]]]]; [cbn in L; lia|].
        exists (S c), cn. rewrite Nat.add_succ_r. auto.
      - destruct (sum (w_run i) (log s)) eqn:E.
        + exists 0, x. rewrite Nat.add_0_r. auto.
        + rewrite O in L. destruct (IH (S i)) as [c [cn [H1 [H2 H3]]]]; [cbn in L; lia|].
          exists (S c), cn. rewrite Nat.add_succ_r. auto. }
    destruct (G _ _ LT) as [c [cn H]]. exists c, cn. exact H. }
  unfold own in Ow. destruct (cowner cn) as [o|] eqn:Eo; [|discriminate].
  destruct (Nat.eqb_spec n o) as [->|]; [|discriminate].
  assert (failing s c) as Fc by (exists cn; split; [exact Hc|]; unfold has_fail; now rewrite Eo).
  pose proof (k_fail _ K c Fc) as KF. rewrite EP in KF. cbn [sum] in KF.
  unfold places, failures in KF. rewrite EP, EL, Rn in KF. cbn [sum] in KF.
  destruct (sum (w_await c) (nodes s)) eqn:W.
  - exfalso. assert (0 < sum (w_failed c) (log s)) as PF by lia.
    apply sum_pos in PF. destruct PF as [e [J We]].
    destruct e as [| | | |c']; cbn in We; try lia.
    destruct (Nat.eqb_spec c c') as [<-|]; [|cbn in We; lia].
    apply (a_failed _ A _ _ _ J Hc Eo). exists nd. auto.
  - destruct (rest_parked s c AL RS) as [m [md [pos [Hm [Pm J]]]]]; [lia|].
    exists m. split; [exists md; auto|]. exists nd, md. split; [exact Hn|]. split; [exact Hm|].
    destruct (r_all _ R m c pos cn o (ex_intro _ md (conj Hm J)) Hc Eo) as [J'|[ndo [Ho Rc]]].
    + rewrite EP in J'. destruct J'.
    + assert (ndo = nd) as -> by congruence. exact Rc.
Qed.

Lemma rest_cycle : forall s n, All s -> at_rest s ->
  (forall j m b, nth_error (acts s) j = Some (m, b) -> b = true) ->
  forall nd, nth_error (nodes s) n = Some nd -> pending nd ->
  exists k, clos_refl_trans key (waits_for (pending_requests s)) (nkey nd) k /\
            clos_trans key (waits_for (pending_requests s)) k k.
Proof.
  intros s n AL RS AA nd Hn Pn.
  pose proof (pending_requests_spec s) as [_ PR].
  set (isp := fun m => match nth_error (nodes s) m with
                       | Some nd => negb (ready nd) && negb (nfailed nd)
                       | None => false end).
  assert (forall m, isp m = true <-> npending s m) as IP.
  { intros m. unfold isp, npending, pending. split.
    - intros E. destruct (nth_error (nodes s) m) as [md|]; [|discriminate].
      exists md. apply andb_true_iff in E. rewrite !negb_true_iff in E. auto.
    - intros [md [-> [-> ->]]]. reflexivity. }
  set (L := map (fun m => match nth_error (nodes s) m with Some nd => nkey nd | None => 0 end)
                (filter isp (seq 0 (length (nodes s))))).
  assert (forall m md, nth_error (nodes s) m = Some md -> pending md -> In (nkey md) L) as IL.
  { intros m md Hm Pm. unfold L. apply in_map_iff. exists m. rewrite Hm. split; [reflexivity|].
    apply filter_In. split; [apply in_seq; apply nth_some_lt in Hm; lia|].
    apply IP. exists md. auto. }
  apply (successors_cycle (waits_for (pending_requests s)) L); [|eapply IL; eauto].
  intros x J. unfold L in J. apply in_map_iff in J. destruct J as [m [E J]].
    apply filter_In in J. destruct J as [_ J]. apply IP in J.
    destruct (rest_waits s m AL RS AA J) as [m' [[md' [Hm' P']] [nd0 [md [H1 [H2 H3]]]]]].
    rewrite H1 in E. subst x. exists (nkey md'). split; [eapply IL; eauto|].
    apply PR. exists m', md'. split; [exact H3|]. split; [exact Hm'|].
    split; [apply P'|reflexivity].
Qed.

End Act.
