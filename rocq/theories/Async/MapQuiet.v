(** Recorded requests, started user code, and what this means once there is
    nothing left to do. *)

From Coq Require Import List Arith Bool Lia Relations.
From Verif Require Import Async.Lists Async.Cycle Async.Map Async.MapInv Async.MapCount.
Import ListNotations.

Section ISum.
Context {A : Type}.

Fixpoint isum (f : nat -> A -> nat) (i : nat) (l : list A) : nat :=
  match l with
  | [] => 0
  | x :: l' => f i x + isum f (S i) l'
  end.

Lemma isum_app : forall f l1 l2 i,
  isum f i (l1 ++ l2) = isum f i l1 + isum f (i + length l1) l2.
Proof.
  induction l1; cbn; intros l2 i.
  - now rewrite Nat.add_0_r.
  - rewrite IHl1. rewrite Nat.add_succ_r. cbn. lia.
Qed.

Lemma isum_ext : forall f g l i,
  (forall j x, nth_error l j = Some x -> f (i + j) x = g (i + j) x) ->
  isum f i l = isum g i l.
Proof.
  induction l as [|x l IH]; cbn; intros i H; [reflexivity|].
  rewrite (IH (S i)).
  - pose proof (H 0 x eq_refl) as H0. rewrite Nat.add_0_r in H0. lia.
  - intros j y Hy. specialize (H (S j) y Hy). rewrite Nat.add_succ_r in H. exact H.
Qed.

Lemma isum_le : forall f g l i,
  (forall j x, nth_error l j = Some x -> f (i + j) x <= g (i + j) x) ->
  isum f i l <= isum g i l.
Proof.
  induction l as [|x l IH]; cbn; intros i H; [lia|].
  assert (isum f (S i) l <= isum g (S i) l).
  { apply IH. intros j y Hy. specialize (H (S j) y Hy). rewrite Nat.add_succ_r in H. exact H. }
  pose proof (H 0 x eq_refl) as H9. rewrite Nat.add_0_r in H9. lia.
Qed.

Lemma isum_upd : forall f l i c x y, nth_error l c = Some x -> f (i + c) y = f (i + c) x ->
  isum f i (upd l c y) = isum f i l.
Proof.
  induction l as [|z l IH]; destruct c; cbn; intros x y H E; try discriminate.
  - injection H as ->. rewrite Nat.add_0_r in E. lia.
  - rewrite (IH (S i) c x y H); [reflexivity|]. rewrite Nat.add_succ_r in E. exact E.
Qed.

Lemma isum_at : forall f g l i c x, nth_error l c = Some x ->
  (forall j y, nth_error l j = Some y -> j <> c -> f (i + j) y = g (i + j) y) ->
  isum f i l + g (i + c) x = isum g i l + f (i + c) x.
Proof.
  induction l as [|z l IH]; destruct c; cbn; intros x H E; try discriminate.
  - injection H as ->. rewrite Nat.add_0_r.
    rewrite (isum_ext f g l (S i)); [lia|].
    intros j y Hy. specialize (E (S j) y Hy). rewrite Nat.add_succ_r in E. apply E. lia.
  - specialize (IH (S i) c x H).
    assert (f i z = g i z) as E0.
    { specialize (E 0 z eq_refl). rewrite Nat.add_0_r in E. apply E. lia. }
    rewrite Nat.add_succ_r. cbn in IH.
    assert (isum f (S i) l + g (S (i + c)) x = isum g (S i) l + f (S (i + c)) x).
    { apply IH. intros j y Hy NE. specialize (E (S j) y Hy).
      rewrite Nat.add_succ_r in E. apply E. lia. }
    lia.
Qed.

Lemma isum_const : forall (f : A -> nat) l i, isum (fun _ => f) i l = sum f l.
Proof. induction l; cbn; intros; auto. Qed.
End ISum.

Section Quiet.
Context {V : Type}.
Notation state := (@state V).
Notation node := (@node V).
Implicit Types s : state.

Ltac st := cbn [nodes kmap cons pool procs reqs acts log set_nodes set_node
                set_kmap set_cons set_pool set_procs set_reqs set_acts emit queue acted] in *.

Ltac crush H := repeat match type of H with
  | context [match ?x with _ => _ end] => destruct x eqn:?; try discriminate H
  end.

(** ** Recorded requests *)

Definition recorded s (k : key) (n : nat) : Prop := In (k, n) (flat_map snd (reqs s)).

Definition parked s c pos n : Prop :=
  exists nd, nth_error (nodes s) n = Some nd /\ In (TWhenAll c (S pos)) (nawait nd).

Record Rec s : Prop := {
  r_all : forall n c pos cn o, parked s c pos n ->
     nth_error (cons s) c = Some cn -> cowner cn = Some o ->
     In (PRecord c pos) (procs s) \/
     (exists ndo, nth_error (nodes s) o = Some ndo /\ recorded s (nkey ndo) n);
  r_only : forall k n, recorded s k n ->
     exists c cn o ndo pos, nth_error (cons s) c = Some cn /\ cowner cn = Some o /\
       nth_error (nodes s) o = Some ndo /\ nkey ndo = k /\ at_node s c pos n cn
}.

Lemma record_In : forall r tid k n k' n',
  In (k', n') (flat_map snd (record r tid k n)) <->
  (k' = k /\ n' = n) \/ In (k', n') (flat_map snd r).
Proof.
  induction r as [|[t l] r IH]; intros tid k n k' n'; cbn.
  - intuition; try congruence; try tauto. injection H0. auto.
  - destruct (Nat.eqb tid t); cbn; rewrite !in_app_iff; cbn.
    + intuition; try congruence. injection H0; auto.
    + rewrite IH. tauto.
Qed.

(** Steps that neither park a consumer nor record a request. *)
Lemma rec_keep : forall s s', Rec s -> ext s s' ->
  (forall c pos n, parked s' c pos n -> parked s c pos n) ->
  (forall c pos, In (PRecord c pos) (procs s) -> In (PRecord c pos) (procs s')) ->
  reqs s' = reqs s ->
  (forall c cn, nth_error (cons s') c = Some cn ->
     (exists cn0, nth_error (cons s) c = Some cn0 /\ cowner cn0 = cowner cn) \/
     (length (cons s) <= c)) ->
  Inv s -> Rec s'.
Proof.
  intros s s' [A O] X P Q E C I. constructor.
  - intros n c pos cn o Pk Hc Ho. apply P in Pk.
    destruct (C c cn Hc) as [[cn0 [Hc0 Ho0]]|L].
    + destruct (A n c pos cn0 o Pk Hc0) as [J|[ndo [Hn R]]]; [congruence|auto|].
      right. destruct (x_nodes _ _ X _ _ Hn) as [nd' [Hn' [K _]]].
      exists nd'. split; [exact Hn'|]. unfold recorded. now rewrite E, K.
    + exfalso. destruct Pk as [nd [Hn J]].
      destruct (wn_await _ _ _ (i_nodes _ I _ _ Hn) _ J) as [c' [pos' [cn' [Eq [[Hc' _] _]]]]].
      injection Eq as <- _. apply nth_some_lt in Hc'. lia.
  - intros k n R. unfold recorded in R. rewrite E in R.
    destruct (O k n R) as [c [cn [o [ndo [pos [Hc [Ho [Hn [K A1]]]]]]]]].
    destruct (x_nodes _ _ X _ _ Hn) as [nd' [Hn' [K' _]]].
    exists c, cn, o, nd', pos. split; [eapply x_res; [exact X|apply A1]|].
    split; [exact Ho|]. split; [exact Hn'|]. split; [congruence|].
    eapply at_node_ext; eauto.
Qed.

Lemma parked_upd : forall s s' n nd nd', nth_error (nodes s) n = Some nd ->
  nodes s' = upd (nodes s) n nd' -> (forall t, In t (nawait nd') -> In t (nawait nd)) ->
  forall c pos m, parked s' c pos m -> parked s c pos m.
Proof.
  intros s s' n nd nd' H E L c pos m [md [Hm J]]. rewrite E in Hm.
  apply nth_upd in Hm. destruct Hm as [[<- [-> _]]|[_ Hm]].
  - exists nd. auto.
  - exists md. auto.
Qed.

Lemma parked_same : forall s s', nodes s' = nodes s ->
  forall c pos m, parked s' c pos m -> parked s c pos m.
Proof. intros s s' E c pos m [md [Hm J]]. exists md. split; [congruence|exact J]. Qed.

Lemma rec_fail_node : forall s n s', Inv s -> Rec s -> fail_node s n = Some s' -> Rec s'.
Proof.
  intros s n s' I R H. pose proof (fail_node_ext _ _ _ H) as X.
  unfold fail_node in H. crush H; injection H as <-; auto.
  eapply rec_keep; eauto; st; eauto.
  eapply parked_upd; [eassumption|reflexivity|]. cbn. tauto.
Qed.

Lemma rec_set_value : forall s n v s', Inv s -> Rec s -> set_value s n v = Some s' -> Rec s'.
Proof.
  intros s n v s' I R H. pose proof (set_value_ext _ _ _ _ H) as X.
  unfold set_value in H. crush H; injection H as <-; auto.
  eapply rec_keep; eauto; st; eauto.
  eapply parked_upd; [eassumption|reflexivity|]. cbn. tauto.
Qed.

Lemma rec_start_call : forall s ks owner h, Inv s -> Rec s -> Rec (start_call s ks owner h).
Proof.
  intros s ks owner h I R. unfold start_call.
  destruct ks; (eapply rec_keep; [exact R|eapply ext_new_cons; st; reflexivity || auto|..]; st; auto);
    try (apply parked_same; reflexivity);
    try (intros c cn Hc; apply nth_app_one in Hc; destruct Hc as [[_ Hc]|[-> _]];
         [left; exists cn; auto|right; lia]).
  intros c pos J. apply in_or_app. now left.
Qed.

Lemma In_upd_proc : forall s i p p' c pos, nth_error (procs s) i = Some p ->
  p <> PRecord c pos -> In (PRecord c pos) (procs s) ->
  In (PRecord c pos) (upd (procs s) i p').
Proof.
  intros s i p p' c pos H N J.
  destruct (In_upd_or _ _ _ _ p' H J) as [E|]; [congruence|assumption].
Qed.

Lemma In_del_proc : forall s i p c pos, nth_error (procs s) i = Some p ->
  p <> PRecord c pos -> In (PRecord c pos) (procs s) ->
  In (PRecord c pos) (del (procs s) i).
Proof.
  intros s i p c pos H N J.
  destruct (In_del_or _ _ _ _ H J) as [E|]; [congruence|assumption].
Qed.

Ltac prp := intros; (eapply In_upd_proc + eapply In_del_proc); eauto; discriminate.
Ltac kp := eapply rec_keep; eauto; st; try (apply parked_same; reflexivity); try prp; eauto.

Lemma rec_step_proc : forall s i tid s', Inv s -> Rec s ->
  step_proc s i tid = Some s' -> Rec s'.
Proof.
  intros s i tid s' I R H. pose proof (step_proc_ext _ _ _ _ I H) as X.
  unfold step_proc in H.
  destruct (nth_error (procs s) i) as [p|] eqn:Hp; [|discriminate].
  pose proof (i_procs _ I p (nth_error_In _ _ Hp)) as W.
  assert (forall c cn, nth_error (cons s) c = Some cn ->
     (exists cn0, nth_error (cons s) c = Some cn0 /\ cowner cn0 = cowner cn) \/
     (length (cons s) <= c)) as CS by (intros c cn Hc; left; exists cn; auto).
  destruct p as [c ks acc|c k ks acc|c n ks acc|c n ks acc|c pos|c pos|c pos|c pos|c pos].
  - destruct ks as [|k ks]; crush H; injection H as <-; kp.
    intros c' cn' Hc'. left. apply nth_upd in Hc'.
    destruct Hc' as [[<- [-> _]]|[_ Hc']]; eauto.
  - crush H; injection H as <-; kp.
    intros c' pos m [md [Hm J]]. st. apply nth_app_one in Hm.
    destruct Hm as [[_ Hm]|[-> ->]]; [exists md; auto|destruct J].
  - crush H; injection H as <-; kp.
    eapply parked_upd; [eassumption|reflexivity|]; cbn; auto.
  - injection H as <-; kp.
  - crush H; injection H as <-; kp.
  - crush H; injection H as <-; kp.
    eapply parked_upd; [eassumption|reflexivity|]; cbn; auto.
  - crush H; injection H as <-; kp.
  - (* PWait2 *)
    destruct (nth_error (cons s) c) as [cn|] eqn:Hc; [|discriminate].
    destruct (nth_error (cnodes cn) pos) as [n|] eqn:Hpos; [|discriminate].
    destruct (nth_error (nodes s) n) as [nd|] eqn:Hn; [|discriminate].
    destruct (nfailed nd) eqn:F; [|destruct (ready nd) eqn:Rd].
    + crush H; injection H as <-; kp.
    + crush H; injection H as <-; kp.
    + set (nd1 := mkNode (nkey nd) (nqueued nd) (nvalue nd) false
                         (nawait nd ++ [TWhenAll c (S pos)]) (nonfail nd)) in *.
      assert (forall c' pos' m, nodes s' = upd (nodes s) n nd1 -> parked s' c' pos' m ->
                parked s c' pos' m \/ (c' = c /\ pos' = pos /\ m = n)) as PK.
      { intros c' pos' m E [md [Hm J]]. rewrite E in Hm. apply nth_upd in Hm.
        destruct Hm as [[<- [-> _]]|[_ Hm]].
        - cbn [nawait nd1] in J. apply In_app_one in J. destruct J as [J|J].
          + left. exists nd. auto.
          + injection J as -> ->. auto.
        - left. exists md. auto. }
      assert (nodes s' = upd (nodes s) n nd1 /\ cons s' = cons s /\ reqs s' = reqs s)
        as [EN [EC ER]] by (crush H; injection H as <-; auto).
      assert (forall c' pos', In (PRecord c' pos') (procs s) ->
                              In (PRecord c' pos') (procs s')) as PR.
      { intros c' pos' J. crush H; injection H as <-; st;
          (eapply In_upd_proc + eapply In_del_proc); eauto; discriminate. }
      destruct R as [A O]. constructor.
      * intros m c' pos' cn' o Pk Hc' Ho. rewrite EC in Hc'.
        destruct (PK c' pos' m EN Pk) as [Pk'|[-> [-> ->]]].
        -- destruct (A m c' pos' cn' o Pk' Hc' Ho) as [J|[ndo [Ho' Rc]]]; [auto|right].
           destruct (x_nodes _ _ X _ _ Ho') as [nd' [Hn' [K _]]].
           exists nd'. split; [exact Hn'|]. unfold recorded. now rewrite ER, K.
        -- left. assert (cn' = cn) as -> by congruence. rewrite Ho in H.
           injection H as <-. st. eapply In_upd_new; eauto.
      * intros k m Rc. unfold recorded in Rc. rewrite ER in Rc.
        destruct (O k m Rc) as [c1 [cn1 [o [ndo [pos1 [Hc1 [Ho [Hn1 [K A1]]]]]]]]].
        destruct (x_nodes _ _ X _ _ Hn1) as [nd' [Hn' [K' _]]].
        exists c1, cn1, o, nd', pos1. split; [congruence|].
        split; [exact Ho|]. split; [exact Hn'|]. split; [congruence|].
        eapply at_node_ext; eauto.
  - (* PRecord *)
    destruct (nth_error (cons s) c) as [cn|] eqn:Hc; [|discriminate].
    destruct (cowner cn) as [o|] eqn:Ow; [|discriminate].
    destruct (nth_error (cnodes cn) pos) as [n|] eqn:Hpos; [|discriminate].
    destruct (nth_error (nodes s) o) as [ndo|] eqn:Hn; [|discriminate].
    injection H as <-. destruct R as [A O]. constructor.
    + intros m c' pos' cn' o' Pk Hc' Ho'. st.
      destruct (A m c' pos' cn' o' Pk Hc' Ho') as [J|[ndo' [Hn' Rc]]].
      * destruct (In_del_or _ _ _ _ Hp J) as [E|]; [|now left].
        injection E as -> ->. right.
        assert (cn' = cn) as -> by congruence. assert (o' = o) as -> by congruence.
        exists ndo. split; [exact Hn|]. unfold recorded. st. apply record_In. left.
        split; [reflexivity|].
        destruct Pk as [nd [Hm J']].
        destruct (wn_await _ _ _ (i_nodes _ I _ _ Hm) _ J') as [c1 [p1 [cn1 [E1 [[Hc1 _] [N1 _]]]]]].
        injection E1 as <- <-. congruence.
      * right. exists ndo'. split; [exact Hn'|]. unfold recorded. st. apply record_In. now right.
    + intros k m Rc. unfold recorded in Rc. st. apply record_In in Rc.
      destruct Rc as [[-> ->]|Rc].
      * exists c, cn, o, ndo, pos. split; [exact Hc|]. split; [exact Ow|].
        split; [exact Hn|]. split; [reflexivity|].
        destruct W as [[cn' [n' A1]] _].
        assert (nth_error (cons s) c = Some cn') as Hc' by apply A1.
        assert (cn' = cn) as -> by congruence.
        assert (n' = n) as -> by (destruct A1 as [_ [A1 _]]; congruence). exact A1.
      * destruct (O k m Rc) as [c1 [cn1 [o1 [ndo1 [pos1 [Hc1 [Ho [Hn1 [K A1]]]]]]]]].
        exists c1, cn1, o1, ndo1, pos1. auto.
Qed.

Lemma rec_irrel : forall s s', nodes s' = nodes s -> cons s' = cons s ->
  reqs s' = reqs s -> (forall c pos, In (PRecord c pos) (procs s) -> In (PRecord c pos) (procs s')) ->
  (forall e, In e (log s) -> In e (log s')) ->
  Inv s -> Rec s -> Rec s'.
Proof.
  intros s s' N C Q P L I R. eapply rec_keep; eauto.
  - now apply ext_refl.
  - now apply parked_same.
  - intros c cn H. left. exists cn. split; congruence.
Qed.

Lemma rec_step : forall s a s', Inv s -> Rec s -> step s a = Some s' -> Rec s'.
Proof.
  intros s a s' I R H. destruct a as [ks h|j ks|j v|j|i|i tid]; cbn in H.
  - injection H as <-. now apply rec_start_call.
  - destruct (nth_error (acts s) j) as [[n b]|] eqn:Ha; [|discriminate].
    injection H as <-. apply rec_start_call.
    + eapply inv_acted; eauto.
    + eapply rec_irrel; [..|exact I|exact R]; st; auto.
  - destruct (nth_error (acts s) j) as [[n b]|] eqn:Ha; [|discriminate].
    eapply rec_set_value; [| |exact H].
    + apply (inv_emit_acts s (ESet n v) (upd (acts s) j (n, true)));
        [exact I| |exact Logic.I|reflexivity].
      intros m d J. apply In_upd in J. destruct J as [J|J]; eauto.
      injection J as -> ->. left. exists b. eapply nth_error_In; eauto.
    + eapply rec_irrel; [..|exact I|exact R]; st; auto. intros; now right.
  - destruct (nth_error (acts s) j) as [[n b]|] eqn:Ha; [|discriminate].
    eapply rec_fail_node; [| |exact H].
    + apply (inv_emit_acts s (EFatal n) (upd (acts s) j (n, true)));
        [exact I| |exact Logic.I|reflexivity].
      intros m d J. apply In_upd in J. destruct J as [J|J]; eauto.
      injection J as -> ->. left. exists b. eapply nth_error_In; eauto.
    + eapply rec_irrel; [..|exact I|exact R]; st; auto. intros; now right.
  - unfold take_task in H. destruct (nth_error (pool s) i) as [t|] eqn:Ht; [|discriminate].
    pose proof (i_pool _ I t (nth_error_In _ _ Ht)) as W.
    pose proof (fun f => sum_del f _ _ _ Ht) as SD.
    destruct t as [n|c pos|c|c]; st.
    + injection H as <-. eapply rec_irrel; [..|exact I|exact R]; st; auto.
      intros; now right.
    + crush H; injection H as <-; (eapply rec_irrel; [..|exact I|exact R]; st; auto).
      intros c' pos' J. apply in_or_app. now left.
    + crush H; injection H as <-; (eapply rec_irrel; [..|exact I|exact R]; st; auto);
        intros; now right.
    + destruct (nth_error (cons s) c) as [cn|] eqn:Hc; [|discriminate].
      assert (Rec (emit (set_pool s (del (pool s) i)) (EFailed c))) as R1.
      { eapply rec_irrel; [..|exact I|exact R]; st; auto. intros; now right. }
      destruct (cowner cn); [|injection H as <-; exact R1].
      eapply rec_fail_node; [|exact R1|exact H].
      assert (ext s (emit (set_pool s (del (pool s) i)) (EFailed c))) as X
        by (apply ext_refl; st; auto; intros; now right).
      eapply inv_ext; [exact I|exact X|..]; st.
      * exact (i_map1 _ I).
      * exact (i_map2 _ I).
      * auto.
      * intros t J. left. eapply In_del; eauto.
      * auto.
      * intros c' cn' o' H1 H2. left. exists cn'. auto.
      * intros n' b J. left. exists b. exact J.
      * intros e [<-|J]; [right|now left]. eapply failed_at_ext; eauto.
      * intros m. pose proof (i_count _ I m). specialize (SD (w_create m)). cbn in *.
        unfold queuedn in *. st. lia.
  - eapply rec_step_proc; eauto.
Qed.

Lemma rec_init : Rec (@init V).
Proof.
  constructor; cbn.
  - intros n c pos cn o [nd [H _]]. destruct n; discriminate.
  - intros k n [].
Qed.

End Quiet.
