(** Every step of a thread of the task system keeps the balance of [Loc]. *)

From Coq Require Import List Arith Bool Lia.
From Verif Require Import Async.Lists Async.Tasks Async.TasksInv.
Import ListNotations.

Lemma loc_run : forall x x' o o' j t, j < length (queues x) -> nofin o' ->
  Loc x (Client o) x' (Client o') -> Loc x (Worker j (WRun t o)) x' (Worker j (WRun t o')).
Proof.
  intros x x' o o' j t J NF L. constructor; try apply L.
  - pose proof (l_cnt _ _ _ _ L). cbn in *. lia.
  - reflexivity.
  - intros u. pose proof (l_task _ _ _ _ L u). cbn in *. lia.
  - intros u. pose proof (l_start _ _ _ _ L u). cbn in *. lia.
  - pose proof (l_ok _ _ _ _ L) as K. pose proof (l_len _ _ _ _ L) as E. cbn in *.
    split; [lia|split; assumption].
  - intros q A. discriminate A.
Qed.

Lemma eqn_refl : forall a, eqn a a = 1.
Proof. intros a. unfold eqn. now rewrite Nat.eqb_refl. Qed.

Lemma occ_app : forall t l m, occ t (l ++ m) = occ t l + occ t m.
Proof. intros. unfold occ. apply sum_app. Qed.

Lemma lock_inv : forall x q x', lock_q x q = Some x' -> exists Q,
  nth_error (queues x) q = Some Q /\ qlock Q = false /\ x' = set_q x q (with_lock Q true).
Proof.
  intros x q x' H. unfold lock_q in H. destruct (nth_error (queues x) q) as [Q|] eqn:E; [|discriminate].
  destruct (qlock Q) eqn:K; [discriminate|]. injection H as <-. eauto.
Qed.

Lemma own_held : forall x th q Q, 0 < length (queues x) ->
  nth_error (queues x) q = Some Q -> 0 < ho (length (queues x)) q th ->
  (forall p, ho (length (queues x)) p th <= lockn x p) -> qlock Q = true.
Proof.
  intros x th q Q N H P L. specialize (L q). unfold lockn in L. rewrite H in L.
  destruct (qlock Q); cbn in *; [reflexivity|lia].
Qed.

Ltac triv :=
  intros; cbn [set_q set_queues queues index shut count cdone cgen next started completed dropped
               increment abort set_shut log_start log_complete log_drop new_task
               items qdone qlock qsig with_lock with_items
               wt wt_op pt pt_op rt no no_op sd sd_op isw ok ok_op asleep ho ho_op length created] in *;
  try reflexivity; try assumption; try lia; try congruence; auto.

(** A thread takes the mutex of [q]. *)
Lemma loc_lock : forall x th th' q x', lock_q x q = Some x' ->
  wt th' = wt th ->
  (forall p, ho (length (queues x)) p th' = ho (length (queues x)) p th + eqn p q) ->
  (forall j, isw j th' = isw j th) -> (forall t, pt t th' = pt t th) ->
  (forall t, rt t th = rt t th') -> ok x' th' ->
  (forall p, no p th <= no p th') ->
  (forall p, ~ asleep p th') -> sd th = 0 -> Loc x th x' th'.
Proof.
  intros x th th' q x' H W HO IW P R K N A SD.
  apply lock_inv in H. destruct H as [Q [HQ [HL ->]]].
  eapply loc_set with (q := q) (Q := Q); try exact HQ; try reflexivity; triv.
  - rewrite HO, HL. cbn [b2n]. lia.
  - match goal with G : _ \/ _ |- _ => destruct G as [G|[G|G]]; auto end.
    right. right. specialize (N q). lia.
  - destruct (shut x); auto.
Qed.

(** A thread that only moves on. *)
Lemma loc_move : forall x th th',
  wt th' = wt th ->
  (forall p, ho (length (queues x)) p th = ho (length (queues x)) p th') ->
  (forall j, isw j th' = isw j th) -> (forall t, pt t th' = pt t th) ->
  (forall t, rt t th = rt t th') -> ok x th' ->
  (forall p, no p th <= no p th') ->
  (forall p, ~ asleep p th') -> sd th = 0 -> Loc x th x th'.
Proof.
  intros x th th' W HO IW P R K N A SD. apply loc_same; triv;
    try (rewrite P; lia); try (rewrite R; lia);
    try (match goal with G : asleep _ _ |- _ => elim (A _ G) end).
  destruct (shut x); auto.
Qed.

Lemma mod_lt : forall a n, 0 < n -> a mod n < n.
Proof. intros. apply Nat.mod_upper_bound. lia. Qed.

Lemma loc_op : forall x fail o x' o', 0 < length (queues x) -> ok_op x o ->
  (forall p, ho_op p o <= lockn x p) ->
  step_op x fail o = Some (x', o') -> Loc x (Client o) x' (Client o').
Proof.
  intros x fail o x' o' N K HL H. unfold step_op in H. cbv zeta in H.
  destruct o; cbn [ok_op] in K.
  - discriminate.
  - destruct (Nat.ltb i _).
    + destruct fail.
      * injection H as <- <-. apply loc_move; triv; try discriminate.
      * destruct (lock_q x ((idx + i) mod length (queues x))) eqn:E; injection H as <- <-.
        -- apply (loc_lock _ _ _ _ _ E); triv; try discriminate.
           apply lock_inv in E. destruct E as [Q [_ [_ ->]]]. triv. rewrite upd_length.
           now apply mod_lt.
        -- apply loc_move; triv; try discriminate.
    + injection H as <- <-. apply loc_move; triv; try discriminate. now apply mod_lt.
  - injection H as <- <-. apply loc_same; triv; try discriminate.
    destruct (shut x); auto.
  - injection H as <- <-. apply loc_same; triv; try discriminate.
    destruct (shut x); auto.
  - unfold bind in H. destruct (lock_q x q) eqn:E; [|discriminate]. injection H as <- <-.
    apply (loc_lock _ _ _ _ _ E); triv; try discriminate.
    apply lock_inv in E. destruct E as [Q [_ [_ ->]]]. triv. now rewrite upd_length.
  - destruct (nth_error (queues x) q) as [Q|] eqn:E; [|discriminate]. injection H as <- <-.
    assert (qlock Q = true) as QL.
    { specialize (HL q). unfold lockn in HL. rewrite E in HL. cbn in HL. rewrite eqn_refl in HL.
      destruct (qlock Q); cbn in *; [reflexivity|lia]. }
    eapply loc_set with (q := q) (Q := Q); try exact E; try reflexivity; triv; try discriminate.
    + rewrite app_length. cbn [length]. lia.
    + rewrite QL. cbn [b2n]. lia.
    + rewrite occ_app. unfold occ. cbn [sum]. lia.
    + now rewrite upd_length.
    + rewrite eqn_refl in H0. lia.
    + right. right. rewrite eqn_refl. lia.
    + destruct (shut x); auto.
  - unfold bind, notify_q in H. destruct (nth_error (queues x) q) as [Q|] eqn:E; [|discriminate].
    injection H as <- <-.
    eapply loc_set with (q := q) (Q := Q); try exact E; try reflexivity; triv; try discriminate.
    + unfold eqn. apply Nat.eqb_neq in H. rewrite H. cbn. lia.
    + destruct (shut x); auto.
  - injection H as <- <-. destruct (is_zero x); apply loc_move; triv; try discriminate.
  - injection H as <- <-. destruct (is_zero x) eqn:Z; apply loc_move; triv; try discriminate.
    unfold is_zero in Z. apply orb_false_iff in Z. destruct Z as [Z1 Z2]. apply Nat.eqb_neq in Z1.
    split; [lia|]. intros _. split; [lia|exact Z2].
  - destruct (Nat.ltb g (cgen x)); [|discriminate]. injection H as <- <-. apply loc_move; triv; try discriminate.
  - injection H as <- <-. apply loc_same; triv; try discriminate.
  - injection H as <- <-. apply loc_same; triv; try discriminate.
    repeat split; triv.
  - destruct K as [K1 [K2 [K3 K4]]].
    destruct (nth_error (queues x) q) as [Q|] eqn:E; [|discriminate].
    destruct (qlock Q) eqn:QL; [discriminate|]. injection H as <- <-.
    eapply loc_set with (q := q) (Q := Q); try exact E; try reflexivity; triv; try discriminate.
    + rewrite upd_length. repeat split; auto. intros p P Lp HP. apply nth_upd in HP.
      destruct HP as [[-> [-> _]]|[NE HP]]; [reflexivity|]. apply (K4 p); [lia|exact HP].
    + right. right. rewrite eqn_refl. lia.
  - destruct K as [K1 [K2 [K3 K4]]]. unfold bind, notify_q in H.
    destruct (nth_error (queues x) q) as [Q|] eqn:E; [|discriminate].
    injection H as <- <-.
    assert (forall p P, p <= q -> nth_error (upd (queues x) q (mkQ (items Q) (qdone Q) (qlock Q) true)) p = Some P ->
              qdone P = true) as KQ.
    { intros p P Lp HP. apply nth_upd in HP. destruct HP as [[-> [-> _]]|[NE HP]].
      - cbn. eapply K4; [|exact E]. lia.
      - apply (K4 p); [lia|exact HP]. }
    destruct (Nat.ltb_spec (S q) (length (queues x))) as [Lt|Ge];
    (eapply loc_set with (q := q) (Q := Q); [reflexivity|exact E|..]); triv; try discriminate;
      try (unfold eqn; apply Nat.eqb_neq in H; rewrite H; cbn; lia).
    + rewrite upd_length. repeat split; triv. apply (KQ p); [lia|exact H0].
    + right. right. right. split; [exact K2|]. intros p P HP.
      apply (KQ p); [|exact HP]. apply nth_some_lt in HP. cbn in HP. rewrite upd_length in HP. lia.
Qed.

Lemma nofin_step : forall x fail o x' o', nofin o -> step_op x fail o = Some (x', o') -> nofin o'.
Proof.
  intros x fail o x' o' NF H. unfold step_op, bind in H. cbv zeta in H.
  destruct o; cbn in NF; try contradiction;
    repeat match type of H with
    | context [if ?b then _ else _] => destruct b
    | context [match ?m with Some _ => _ | None => _ end] => destruct m
    end; try discriminate; injection H as <- <-; exact I.
Qed.

Lemma dec_inv : forall x x', decrement x = Some x' -> exists c, count x = S c /\
  x' = mkX (queues x) (index x) (shut x) c (cdone x)
                     (if Nat.eqb c 0 then S (cgen x) else cgen x) (next x)
                     (started x) (completed x) (dropped x).
Proof.
  intros x x' H. unfold decrement in H. destruct (count x) as [|c] eqn:E; [discriminate|].
  injection H as <-. eauto.
Qed.

Lemma calm_there : forall Q, there_is Q = false <-> calm Q.
Proof.
  intros Q. unfold there_is, calm. destruct (items Q); split; intros H; try easy; try tauto.
Qed.

(** The mutex of [q] is released after decrementing the counter. *)
Lemma loc_dec_unlock : forall x th th' q Q x1 x2,
  decrement x = Some x1 -> unlock_q x1 q = Some x2 -> nth_error (queues x) q = Some Q ->
  qlock Q = true -> wt th = S (wt th') ->
  (forall p, ho (length (queues x)) p th = eqn p q) ->
  (forall p, ho (length (queues x)) p th' = 0) ->
  (forall j, isw j th' = isw j th) -> (forall t, pt t th' = pt t th) ->
  (forall t, rt t th = rt t th') -> ok x2 th' ->
  (forall p, no p th = 0) ->
  (forall p, ~ asleep p th') -> sd th = 0 -> Loc x th x2 th'.
Proof.
  intros x th th' q Q x1 x2 D U HQ QL W H1 H2 IW P R K N A SD.
  apply dec_inv in D. destruct D as [c [Ec ->]]. unfold unlock_q in U. cbn [queues] in U.
  rewrite HQ in U. injection U as <-.
  eapply loc_set with (q := q) (Q := Q); try exact HQ; try reflexivity; triv.
  - rewrite H1, H2, QL. cbn [b2n]. lia.
  - match goal with G : _ \/ _ |- _ => destruct G as [G|[G|G]]; [left; exact G|auto|];
      rewrite N in G; lia end.
  - rewrite N. lia.
  - destruct (Nat.eqb_spec c 0); split; intros; lia.
  - destruct (shut x); auto.
Qed.

Lemma loc_worker : forall x fail j w x' w', 0 < length (queues x) -> ok x (Worker j w) ->
  (forall p, ho (length (queues x)) p (Worker j w) <= lockn x p) ->
  (forall q Q, nth_error (queues x) q = Some Q -> qdone Q = true -> shut x = true) ->
  step_worker x fail j w = Some (x', w') -> Loc x (Worker j w) x' (Worker j w').
Proof.
  intros x fail j w x' w' N K HL QD H. destruct K as [J K].
  assert (j mod length (queues x) = j) as JM by now apply Nat.mod_small.
  assert (forall q, q < length (queues x) -> exists Q, nth_error (queues x) q = Some Q) as EX.
  { intros q Lq. apply nth_error_Some in Lq. destruct (nth_error (queues x) q); [eauto|congruence]. }
  pose proof (mod_lt j _ N) as OWN.
  unfold step_worker in H. cbv zeta in H.
  destruct w.
  - injection H as <- <-. destruct (shut x) eqn:S; apply loc_move; triv; try discriminate; split; triv.
  - destruct (Nat.ltb i _).
    + destruct fail.
      * injection H as <- <-. apply loc_move; triv; try discriminate.
      * destruct (lock_q x ((j + i) mod length (queues x))) eqn:E; injection H as <- <-.
        -- apply (loc_lock _ _ _ _ _ E); triv; try discriminate.
           apply lock_inv in E. destruct E as [Q [_ [_ ->]]]. triv. now rewrite upd_length.
        -- apply loc_move; triv; try discriminate.
    + injection H as <- <-. apply loc_move; triv; try discriminate.
  - pose proof (mod_lt (j + i) _ N) as Lq. destruct (EX _ Lq) as [Q HQ]. rewrite HQ in H.
    assert (qlock Q = true) as QL.
    { eapply own_held; [exact N|exact HQ| |exact HL]. cbn. rewrite eqn_refl. lia. }
    destruct (items Q) as [|t r] eqn:EI; injection H as <- <-.
    + (eapply loc_set; [reflexivity|exact HQ|..]); triv; try discriminate.
      * rewrite QL. cbn [b2n]. lia.
      * now rewrite upd_length.
      * destruct (shut x); auto.
    + (eapply loc_set; [reflexivity|exact HQ|..]); triv; try discriminate.
      * rewrite EI. cbn [length]. lia.
      * rewrite EI. unfold occ. cbn [sum]. lia.
      * now rewrite upd_length.
      * rewrite eqn_refl in H0. lia.
      * destruct H as [[H _]|[H|H]]; auto. congruence.
      * destruct (shut x); auto.
  - pose proof (mod_lt (j + i) _ N) as Lq. destruct (EX _ Lq) as [Q HQ].
    assert (qlock Q = true) as QL.
    { eapply own_held; [exact N|exact HQ| |exact HL]. cbn. rewrite eqn_refl. lia. }
    unfold bind in H. destruct (decrement x) as [x1|] eqn:D; [|discriminate].
    destruct (unlock_q x1 _) as [x2|] eqn:U; [|discriminate]. injection H as <- <-.
    eapply loc_dec_unlock; [exact D|exact U|exact HQ|exact QL|..]; triv; try discriminate.
    split; [|exact I]. apply dec_inv in D. destruct D as [c [_ ->]]. unfold unlock_q in U.
    cbn [queues] in U. rewrite HQ in U. injection U as <-. cbn. now rewrite upd_length.
  - unfold bind in H. destruct (lock_q x (j mod length (queues x))) eqn:E; [|discriminate].
    injection H as <- <-. apply (loc_lock _ _ _ _ _ E); triv; try discriminate.
    apply lock_inv in E. destruct E as [Q [_ [_ ->]]]. triv. now rewrite upd_length.
  - destruct (EX _ OWN) as [Q HQ]. rewrite HQ in H. injection H as <- <-.
    destruct (there_is Q) eqn:T; apply loc_move; triv; try discriminate; (split; [exact J|]);
      intros Q' HQ'; assert (Q' = Q) as -> by congruence.
    + intros C. apply calm_there in C. congruence.
    + now apply calm_there.
  - unfold bind in H. destruct (decrement x) as [x1|] eqn:D; [|discriminate].
    injection H as <- <-. apply dec_inv in D. destruct D as [c [Ec ->]].
    apply loc_same; triv; try discriminate.
    + destruct (Nat.eqb_spec c 0); split; intros; try lia. split; [lia|reflexivity].
    + destruct (shut x); auto.
  - destruct (EX _ OWN) as [Q HQ]. rewrite HQ in H. injection H as <- <-.
    assert (qlock Q = true) as QL.
    { eapply own_held; [exact N|exact HQ| |exact HL]. cbn. rewrite eqn_refl. lia. }
    specialize (K _ HQ).
    (eapply loc_set; [reflexivity|exact HQ|..]); triv; try discriminate.
    + rewrite QL. cbn [b2n]. lia.
    + now rewrite upd_length.
    + right. injection H as <-. split; [now rewrite JM|exact K].
    + destruct (shut x); auto.
  - destruct (nth_error (queues x) _) as [Q|]; [|discriminate].
    destruct (qsig Q); [|discriminate]. injection H as <- <-. apply loc_move; triv; try discriminate.
  - unfold bind in H. destruct (lock_q x (j mod length (queues x))) eqn:E; [|discriminate].
    injection H as <- <-. apply (loc_lock _ _ _ _ _ E); triv; try discriminate.
    apply lock_inv in E. destruct E as [Q [_ [_ ->]]]. triv. now rewrite upd_length.
  - destruct (EX _ OWN) as [Q HQ]. rewrite HQ in H. injection H as <- <-.
    destruct (there_is Q) eqn:T; apply loc_move; triv; try discriminate; (split; [exact J|]);
      intros Q' HQ'; assert (Q' = Q) as -> by congruence.
    + intros C. apply calm_there in C. congruence.
    + now apply calm_there.
  - injection H as <- <-. apply loc_same; triv; try discriminate. destruct (shut x); auto.
  - destruct (EX _ OWN) as [Q HQ]. rewrite HQ in H. specialize (K _ HQ).
    assert (qlock Q = true) as QL.
    { eapply own_held; [exact N|exact HQ| |exact HL]. cbn. rewrite eqn_refl. lia. }
    destruct (items Q) as [|t r] eqn:EI; injection H as <- <-.
    + (eapply loc_set; [reflexivity|exact HQ|..]); triv; try discriminate.
      * rewrite QL. cbn [b2n]. lia.
      * rewrite upd_length. split; [exact J|]. destruct (qdone Q) eqn:D; [eauto|].
        elim K. split; assumption.
      * destruct (shut x); auto.
    + (eapply loc_set; [reflexivity|exact HQ|..]); triv; try discriminate.
      * rewrite EI. cbn [length]. lia.
      * rewrite EI. unfold occ. cbn [sum]. lia.
      * now rewrite upd_length.
      * rewrite eqn_refl in H0. lia.
      * destruct H as [[H _]|[H|H]]; auto. congruence.
      * destruct (shut x); auto.
  - destruct (EX _ OWN) as [Q HQ].
    assert (qlock Q = true) as QL.
    { eapply own_held; [exact N|exact HQ| |exact HL]. cbn. rewrite eqn_refl. lia. }
    unfold bind in H. destruct (decrement x) as [x1|] eqn:D; [|discriminate].
    destruct (unlock_q x1 _) as [x2|] eqn:U; [|discriminate]. injection H as <- <-.
    eapply loc_dec_unlock; [exact D|exact U|exact HQ|exact QL|..]; triv; try discriminate.
    split; [|exact I]. apply dec_inv in D. destruct D as [c [_ ->]]. unfold unlock_q in U.
    cbn [queues] in U. rewrite HQ in U. injection U as <-. cbn. now rewrite upd_length.
  - destruct (shut x) eqn:S; injection H as <- <-; apply loc_same; triv; try discriminate;
      unfold occ, created in *; cbn [sum next log_drop log_start]; try lia.
  - unfold bind in H. destruct (step_op x fail o) as [[x1 o1]|] eqn:E; [|discriminate].
    injection H as <- <-. destruct K as [K NF].
    apply loc_run; [exact J|eapply nofin_step; eauto|]. cbn [fst snd]. eapply loc_op; eauto.
  - discriminate.
Qed.

Lemma loc_start : forall x c, 0 < length (queues x) ->
  Loc x (Client ONone) (fst (start_call x c)) (Client (snd (start_call x c))).
Proof.
  intros x c N. destruct c; cbn [start_call fst snd].
  - apply loc_same; triv; try discriminate.
    + unfold created. cbn [next new_task]. unfold eqn.
      destruct (Nat.ltb_spec t (next x)), (Nat.ltb_spec t (S (next x))), (Nat.eqb_spec t (next x));
        cbn [b2n]; lia.
    + destruct (shut x); auto.
  - apply loc_move; triv; try discriminate.
  - apply loc_move; triv; try discriminate.
Qed.

Lemma loc_call : forall x c th x' th', 0 < length (queues x) -> ok x th ->
  call_thread x c th = Some (x', th') -> Loc x th x' th'.
Proof.
  intros x c th x' th' N K H. destruct th as [j w|o].
  - destruct w; try discriminate. destruct o; try discriminate.
    destruct K as [J _].
    destruct c; try discriminate; cbn [call_thread] in H; injection H as <- <-;
      apply loc_run; try exact J; try exact I.
    + apply (loc_start x CQueue N).
    + apply (loc_start x CShutdown N).
  - destruct o; try discriminate. cbn [call_thread] in H.
    destruct c; injection H as <- <-.
    + apply (loc_start x CQueue N).
    + apply (loc_start x CShutdown N).
    + apply (loc_start x CFinish N).
Qed.

Lemma loc_ret : forall x th x' th', 0 < length (queues x) -> ok x th ->
  ret_thread x th = Some (x', th') -> Loc x th x' th'.
Proof.
  intros x th x' th' N K H. destruct th as [j w|o]; [|discriminate].
  destruct w; try discriminate. destruct o; try discriminate. injection H as <- <-.
  destruct K as [J _]. apply loc_same; triv; try discriminate;
    try (unfold occ, created; cbn [sum next log_complete]; lia). destruct (shut x); auto.
Qed.

Lemma loc_spur : forall x th x' th', 0 < length (queues x) -> ok x th ->
  spur_thread x th = Some (x', th') -> Loc x th x' th'.
Proof.
  intros x th x' th' N K H. destruct th as [j w|o].
  - destruct w; try discriminate. injection H as <- <-. apply loc_move; triv; try discriminate.
  - destruct o; try discriminate. injection H as <- <-. apply loc_move; triv; try discriminate.
Qed.

(** ** The invariant holds in every reachable state *)

Lemma sum_app0 : forall {A} (f : A -> nat) l a, f a = 0 -> sum f (l ++ [a]) = sum f l.
Proof. intros A f l a H. rewrite sum_app. cbn [sum]. lia. Qed.

Lemma inv_spawn : forall s, Inv s -> Inv (mkS (sh s) (ths s ++ [Client ONone])).
Proof.
  intros s I. constructor; cbn [sh ths]; intros; rewrite ?sum_app0 by reflexivity.
  - apply (k_pos _ I).
  - apply (k_cnt _ I).
  - apply (k_lock _ I).
  - apply (k_work _ I).
  - apply (k_task _ I).
  - apply (k_start _ I).
  - apply in_app_iff in H. destruct H as [H|[<-|[]]]; [now apply (k_ok _ I)|exact Logic.I].
  - apply in_app_iff in H0. destruct H0 as [H0|[H0|[]]]; [now apply (k_sleep _ I)|discriminate].
  - now apply (k_shut _ I).
  - now apply (k_drop _ I).
  - exact (k_qdone _ I _ _ H H0).
  - now apply (k_cdone _ I).
Qed.

Lemma thread_locks : forall s i th, Inv s -> nth_error (ths s) i = Some th ->
  forall p, ho (length (queues (sh s))) p th <= lockn (sh s) p.
Proof.
  intros s i th I H p. rewrite (k_lock _ I p). eapply sum_ge. exact H.
Qed.

Lemma inv_step : forall s a s', Inv s -> step s a = Some s' -> Inv s'.
Proof.
  intros s a s' I H. pose proof (k_pos _ I) as N. destruct a; cbn [step] in H.
  5: { injection H as <-. now apply inv_spawn. }
  all: unfold update in H; destruct (nth_error (ths s) i) as [th|] eqn:E; [|discriminate];
    assert (ok (sh s) th) as K by (apply (k_ok _ I); eapply nth_error_In; eauto);
    pose proof (thread_locks _ _ _ I E) as HL.
  - destruct (step_thread (sh s) fail th) as [[x th']|] eqn:T; [|discriminate]. injection H as <-.
    eapply inv_loc; [exact I|exact E|]. destruct th as [j w|o]; cbn [step_thread] in T; unfold bind in T.
    + destruct (step_worker (sh s) fail j w) as [[x1 w1]|] eqn:W; [|discriminate].
      injection T as <- <-. cbn [fst snd]. eapply loc_worker; eauto. apply (k_qdone _ I).
    + destruct (step_op (sh s) fail o) as [[x1 o1]|] eqn:W; [|discriminate].
      injection T as <- <-. cbn [fst snd]. eapply loc_op; eauto.
  - destruct (call_thread (sh s) c th) as [[x th']|] eqn:T; [|discriminate]. injection H as <-.
    eapply inv_loc; [exact I|exact E|]. eapply loc_call; eauto.
  - destruct (ret_thread (sh s) th) as [[x th']|] eqn:T; [|discriminate]. injection H as <-.
    eapply inv_loc; [exact I|exact E|]. eapply loc_ret; eauto.
  - destruct (spur_thread (sh s) th) as [[x th']|] eqn:T; [|discriminate]. injection H as <-.
    eapply inv_loc; [exact I|exact E|]. eapply loc_spur; eauto.
Qed.

Lemma sum_zero : forall {A} (f : A -> nat) l, (forall a, In a l -> f a = 0) -> sum f l = 0.
Proof.
  intros A f l H. induction l as [|a l IH]; [reflexivity|]. cbn [sum].
  rewrite (H a) by (left; reflexivity). rewrite IH; [reflexivity|]. intros b J. apply H. now right.
Qed.

Lemma inv_init : forall n, Inv (init n).
Proof.
  intros n. unfold init. assert (0 < Nat.max 1 n) as P by lia. generalize dependent (Nat.max 1 n).
  clear n. intros n P.
  assert (forall q Q, nth_error (repeat (mkQ [] false false false) n) q = Some Q ->
            Q = mkQ [] false false false) as R.
  { intros q Q H. apply nth_error_In in H. now apply repeat_spec in H. }
  assert (forall (f : queue -> nat), f (mkQ [] false false false) = 0 ->
            sum f (repeat (mkQ [] false false false) n) = 0) as RS.
  { intros f H. apply sum_zero. intros a J. apply repeat_spec in J. now subst. }
  assert (forall f, (forall j, f (Worker j WTop) = 0) ->
            sum f (map (fun j => Worker j WTop) (seq 0 n)) = 0) as WS.
  { intros f H. apply sum_zero. intros a J. apply in_map_iff in J. destruct J as [j [<- _]]. apply H. }
  assert (length (repeat (mkQ [] false false false) n) = n) as RL by apply repeat_length.
  constructor; cbn [sh ths init_x queues count shut cdone dropped completed started next]; rewrite ?RL.
  - exact P.
  - unfold nitems. cbn [queues init_x]. rewrite RS by reflexivity. rewrite Nat.add_0_r.
    assert (forall a m, sum wt (map (fun j => Worker j WTop) (seq a m)) = m) as W; [|now rewrite W].
    intros a m. revert a. induction m as [|m IH]; intros a; [reflexivity|]. cbn [seq map sum wt].
    now rewrite IH.
  - intros q. rewrite WS by reflexivity. unfold lockn. cbn [queues init_x].
    destruct (nth_error _ q) eqn:E; [|reflexivity]. apply R in E. now subst.
  - intros j. assert (forall a m, sum (isw j) (map (fun j => Worker j WTop) (seq a m)) =
        b2n (Nat.leb a j && Nat.ltb j (a + m))) as W.
    { intros a m. revert a. induction m as [|m IH]; intros a; cbn [seq map sum isw].
      - rewrite Nat.add_0_r. destruct (Nat.leb_spec a j), (Nat.ltb_spec j a); try reflexivity. lia.
      - rewrite IH. unfold eqn.
        destruct (Nat.eqb_spec j a), (Nat.leb_spec a j), (Nat.leb_spec (S a) j),
          (Nat.ltb_spec j (S a + m)), (Nat.ltb_spec j (a + S m)); cbn; try reflexivity; lia. }
    rewrite W. reflexivity.
  - intros t. rewrite WS by reflexivity. unfold inq, created. cbn [queues next init_x].
    rewrite RS by reflexivity. reflexivity.
  - intros t. rewrite WS by reflexivity. reflexivity.
  - intros th J. apply in_map_iff in J. destruct J as [j [<- J]]. apply in_seq in J. cbn.
    rewrite RL. split; [lia|exact I].
  - intros q Q HQ J. apply in_map_iff in J. destruct J as [j [J _]]. discriminate.
  - discriminate.
  - intros H. now elim H.
  - intros q Q HQ D. apply R in HQ. subst. discriminate.
  - discriminate.
Qed.

Lemma inv_run : forall l s s', Inv s -> run s l = Some s' -> Inv s'.
Proof.
  intros l. induction l as [|a l IH]; intros s s' I H; cbn [run] in H.
  - injection H as <-. exact I.
  - destruct (step s a) as [s1|] eqn:E; [|discriminate]. eapply IH; [|exact H]. eapply inv_step; eauto.
Qed.

Definition reachable (n : nat) (s : state) : Prop := exists l, run (init n) l = Some s.

Lemma reach_inv : forall n s, reachable n s -> Inv s.
Proof. intros n s [l H]. eapply inv_run; [apply (inv_init n)|exact H]. Qed.
