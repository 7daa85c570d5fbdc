(** Lemmas about remembered operations. *)
From Coq Require Import String ZArith List Bool Arith Permutation Sorted Lia.
From Verif Require Import Hex.Model Remote.Operations Remote.OperationsSpec.
Import ListNotations.
Local Open Scope string_scope.
Local Open Scope list_scope.
Local Open Scope nat_scope.

Lemma query_in : forall c x o, Query c x = Some o -> In (x, o) c.
Proof.
  induction c as [|[k p] c IH]; intros x o H; cbn in H; [discriminate H|].
  destruct (String.eqb_spec k x) as [->|N]; [injection H as ->; now left|right; auto].
Qed.
Lemma in_query : forall c x o, NoDup (map fst c) -> In (x, o) c -> Query c x = Some o.
Proof.
  induction c as [|[k p] c IH]; intros x o ND H; [destruct H|]. cbn in ND. inversion ND as [|? ? N1 N2]; subst. cbn.
  destruct H as [H|H]; [injection H as -> ->; now rewrite String.eqb_refl|].
  destruct (String.eqb_spec k x) as [->|N]; [|auto]. exfalso. apply N1. apply (in_map fst) in H. exact H.
Qed.
Lemma query_drop : forall c k x, Query (Drop c k) x = if String.eqb k x then None else Query c x.
Proof.
  induction c as [|[j p] c IH]; intros k x; cbn; [now destruct (String.eqb k x)|].
  destruct (String.eqb_spec j k) as [->|N]; cbn.
  - fold (Drop c k). rewrite IH. destruct (String.eqb_spec k x) as [->|N']; reflexivity.
  - fold (Drop c k). rewrite IH. destruct (String.eqb_spec j x) as [->|N']; [|reflexivity].
    destruct (String.eqb_spec k x) as [->|]; [congruence|reflexivity].
Qed.
Lemma in_drop : forall c k e, In e (Drop c k) <-> In e c /\ fst e <> k.
Proof.
  intros c k e. unfold Drop. rewrite filter_In. split; intros [H1 H2]; (split; [exact H1|]).
  - intros <-. rewrite String.eqb_refl in H2. discriminate H2.
  - apply negb_true_iff. now apply String.eqb_neq.
Qed.
Lemma nodup_filter : forall (f : string * operation -> bool) (c : cache), NoDup (map fst c) -> NoDup (map fst (filter f c)).
Proof.
  induction c as [|e c IH]; intros H; [constructor|]. cbn in H. inversion H as [|? ? N1 N2]; subst. cbn.
  destruct (f e); [|auto]. cbn. constructor; [|auto]. intros X. apply N1. apply in_map_iff in X. destruct X as (y & <- & Y).
  apply filter_In in Y. now apply in_map.
Qed.
Lemma drop_length : forall c k, length (Drop c k) <= length c.
Proof. intros c k. unfold Drop. induction c as [|e c IH]; cbn; [lia|]. destruct (negb _); cbn; lia. Qed.
Lemma drop_shorter : forall c k o, In (k, o) c -> length (Drop c k) < length c.
Proof.
  induction c as [|[j p] c IH]; intros k o H; [destruct H|]. cbn. destruct H as [H|H].
  - injection H as -> ->. rewrite String.eqb_refl. cbn. assert (X := drop_length c k). unfold Drop in X. lia.
  - specialize (IH k o H). unfold Drop in IH. destruct (String.eqb j k); cbn; lia.
Qed.

Section Proofs.
Variable sorted : cache -> cache.
Hypothesis SO : sorts sorted.
Variable threshold : nat.
Notation collect := (collect threshold).
Notation gc := (GarbageCollection sorted threshold).
Notation happened := (happened sorted threshold).

Definition dropped (l : cache) (c : cache) : cache := fold_left (fun c e => if o_done (snd e) then Drop c (fst e) else c) l c.
Definition dones (l : cache) : nat := length (filter (fun e => o_done (snd e)) l).
Lemma collect_split : forall tmp deleted c, deleted < threshold ->
  exists t1 t2, tmp = t1 ++ t2 /\ collect tmp deleted c = dropped t1 c /\ deleted + dones t1 <= threshold /\
    (deleted + dones t1 = threshold \/ t2 = []).
Proof.
  induction tmp as [|[k o] r IH]; intros deleted c D; cbn [Operations.collect].
  - exists [], []. unfold dones. cbn. repeat split; auto. lia.
  - destruct (o_done o) eqn:E; cbn [fst snd].
    + destruct (Nat.eqb_spec (S deleted) threshold) as [X|X].
      * exists [(k, o)], r. unfold dropped, dones. cbn. rewrite E. cbn. repeat split; auto; lia.
      * destruct (IH (S deleted) (Drop c k) ltac:(lia)) as (t1 & t2 & -> & -> & L & F).
        exists ((k, o) :: t1), t2. unfold dropped, dones in *. cbn. rewrite E. cbn. split; [reflexivity|].
        split; [reflexivity|]. split; [lia|]. destruct F as [F|F]; [left; lia|now right].
    + destruct (Nat.eqb_spec deleted threshold) as [X|X]; [lia|].
      destruct (IH deleted c D) as (t1 & t2 & -> & -> & L & F).
      exists ((k, o) :: t1), t2. unfold dropped, dones in *. cbn. rewrite E. repeat split; auto; lia.
Qed.

Lemma query_dropped : forall l c x, Query (dropped l c) x = Query c x \/
  (Query (dropped l c) x = None /\ exists o, In (x, o) l /\ o_done o = true).
Proof.
  induction l as [|[k o] l IH]; intros c x; cbn; [now left|]. unfold dropped in IH. destruct (o_done o) eqn:E.
  - destruct (IH (Drop c k) x) as [H|(H & p & I1 & I2)]; [|right; split; [exact H|]; exists p; auto].
    rewrite query_drop in H. destruct (String.eqb_spec k x) as [->|N]; [|now left].
    right. split; [exact H|]. exists o. auto.
  - destruct (IH c x) as [H|(H & p & I1 & I2)]; [now left|]. right. split; [exact H|]. exists p. auto.
Qed.
Lemma dropped_gone : forall l c x o, In (x, o) l -> o_done o = true -> Query (dropped l c) x = None.
Proof.
  assert (K : forall l c x, Query c x = None -> Query (dropped l c) x = None).
  { intros l c x H. destruct (query_dropped l c x) as [->|[-> _]]; auto. }
  induction l as [|[k p] l IH]; intros c x o H D; [destruct H|]. destruct H as [H|H].
  - injection H as -> ->. cbn. rewrite D. apply K. now rewrite query_drop, String.eqb_refl.
  - cbn. now apply (IH _ x o).
Qed.
Lemma dropped_length : forall l c, length (dropped l c) <= length c.
Proof.
  induction l as [|[k o] l IH]; intros c; cbn; [lia|]. specialize (IH (if o_done o then Drop c k else c)). unfold dropped in IH.
  destruct (o_done o); [|lia]. assert (X := drop_length c k). lia.
Qed.
Lemma dropped_shorter : forall l c, (exists e, In e l /\ In e c /\ o_done (snd e) = true) -> length (dropped l c) < length c.
Proof.
  induction l as [|[k o] l IH]; intros c ([j p] & H1 & H2 & D); [destruct H1|]. cbn.
  destruct (o_done o) eqn:E.
  - destruct (in_dec string_dec k (map fst c)) as [I|I].
    + apply in_map_iff in I. destruct I as ([k' q] & I1 & I2). cbn in I1. subst k'.
      assert (X := drop_shorter c k q I2). assert (Y := dropped_length l (Drop c k)). unfold dropped in Y. lia.
    + destruct H1 as [H1|H1]; [injection H1 as -> ->; exfalso; apply I; apply (in_map fst) in H2; exact H2|].
      assert (Y : length (dropped l (Drop c k)) < length (Drop c k)).
      { apply IH. exists (j, p). split; [exact H1|]. split; [|exact D]. apply in_drop. split; [exact H2|].
        cbn. intros ->. apply I. apply (in_map fst) in H2. exact H2. }
      assert (X := drop_length c k). unfold dropped in Y. lia.
  - destruct H1 as [H1|H1]; [injection H1 as -> ->; cbn in D; congruence|]. apply IH. exists (j, p). auto.
Qed.
Lemma nodup_dropped : forall l c, NoDup (map fst c) -> NoDup (map fst (dropped l c)).
Proof.
  induction l as [|[k o] l IH]; intros c H; cbn; [exact H|]. unfold dropped in IH. destruct (o_done o); apply IH; [|exact H].
  now apply nodup_filter.
Qed.
Lemma dropped_kept : forall l c, NoDup (map fst c) -> length c <= length (dropped l c) + dones l.
Proof.
  induction l as [|[k o] l IH]; intros c ND; [unfold dropped, dones; cbn; lia|].
  assert (U : length (Drop c k) + 1 >= length c).
  { clear IH. induction c as [|[j p] c IH]; cbn; [lia|]. cbn in ND. inversion ND as [|? ? N1 N2]; subst.
    destruct (String.eqb_spec j k) as [->|N]; cbn; [|specialize (IH N2); unfold Drop in IH; lia].
    assert (E : forall c', ~ In k (map fst c') -> length (Drop c' k) = length c').
    { induction c' as [|[j q] c' IH']; cbn; intros H; [reflexivity|].
      destruct (String.eqb_spec j k) as [->|N']; [exfalso; apply H; now left|]. cbn. unfold Drop in IH'. rewrite IH'; [reflexivity|].
      intros X. apply H. now right. }
    unfold Drop in E. rewrite (E c N1). lia. }
  unfold dropped, dones in *. cbn. destruct (o_done o) eqn:E; cbn.
  - assert (X := IH (Drop c k) (nodup_filter _ c ND)). lia.
  - apply (IH c ND).
Qed.

Hypothesis TP : 0 < threshold.
Lemma gc_cases : forall c, (length c <= 2 * threshold /\ gc c = c) \/
  (2 * threshold < length c /\ exists t1 t2, sorted c = t1 ++ t2 /\ gc c = dropped t1 c /\ dones t1 <= threshold /\
    (dones t1 = threshold \/ t2 = [])).
Proof.
  intros c. unfold GarbageCollection. destruct (Nat.ltb_spec (2 * threshold) (length c)) as [L|L]; [right|left; auto].
  split; [exact L|]. destruct (collect_split (sorted c) 0 c TP) as (t1 & t2 & E & -> & A & B).
  exists t1, t2. cbn in A, B. auto.
Qed.
Lemma in_sorted : forall c e, In e (sorted c) <-> In e c.
Proof.
  intros c e. destruct (SO c) as [P _]. split; intros H; [apply Permutation_in with (sorted c); [now symmetry|exact H]|].
  apply Permutation_in with c; auto.
Qed.

Lemma query_gc : forall c x, NoDup (map fst c) -> Query (gc c) x = Query c x \/
  (Query (gc c) x = None /\ exists o, Query c x = Some o /\ o_done o = true).
Proof.
  intros c x ND. destruct (gc_cases c) as [[_ ->]|(_ & t1 & t2 & E & -> & _)]; [now left|].
  destruct (query_dropped t1 c x) as [H|(H & o & I & D)]; [now left|right]. split; [exact H|]. exists o. split; [|exact D].
  apply in_query; [exact ND|]. apply in_sorted. rewrite E. apply in_or_app. now left.
Qed.
Lemma nodup_gc : forall c, NoDup (map fst c) -> NoDup (map fst (gc c)).
Proof.
  intros c ND. destruct (gc_cases c) as [[_ ->]|(_ & t1 & t2 & _ & -> & _)]; [exact ND|now apply nodup_dropped].
Qed.
Lemma nodup_set : forall c x o, NoDup (map fst c) -> NoDup (map fst (Set_ sorted threshold c x o)).
Proof.
  intros c x o ND. unfold Set_, store. cbn. constructor; [|apply nodup_filter; now apply nodup_gc].
  intros H. apply in_map_iff in H. destruct H as (e & E & H). apply in_drop in H. destruct H as [_ H]. auto.
Qed.
Lemma query_set : forall c x o y, Query (Set_ sorted threshold c x o) y = if String.eqb x y then Some o else Query (gc c) y.
Proof.
  intros c x o y. unfold Set_, store. cbn. destruct (String.eqb_spec x y) as [->|N]; [reflexivity|].
  rewrite query_drop. destruct (String.eqb_spec x y); [congruence|reflexivity].
Qed.

Lemma happened_app : forall es e, happened (es ++ [e]) = happen sorted threshold (happened es) e.
Proof. intros es e. unfold Operations.happened. now rewrite fold_left_app. Qed.
Lemma nodup_happened : forall es, NoDup (map fst (happened es)).
Proof.
  induction es as [|e es IH] using rev_ind; [constructor|]. rewrite happened_app.
  destruct e; cbn [happen]; [now apply nodup_set|now apply nodup_set|exact IH].
Qed.
Lemma last_said_app : forall x es e, last_said x (rev (es ++ [e])) =
  if String.eqb (event_name e) x then match says e with Some o => Some o | None => last_said x (rev es) end else last_said x (rev es).
Proof. intros x es e. rewrite rev_app_distr. reflexivity. Qed.

Lemma remembered : forall es x, Query (happened es) x = last_said x (rev es) \/
  (Query (happened es) x = None /\ exists o, last_said x (rev es) = Some o /\ o_done o = true).
Proof.
  induction es as [|e es IH] using rev_ind; intros x; [now left|]. rewrite happened_app, last_said_app.
  assert (K : forall c, NoDup (map fst c) -> (Query c x = last_said x (rev es) \/
      (Query c x = None /\ exists o, last_said x (rev es) = Some o /\ o_done o = true)) ->
    Query (gc c) x = last_said x (rev es) \/ (Query (gc c) x = None /\ exists o, last_said x (rev es) = Some o /\ o_done o = true)).
  { intros c ND H. destruct (query_gc c x ND) as [E|(E & o & E1 & D)]; [rewrite E; exact H|]. right. split; [exact E|].
    destruct H as [H|[H _]]; [|congruence]. exists o. split; [congruence|exact D]. }
  destruct e as [n s|n r s|n]; cbn [happen event_name says].
  - rewrite query_set. destruct (String.eqb n x); [now left|]. apply K; [apply nodup_happened|apply IH].
  - rewrite query_set. destruct (String.eqb n x); [now left|]. apply K; [apply nodup_happened|apply IH].
  - destruct (String.eqb n x); apply IH.
Qed.

Lemma last_said_from : forall x l o, last_said x l = Some o -> exists e, In e l /\ event_name e = x /\ says e = Some o.
Proof.
  induction l as [|e l IH]; intros o H; cbn in H; [discriminate H|].
  destruct (String.eqb_spec (event_name e) x) as [E|N].
  - destruct (says e) as [p|] eqn:S0; [injection H as ->; exists e; repeat split; auto; now left|].
    destruct (IH o H) as (e' & H1 & H2). exists e'. split; [now right|exact H2].
  - destruct (IH o H) as (e' & H1 & H2). exists e'. split; [now right|exact H2].
Qed.

(** Sizes. *)
Lemma running_all : forall c, (forall e, In e c -> o_done (snd e) = false) -> running_entries c = length c.
Proof.
  intros c H. unfold running_entries. f_equal. induction c as [|e c IH]; [reflexivity|]. cbn.
  rewrite (H e (or_introl eq_refl)). cbn. f_equal. apply IH. intros y Y. apply H. now right.
Qed.
Lemma gc_small : forall c U, running_entries c <= U -> length c <= S (Nat.max (2 * threshold) U) ->
  length (gc c) <= Nat.max (2 * threshold) U.
Proof.
  intros c U R L. destruct (gc_cases c) as [[L' ->]|(L' & t1 & t2 & E & -> & D & F)]; [lia|].
  destruct (existsb (fun e => o_done (snd e)) c) eqn:X.
  - apply existsb_exists in X. destruct X as (e & He & D').
    assert (I1 : exists e, In e t1 /\ In e c /\ o_done (snd e) = true).
    { destruct F as [F|F].
      - unfold dones in F. destruct (filter (fun e => o_done (snd e)) t1) as [|e' l] eqn:FI; [cbn in F; lia|].
        assert (I : In e' (filter (fun e => o_done (snd e)) t1)) by (rewrite FI; now left). apply filter_In in I.
        destruct I as [I1 I2]. exists e'. split; [exact I1|]. split; [|exact I2]. apply in_sorted. rewrite E. apply in_or_app. now left.
      - exists e. split; [|auto]. apply in_sorted in He. rewrite E, F, app_nil_r in He. exact He. }
    assert (Y := dropped_shorter t1 c I1). lia.
  - assert (Y : running_entries c = length c).
    { apply running_all. intros e He. destruct (o_done (snd e)) eqn:D'; [|reflexivity].
      assert (T : existsb (fun e => o_done (snd e)) c = true) by (apply existsb_exists; eauto). congruence. }
    assert (Z := dropped_length t1 c). lia.
Qed.
Lemma bounded : forall es U, (forall es1 es2, es = es1 ++ es2 -> running_entries (happened es1) <= U) ->
  length (happened es) <= S (Nat.max (2 * threshold) U).
Proof.
  induction es as [|e es IH] using rev_ind; intros U H; [cbn; lia|]. rewrite happened_app.
  assert (L : length (happened es) <= S (Nat.max (2 * threshold) U)).
  { apply IH. intros es1 es2 E. apply (H es1 (es2 ++ [e])). now rewrite E, app_assoc. }
  assert (G : length (gc (happened es)) <= Nat.max (2 * threshold) U) by (apply gc_small; [exact (H es [e] eq_refl)|exact L]).
  assert (K : forall x o, length (Set_ sorted threshold (happened es) x o) <= S (Nat.max (2 * threshold) U)).
  { intros x o. unfold Set_, store. cbn [length]. assert (X := drop_length (gc (happened es)) x). lia. }
  destruct e; cbn [happen]; auto.
Qed.

(** The order. *)
Lemma oldest : forall c x o y p, NoDup (map fst c) ->
  Query c x = Some o -> Query (gc c) x = None ->
  Query c y = Some p -> o_done p = true -> Query (gc c) y <> None -> (o_seconds o <= o_seconds p)%Z.
Proof.
  intros c x o y p ND QX GX QY DP GY.
  destruct (gc_cases c) as [[_ E]|(_ & t1 & t2 & E & G & _ & _)]; [rewrite E in GX; congruence|]. rewrite G in *.
  assert (IX : In (x, o) t1).
  { destruct (query_dropped t1 c x) as [H|(_ & o' & H & _)]; [congruence|].
    assert (Q : Query c x = Some o') by (apply in_query; [exact ND|]; apply in_sorted; rewrite E; apply in_or_app; now left).
    congruence. }
  assert (IY : In (y, p) t2).
  { apply query_in in QY. apply in_sorted in QY. rewrite E in QY. apply in_app_or in QY. destruct QY as [QY|QY]; [|exact QY].
    exfalso. apply GY. now apply (dropped_gone t1 c y p). }
  destruct (SO c) as [_ SS]. rewrite E in SS. clear - SS IX IY.
  induction t1 as [|e t1 IH]; [destruct IX|]. cbn in SS. apply StronglySorted_inv in SS. destruct SS as [S1 S2].
  destruct IX as [->|IX]; [|auto]. rewrite Forall_forall in S2. apply (S2 (y, p)). apply in_or_app. now right.
Qed.
Lemma at_most : forall c, NoDup (map fst c) -> length c <= length (gc c) + threshold.
Proof.
  intros c ND. destruct (gc_cases c) as [[_ ->]|(_ & t1 & t2 & _ & -> & D & _)]; [lia|].
  assert (X := dropped_kept t1 c ND). lia.
Qed.

(** Waiting. *)
Lemma wait_written : forall polls x o, wait_polls polls x = Some (Written o) ->
  exists c, In c polls /\ Query c x = Some o /\ o_done o = true.
Proof.
  induction polls as [|c r IH]; intros x o H; cbn in H; [discriminate H|].
  destruct (Query c x) as [p|] eqn:Q; [|discriminate H]. destruct (o_done p) eqn:D.
  - injection H as ->. exists c. repeat split; auto. now left.
  - destruct (IH x o H) as (c' & H1 & H2). exists c'. split; [now right|exact H2].
Qed.
Lemma wait_none : forall polls x, (forall c, In c polls -> exists o, Query c x = Some o /\ o_done o = false) ->
  wait_polls polls x = None.
Proof.
  induction polls as [|c r IH]; intros x H; [reflexivity|]. cbn. destruct (H c (or_introl eq_refl)) as (o & -> & ->).
  apply IH. intros c' Hc. apply H. now right.
Qed.
Lemma unended : forall x es run, possible es run -> ~ In (Fail x) es ->
  (exists o, last_said x (rev es) = Some o /\ o_done o = false) -> In x run.
Proof.
  intros x es run H. induction H as [|es run y s H IH|es run1 run2 y r s H IH|es run1 run2 y H IH]; intros NF L.
  - destruct L as (o & L & _). discriminate L.
  - destruct L as (o & L & D). rewrite last_said_app in L. cbn in L. destruct (String.eqb_spec y x) as [->|N]; [now left|].
    right. apply IH; [|eauto]. intros F. apply NF. apply in_or_app. now left.
  - destruct L as (o & L & D). rewrite last_said_app in L. cbn in L. destruct (String.eqb_spec y x) as [->|N].
    + injection L as <-. discriminate D.
    + assert (I : In x (run1 ++ y :: run2)).
      { apply IH; [|eauto]. intros F. apply NF. apply in_or_app. now left. }
      apply in_app_or in I. apply in_or_app. destruct I as [I|[I|I]]; [now left|congruence|now right].
  - destruct L as (o & L & D). rewrite last_said_app in L. cbn in L. destruct (String.eqb_spec y x) as [->|N].
    + exfalso. apply NF. apply in_or_app. right. now left.
    + assert (I : In x (run1 ++ y :: run2)).
      { apply IH; [|eauto]. intros F. apply NF. apply in_or_app. now left. }
      apply in_app_or in I. apply in_or_app. destruct I as [I|[I|I]]; [now left|congruence|now right].
Qed.
End Proofs.
