(** The traversal comes to an end. *)

From Coq Require Import List Arith Bool ZArith Lia.
From Verif Require Import Async.Lists Dag.Traverse Dag.TraverseInv.
Import ListNotations.

(** Steps an instruction can still cause, apart from tasks it creates. *)
Definition w_notify (g : graph) (a : nat) : nat := 1 + 2 * length (consumers g a).

Definition w_end (g : graph) (n : node) : nat :=
  match n with Art a => 2 + w_notify g a | Act c => 2 + sum (w_notify g) (outs g c) end.

Definition w_visit (g : graph) (n : node) : nat :=
  match n with Art _ => 3 | Act c => 3 + 2 * length (deps g c) end.

Definition weight (g : graph) (i : instr) : nat :=
  match i with
  | ITargets l => 1 + 2 * length l
  | IVisit n => w_visit g n
  | IAvail _ | IDep _ | IReady _ | IDec _ => 2
  | IQVisit _ | IQProc _ | IAbort => 1
  | IProc n => 1 + w_end g n
  | IEnd n => w_end g n
  | INotify a => w_notify g a
  end.

(** Tasks that can still be created, for the nodes [N]. *)
Definition credit (g : graph) (s : state) (n : node) : nat :=
  (if disc s n then 0 else w_visit g n) + (if queued s n then 0 else 1 + w_end g n).

Definition steps_left (g : graph) (N : list node) (s : state) : nat :=
  cnt (weight g) s + sum (credit g s) N.

Lemma sum_const : forall {A} (f : A -> nat) k l, (forall x, f x = k) -> sum f l = length l * k.
Proof. intros A f k l H. induction l as [|a l IH]; cbn [sum length]; [reflexivity|]. rewrite IH, H. lia. Qed.

Lemma credit_disc : forall g s n N, In n N -> disc s n = false ->
  sum (credit g (set_disc s n)) N + w_visit g n <= sum (credit g s) N.
Proof.
  intros g s n N J D. induction N as [|m N IH]; [destruct J|]. cbn [sum].
  assert (credit g (set_disc s n) m <= credit g s m) as L.
  { unfold credit. cbn [set_disc disc queued]. unfold set. destruct (node_eqb n m); [|lia].
    destruct (disc s m); lia. }
  destruct J as [<-|J].
  - assert (credit g (set_disc s m) m + w_visit g m = credit g s m) as E.
    { unfold credit. cbn [set_disc disc queued]. rewrite set_same, D. lia. }
    assert (sum (credit g (set_disc s m)) N <= sum (credit g s) N); [|lia].
    apply sum_le. intros x _. unfold credit. cbn [set_disc disc queued]. unfold set.
    destruct (node_eqb m x); [|lia]. destruct (disc s x); lia.
  - specialize (IH J). lia.
Qed.

Lemma credit_queued : forall g s n N, In n N -> queued s n = false ->
  sum (credit g (set_queued s n)) N + (1 + w_end g n) <= sum (credit g s) N.
Proof.
  intros g s n N J D. induction N as [|m N IH]; [destruct J|]. cbn [sum].
  assert (forall x, credit g (set_queued s n) x <= credit g s x) as L.
  { intros x. unfold credit. cbn [set_queued disc queued]. unfold set. destruct (node_eqb n x); [|lia].
    destruct (queued s x); lia. }
  destruct J as [<-|J].
  - assert (credit g (set_queued s m) m + (1 + w_end g m) = credit g s m) as E.
    { unfold credit. cbn [set_queued disc queued]. rewrite set_same, D. lia. }
    assert (sum (credit g (set_queued s m)) N <= sum (credit g s) N); [|lia].
    apply sum_le. intros x _. apply L.
  - specialize (IH J). specialize (L m). lia.
Qed.

Lemma weight_pos : forall g i, 0 < weight g i.
Proof. intros g i. destruct i as [l|n|a|d|c|n|n|n|n|a|c|]; cbn; try lia; destruct n; cbn; lia. Qed.

Lemma steps_dec : forall g targets N s a s', wf g -> Inv g targets s ->
  (forall n, needed g targets n -> In n N) ->
  step g s a = Some s' -> steps_left g N s' < steps_left g N s.
Proof.
  intros g targets N s [k ch|k] s' W V FN H; unfold steps_left.
  - cbn [step] in H. destruct (nth_error (tasks s) k) as [[|i rest]|] eqn:NE; try discriminate.
    destruct (exec g s ch i) as [[s1 first] new] eqn:E. injection H as <-.
    pose proof (cnt_step s k i rest first new (weight g) s1 NE) as D.
    assert (instr_ok g targets i) as OK.
    { eapply j_instr; eauto. eapply nth_error_In; eauto. now left. }
    change (sum (credit g (set_tasks s1 (upd (tasks s) k (first ++ rest) ++ new))) N)
      with (sum (credit g s1) N).
    destruct i as [l|n|a|d|c|n|n|n|n|a|c|]; cbn [exec] in E.
    + destruct l as [|a l]; [injection E as <- <- <-; cbn [weight sum length] in D; lia|].
      injection E as <- <- <-. destruct (known g a); cbn [weight sum length] in D; lia.
    + destruct n as [a|c]; injection E as <- <- <-.
      * cbn [weight sum w_visit] in D. change (sum (credit g (set_req s (Art a))) N) with (sum (credit g s) N). lia.
      * rewrite sum_app, sum_map in D. rewrite (sum_const _ 2) in D by reflexivity.
        cbn [weight sum w_visit] in D.
        change (sum (credit g (set_req s (Act c))) N) with (sum (credit g s) N). lia.
    + injection E as <- <- <-. destruct (avail s a); [|destruct (builder g a)]; cbn [weight sum] in D; lia.
    + injection E as <- <- <-. destruct (avail s d); cbn [weight sum] in D; lia.
    + injection E as <- <- <-. destruct (Z.eqb _ _); cbn [weight sum] in D; lia.
    + destruct (_ || _) eqn:C; injection E as <- <- <-; cbn [weight sum] in D; [lia|].
      apply orb_false_iff in C. destruct C as [_ C].
      pose proof (credit_disc g s n N (FN n OK) C). lia.
    + destruct (_ || _) eqn:C; injection E as <- <- <-; cbn [weight sum] in D; [lia|].
      apply orb_false_iff in C. destruct C as [C Q]. apply orb_false_iff in C. destruct C as [_ C].
      apply negb_false_iff in C.
      pose proof (credit_queued g s n N (FN n (j_need _ _ _ V n (or_intror C))) Q). lia.
    + injection E as <- <- <-. cbn [weight sum] in D.
      change (sum (credit g (set_log s (EStart n))) N) with (sum (credit g s) N). lia.
    + injection E as <- <- <-.
      change (sum (credit g (set_log s (EEnd n ch))) N) with (sum (credit g s) N).
      destruct ch; [|destruct n; cbn [weight sum w_end] in D; lia].
      destruct n as [a|c]; cbn [weight sum w_end] in D; [lia|].
      rewrite sum_map in D. cbn [weight] in D.
      change (sum (fun a => w_notify g a) (outs g c)) with (sum (w_notify g) (outs g c)) in D. lia.
    + injection E as <- <- <-. change (sum (credit g (set_avail s a)) N) with (sum (credit g s) N).
      rewrite sum_map, (sum_const _ 2) in D by reflexivity. cbn [weight sum] in D. unfold w_notify in D. lia.
    + injection E as <- <- <-.
      change (sum (credit g (set_unav s (sub1 (unav s) c))) N) with (sum (credit g s) N).
      destruct (Z.eqb _ _); cbn [weight sum] in D; lia.
    + injection E as <- <- <-. change (sum (credit g (set_failed s)) N) with (sum (credit g s) N).
      cbn [weight sum] in D. lia.
  - cbn [step] in H.
    assert (exists i, nth_error (tasks s) k = Some [i] /\ s' = set_tasks s (upd (tasks s) k [])) as [i [NE ->]].
    { destruct (nth_error (tasks s) k) as [[|i [|]]|]; try discriminate; destruct i; try discriminate;
        destruct (failed s); try discriminate; injection H as <-; eauto. }
    change (sum (credit g (set_tasks s (upd (tasks s) k []))) N) with (sum (credit g s) N).
    unfold cnt. cbn [tasks set_tasks]. pose proof (sum_upd (sum (weight g)) _ _ _ [] NE) as U.
    cbn [sum] in U. pose proof (weight_pos g i). lia.
Qed.

Lemma run_bound : forall g targets N l s s', wf g -> Inv g targets s ->
  (forall n, needed g targets n -> In n N) ->
  run g s l = Some s' -> length l + steps_left g N s' <= steps_left g N s.
Proof.
  intros g targets N l. induction l as [|a l IH]; intros s s' W V FN R; cbn [run length] in *.
  - injection R as <-. lia.
  - destruct (step g s a) as [s1|] eqn:E; [|discriminate].
    pose proof (steps_dec _ _ _ _ _ _ W V FN E).
    assert (length l + steps_left g N s' <= steps_left g N s1); [|lia].
    apply IH; auto. eapply inv_step; eauto.
Qed.
