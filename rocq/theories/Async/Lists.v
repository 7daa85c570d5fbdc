(** Lists indexed by numbers, and weighted sums over lists. *)

From Coq Require Import List Arith Bool Lia.
Import ListNotations.

Section Lists.
Context {A : Type}.

Fixpoint upd (l : list A) (i : nat) (x : A) : list A :=
  match l, i with
  | [], _ => []
  | _ :: l', 0 => x :: l'
  | y :: l', S i' => y :: upd l' i' x
  end.

Fixpoint del (l : list A) (i : nat) : list A :=
  match l, i with
  | [], _ => []
  | _ :: l', 0 => l'
  | y :: l', S i' => y :: del l' i'
  end.

Fixpoint sum (f : A -> nat) (l : list A) : nat :=
  match l with
  | [] => 0
  | x :: l' => f x + sum f l'
  end.

Lemma upd_length : forall l i x, length (upd l i x) = length l.
Proof. induction l; destruct i; cbn; intros; auto. Qed.

Lemma nth_upd_same : forall l i x, i < length l -> nth_error (upd l i x) i = Some x.
Proof.
  induction l; destruct i; cbn; intros; try lia; auto. apply IHl. lia.
Qed.

Lemma nth_upd_other : forall l i j x, i <> j -> nth_error (upd l i x) j = nth_error l j.
Proof.
  induction l; destruct i, j; cbn; intros; try lia; auto.
Qed.

Lemma nth_upd : forall l i j x y,
  nth_error (upd l i x) j = Some y ->
  (i = j /\ y = x /\ i < length l) \/ (i <> j /\ nth_error l j = Some y).
Proof.
  intros l i j x y H. destruct (Nat.eq_dec i j) as [->|N].
  - left. assert (j < length l).
    { rewrite <- (upd_length l j x). apply nth_error_Some. congruence. }
    rewrite nth_upd_same in H by assumption. injection H as <-. auto.
  - right. rewrite nth_upd_other in H by assumption. auto.
Qed.

Lemma nth_some_lt : forall (l : list A) i x, nth_error l i = Some x -> i < length l.
Proof. intros. apply nth_error_Some. congruence. Qed.

Lemma nth_app_old : forall (l : list A) i x y, nth_error l i = Some x ->
  nth_error (l ++ y) i = Some x.
Proof.
  intros. rewrite nth_error_app1; [assumption|]. eapply nth_some_lt; eauto.
Qed.

Lemma nth_app_new : forall (l : list A) x, nth_error (l ++ [x]) (length l) = Some x.
Proof. intros. rewrite nth_error_app2 by lia. now rewrite Nat.sub_diag. Qed.

Lemma nth_app_one : forall (l : list A) x i y,
  nth_error (l ++ [x]) i = Some y ->
  (i < length l /\ nth_error l i = Some y) \/ (i = length l /\ y = x).
Proof.
  intros l x i y H. destruct (Nat.lt_ge_cases i (length l)).
  - left. rewrite nth_error_app1 in H by assumption. auto.
  - right. rewrite nth_error_app2 in H by assumption.
    destruct (i - length l) as [|d] eqn:E.
    + cbn in H. injection H as <-. split; [lia|reflexivity].
    + cbn in H. destruct d; discriminate.
Qed.

Lemma In_upd : forall l i x y, In y (upd l i x) -> y = x \/ In y l.
Proof.
  induction l as [|z l IH]; destruct i; cbn; intros x y H; auto.
  - destruct H as [<-|H]; auto.
  - destruct H as [<-|H]; auto. apply IH in H. tauto.
Qed.

Lemma In_del : forall l i y, In y (del l i) -> In y l.
Proof.
  induction l as [|z l IH]; destruct i; cbn; intros y H; auto.
  destruct H as [<-|H]; auto. apply IH in H. tauto.
Qed.

Lemma In_del_or : forall l i x y, nth_error l i = Some x -> In y l ->
  y = x \/ In y (del l i).
Proof.
  induction l as [|z l IH]; destruct i; cbn; intros x y H I; try discriminate.
  - injection H as <-. destruct I as [<-|I]; auto.
  - destruct I as [<-|I]; [right; now left|].
    destruct (IH _ _ _ H I); auto.
Qed.

Lemma In_upd_or : forall l i x y z, nth_error l i = Some x -> In y l ->
  y = x \/ In y (upd l i z).
Proof.
  induction l as [|w l IH]; destruct i; cbn; intros x y z H I; try discriminate.
  - injection H as <-. destruct I as [<-|I]; auto.
  - destruct I as [<-|I]; [right; now left|].
    destruct (IH _ _ _ z H I); auto.
Qed.

Lemma In_upd_new : forall l i x y, nth_error l i = Some y -> In x (upd l i x).
Proof.
  induction l as [|w l IH]; destruct i; cbn; intros x y H; try discriminate; auto.
  right. eapply IH; eauto.
Qed.

Lemma sum_app : forall f (l1 l2 : list A), sum f (l1 ++ l2) = sum f l1 + sum f l2.
Proof. induction l1; cbn; intros; auto. rewrite IHl1. lia. Qed.

Lemma sum_upd : forall f l i x y, nth_error l i = Some x ->
  sum f (upd l i y) + f x = sum f l + f y.
Proof.
  induction l as [|z l IH]; destruct i; cbn; intros x y H; try discriminate.
  - injection H as <-. lia.
  - specialize (IH _ _ y H). lia.
Qed.

Lemma sum_del : forall f l i x, nth_error l i = Some x ->
  sum f (del l i) + f x = sum f l.
Proof.
  induction l as [|z l IH]; destruct i; cbn; intros x H; try discriminate.
  - injection H as <-. lia.
  - specialize (IH _ _ H). lia.
Qed.

Lemma sum_ge : forall f (l : list A) i x, nth_error l i = Some x -> f x <= sum f l.
Proof. intros. pose proof (sum_del f l i x H). lia. Qed.

Lemma sum_In : forall f (l : list A) x, In x l -> f x <= sum f l.
Proof.
  induction l; cbn; intros x []; subst; [lia|]. apply IHl in H. lia.
Qed.

Lemma sum_pos : forall f (l : list A), 0 < sum f l -> exists x, In x l /\ 0 < f x.
Proof.
  induction l; cbn; intros H; [lia|].
  destruct (f a) eqn:E.
  - destruct IHl as [x [I P]]; [lia|]. exists x. auto.
  - exists a. split; [auto|lia].
Qed.

Lemma sum_ext : forall f g (l : list A), (forall x, In x l -> f x = g x) ->
  sum f l = sum g l.
Proof.
  induction l as [|a l IH]; cbn; intros H; [reflexivity|].
  rewrite (H a), IH by auto; reflexivity.
Qed.

Lemma sum_le : forall f g (l : list A), (forall x, In x l -> f x <= g x) ->
  sum f l <= sum g l.
Proof.
  induction l as [|a l IH]; cbn; intros H; auto.
  pose proof (H a (or_introl eq_refl)).
  assert (sum f l <= sum g l) by (apply IH; auto). lia.
Qed.

Lemma sum_zero : forall f (l : list A), (forall x, In x l -> f x = 0) -> sum f l = 0.
Proof.
  induction l as [|a l IH]; cbn; intros H; [reflexivity|].
  rewrite (H a), IH by auto; reflexivity.
Qed.

Lemma sum_zero_inv : forall f (l : list A), sum f l = 0 ->
  forall x, In x l -> f x = 0.
Proof.
  induction l; cbn; intros H x []; subst; [lia|]. apply IHl; [lia|assumption].
Qed.

Lemma sum_plus : forall f g (l : list A),
  sum (fun x => f x + g x) l = sum f l + sum g l.
Proof. induction l; cbn; auto. lia. Qed.

End Lists.

Definition b2n (b : bool) : nat := if b then 1 else 0.
