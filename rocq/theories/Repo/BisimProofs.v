(** Bisimilarity is an equivalence; basic facts on association lists. *)
From Coq Require Import List Arith Bool Lia Permutation Sorted.
From Verif.Repo Require Import Minimizer Bisim.
Import ListNotations.

Lemma assoc_In {A} k (v : A) l : assoc k l = Some v -> In (k, v) l.
Proof.
  induction l as [|[k' v'] r IH]; cbn; [discriminate|].
  destruct (Nat.eqb_spec k k'); [intros [= ->]; subst; auto|auto].
Qed.

Lemma assoc_None {A} k (l : list (nat * A)) :
  assoc k l = None <-> ~ In k (map fst l).
Proof.
  induction l as [|[k' v'] r IH]; cbn; [tauto|].
  destruct (Nat.eqb_spec k k'); subst.
  - split; [discriminate|]. intros H. exfalso. auto.
  - rewrite IH. intuition congruence.
Qed.

Lemma assoc_unique {A} k (v : A) l :
  NoDup (map fst l) -> In (k, v) l -> assoc k l = Some v.
Proof.
  induction l as [|[k' v'] r IH]; cbn; [tauto|].
  intros ND [E|H]; inversion ND; subst.
  - injection E as -> ->. now rewrite Nat.eqb_refl.
  - destruct (Nat.eqb_spec k k'); [|auto]. subst. exfalso. apply H2.
    now apply (in_map fst) in H.
Qed.

Lemma assoc_Some_dom {A} k (l : list (nat * A)) :
  In k (map fst l) -> exists v, assoc k l = Some v.
Proof.
  intros H. destruct (assoc k l) eqn:E; eauto.
  apply assoc_None in E. contradiction.
Qed.

Lemma assoc_dom {A} k (v : A) l : assoc k l = Some v -> In k (map fst l).
Proof. intros H. apply assoc_In, (in_map fst) in H. exact H. Qed.

Lemma assoc_app {A} k (l l' : list (nat * A)) :
  assoc k (l ++ l') = match assoc k l with Some v => Some v | None => assoc k l' end.
Proof.
  induction l as [|[k' v'] r IH]; cbn; auto. destruct (k =? k'); auto.
Qed.

Lemma sorted_ext (l l' : list nat) :
  StronglySorted lt l -> StronglySorted lt l' ->
  (forall x, In x l <-> In x l') -> l = l'.
Proof.
  revert l'. induction l as [|x r IH]; intros [|y r'] S S' E; auto.
  - exfalso. apply (proj2 (E y)). now left.
  - exfalso. apply (proj1 (E x)). now left.
  - inversion S; inversion S'; subst.
    rewrite Forall_forall in *.
    assert (x = y).
    { destruct (proj1 (E x)) as [->|Hx]; [now left|auto|].
      destruct (proj2 (E y)) as [->|Hy]; [now left|auto|].
      specialize (H2 _ Hy). specialize (H6 _ Hx). lia. }
    subst y. f_equal. apply IH; auto. intros z.
    specialize (E z). cbn in E. split; intros Hz.
    + destruct (proj1 E (or_intror Hz)) as [->|]; auto. specialize (H2 _ Hz). lia.
    + destruct (proj2 E (or_intror Hz)) as [->|]; auto. specialize (H6 _ Hz). lia.
Qed.

Lemma state_unique A n t c t' c' :
  well_formed A -> In (n, t, c) A -> In (n, t', c') A -> t = t' /\ c = c'.
Proof.
  intros [ND _]. unfold names in ND. induction A as [|s r IH]; cbn; [tauto|].
  cbn in ND. inversion ND; subst.
  intros [E|H] [E'|H'].
  - subst. injection E' as -> ->. auto.
  - subst. exfalso. apply H1. apply (in_map (fun s => fst (fst s))) in H'. exact H'.
  - subst. exfalso. apply H1. apply (in_map (fun s => fst (fst s))) in H. exact H.
  - auto.
Qed.

Section E.
Variable A : automaton.
Hypothesis WF : well_formed A.

Lemma bisimilar_refl a : bisimilar A a a.
Proof. exists eq. split; auto. intros x y. auto. Qed.

Lemma bisimilar_sym a b : bisimilar A a b -> bisimilar A b a.
Proof.
  intros (R & B & H). exists (fun x y => R y x). split; auto.
  intros x y Hxy. destruct (B _ _ Hxy) as [->|(t & t' & c & H1 & H2 & H3)]; auto.
  right. exists t', t, c. repeat split; auto.
  intros sym. specialize (H3 sym). destruct (assoc sym t), (assoc sym t'); auto.
Qed.

(** A bisimulation may be extended by the identity. *)
Lemma bisimulation_eq R :
  bisimulation A R -> bisimulation A (fun x y => x = y \/ R x y).
Proof.
  intros B x y [->|H]; auto. destruct (B _ _ H) as [->|(t & t' & c & H1 & H2 & H3)]; auto.
  right. exists t, t', c. repeat split; auto. intros sym. specialize (H3 sym).
  destruct (assoc sym t), (assoc sym t'); auto.
Qed.

Lemma bisimilar_trans a b c : bisimilar A a b -> bisimilar A b c -> bisimilar A a c.
Proof.
  intros (R & B & H) (R' & B' & H').
  apply bisimulation_eq in B. apply bisimulation_eq in B'.
  exists (fun x z => exists y, (x = y \/ R x y) /\ (y = z \/ R' y z)). split; [|eauto 10].
  intros x z (y & Hxy & Hyz).
  destruct (B _ _ Hxy) as [E1|(tx & ty & cx & X1 & X2 & X3)];
    destruct (B' _ _ Hyz) as [E2|(ty' & tz & cy & Y1 & Y2 & Y3)].
  - subst. auto.
  - subst y. right. exists ty', tz, cy. repeat split; auto. intros sym.
    specialize (Y3 sym). destruct (assoc sym ty'), (assoc sym tz); auto. eauto.
  - subst y. right. exists tx, ty, cx. repeat split; auto. intros sym.
    specialize (X3 sym). destruct (assoc sym tx), (assoc sym ty); auto. eauto.
  - destruct (state_unique A y ty cx ty' cy WF X2 Y1) as [-> ->].
    right. exists tx, tz, cy. repeat split; auto. intros sym.
    specialize (X3 sym). specialize (Y3 sym).
    destruct (assoc sym tx), (assoc sym ty'), (assoc sym tz); auto; try tauto. eauto.
Qed.

(** Bisimilarity is itself a bisimulation. *)
Lemma bisimilar_step a b : bisimilar A a b -> a = b \/ agree A (bisimilar A) a b.
Proof.
  intros (R & B & H). destruct (B _ _ H) as [->|(t & t' & c & H1 & H2 & H3)]; auto.
  right. exists t, t', c. repeat split; auto. intros sym. specialize (H3 sym).
  destruct (assoc sym t), (assoc sym t'); auto. exists R. auto.
Qed.

Lemma bisimilar_coind (R : nat -> nat -> Prop) :
  (forall a b, R a b -> a = b \/ agree A (fun x y => bisimilar A x y \/ R x y) a b) ->
  forall a b, R a b -> bisimilar A a b.
Proof.
  intros H a b Hab. exists (fun x y => bisimilar A x y \/ R x y). split; auto.
  intros x y [Hxy|Hxy]; auto.
  destruct (bisimilar_step _ _ Hxy) as [->|(t & t' & c & H1 & H2 & H3)]; auto.
  right. exists t, t', c. repeat split; auto. intros sym. specialize (H3 sym).
  destruct (assoc sym t), (assoc sym t'); auto.
Qed.

Lemma agree_symbols R a b ta tb c c' :
  agree A R a b -> In (a, ta, c) A -> In (b, tb, c') A ->
  c = c' /\ map fst ta = map fst tb.
Proof.
  intros (t & t' & c0 & H1 & H2 & H3) Ha Hb.
  destruct (state_unique _ _ _ _ _ _ WF H1 Ha) as [-> ->].
  destruct (state_unique _ _ _ _ _ _ WF H2 Hb) as [-> ->].
  split; auto. apply sorted_ext; [eapply WF; eauto|eapply WF; eauto|].
  intros x. specialize (H3 x).
  destruct (assoc x ta) eqn:E1, (assoc x tb) eqn:E2; try tauto.
  - apply assoc_dom in E1. apply assoc_dom in E2. tauto.
  - apply assoc_None in E1. apply assoc_None in E2. tauto.
Qed.

(** On complete automata the first alternative of [bisimulation] is idle. *)
Lemma strictly_bisimilar_iff a b :
  complete A -> In a (names A) -> In b (names A) ->
  (bisimilar A a b <-> strictly_bisimilar A a b).
Proof.
  intros C Ha Hb. split.
  - intros (R & B & H).
    exists (fun x y => In x (names A) /\ In y (names A) /\ (x = y \/ R x y)).
    split; auto. apply bisimulation_eq in B.
    intros x y (Hx & Hy & Hxy).
    destruct (B _ _ Hxy) as [->|(t & t' & c & H1 & H2 & H3)].
    + unfold names in Hx. apply in_map_iff in Hx as ([[n t] c] & E & Hn). cbn in E. subst n.
      exists t, t, c. repeat split; auto. intros sym.
      destruct (assoc sym t) eqn:E; auto. split; [exact (C _ _ _ _ _ Hn E)|split; [exact (C _ _ _ _ _ Hn E)|auto]].
    + exists t, t', c. repeat split; auto. intros sym. specialize (H3 sym).
      destruct (assoc sym t) eqn:E1, (assoc sym t') eqn:E2; auto.
      split; [exact (C _ _ _ _ _ H1 E1)|split; [exact (C _ _ _ _ _ H2 E2)|auto]].
  - intros (R & B & H). exists R. split; auto. intros x y Hxy. right. auto.
Qed.

End E.
