(** The final forms of the layered-map lemmas. *)
From Coq Require Import String List Bool Sorted Permutation.
From Verif Require Import Common.Strs LinkedMap.Model LinkedMap.Spec LinkedMap.Proofs.
Import ListNotations.

Section X.
Variable V : Type.

Lemma items_exact (m : lmap V) : std_maps m ->
  StronglySorted (fun a b => str_lt (fst a) (fst b)) (Items m) /\
  forall k v, In (k, v) (Items m) <-> Find m k = Some v.
Proof.
  intros H. split; [exact (proj1 (Items_ok m H))|]. intros. now apply Items_In.
Qed.

Lemma empty_exact (m : lmap V) : std_maps m ->
  (empty m = true <-> forall k, Find m k = None) /\ (empty m = true <-> size m = 0).
Proof.
  intros H. split; [now apply empty_Find|]. rewrite empty_Items. unfold size.
  symmetry. apply length_zero_iff_nil.
Qed.

Lemma layering_unobservable (a b : lmap V) : std_maps a -> std_maps b ->
  (forall k, Find a k = Find b k) ->
  Items a = Items b /\ size a = size b /\ Keys a = Keys b /\ Values a = Values b /\ empty a = empty b.
Proof.
  intros Ha Hb E. pose proof (items_ext a b Ha Hb E) as EI.
  unfold size, Keys, Values. rewrite EI. repeat split.
  pose proof (empty_Items a) as Ea. pose proof (empty_Items b) as Eb. rewrite EI in Ea.
  destruct (empty a), (empty b); try reflexivity; intuition congruence.
Qed.

Variable veq : V -> V -> bool.

Lemma conflict_reported (a b : lmap V) k :
  std_maps a -> std_maps b -> FindConflictingDuplicate veq a b = Some k ->
  exists v w, Find a k = Some v /\ Find b k = Some w /\ veq v w = false.
Proof.
  intros Ha Hb E. pose proof (FindConflictingDuplicate_spec veq a b Ha Hb) as H. rewrite E in H. exact H.
Qed.

Lemma conflict_exact (a b : lmap V) :
  std_maps a -> std_maps b ->
  (FindConflictingDuplicate veq a b = None <->
   forall k v w, Find a k = Some v -> Find b k = Some w -> veq v w = true).
Proof.
  intros Ha Hb. pose proof (FindConflictingDuplicate_spec veq a b Ha Hb) as H.
  destruct (FindConflictingDuplicate veq a b) as [k|].
  - split; [discriminate|]. intros C. destruct H as (v & w & A & B & D).
    rewrite (C k v w A B) in D. discriminate.
  - split; auto.
Qed.

Hypothesis veq_refl : forall v, veq v v = true.
Hypothesis veq_sym : forall v w, veq v w = true -> veq w v = true.
Hypothesis veq_trans : forall u v w, veq u v = true -> veq v w = true -> veq u w = true.

Lemma disjoint_union_exact (ms : list (lmap V)) : Forall std_maps ms ->
  ((exists r, Union veq true (map Some ms) = UOk r) <->
   forall i j a b, i <> j -> nth_error ms i = Some a -> nth_error ms j = Some b -> agree veq a b).
Proof using veq_refl veq_sym veq_trans.
  intros F. pose proof (disjoint_union_spec veq veq_refl veq_sym veq_trans ms F) as H. split.
  - intros [r E]. rewrite E in H. destruct H as [P _]. now apply pairwise_forall.
  - intros P. apply forall_pairwise in P.
    destruct (Union veq true (map Some ms)) as [r| |]; [eauto|contradiction|contradiction].
Qed.

Lemma disjoint_union_entries (ms : list (lmap V)) r : Forall std_maps ms ->
  Union veq true (map Some ms) = UOk r ->
  (forall k v, Find r k = Some v -> exists m, In m ms /\ Find m k = Some v) /\
  (forall m k v, In m ms -> Find m k = Some v -> exists w, Find r k = Some w /\ veq v w = true).
Proof using veq_refl veq_sym veq_trans.
  intros F E. pose proof (disjoint_union_spec veq veq_refl veq_sym veq_trans ms F) as H.
  rewrite E in H. destruct H as (P & _ & L). split.
  - intros k v A. rewrite L in A. now apply last_wins_In.
  - intros m k v Hin A. rewrite L. destruct (last_wins k ms) as [w|] eqn:W.
    + exists w. split; [reflexivity|]. eapply pairwise_last_wins; eauto.
    + rewrite (last_wins_None _ _ W _ Hin) in A. discriminate.
Qed.

Lemma disjoint_union_order (ms ms' : list (lmap V)) : Forall std_maps ms -> Permutation ms ms' ->
  forall r, Union veq true (map Some ms) = UOk r ->
  exists r', Union veq true (map Some ms') = UOk r' /\
    forall k, match Find r k, Find r' k with
              | Some v, Some w => veq v w = true
              | None, None => True
              | _, _ => False
              end.
Proof using veq_refl veq_sym veq_trans.
  intros F P r E. pose proof (disjoint_union_spec veq veq_refl veq_sym veq_trans ms F) as H.
  rewrite E in H. destruct H as (PW & _ & L).
  assert (Forall std_maps ms') as F' by (eapply Permutation_Forall; eauto).
  pose proof (pairwise_perm veq veq_sym _ _ P PW) as PW'.
  pose proof (disjoint_union_spec veq veq_refl veq_sym veq_trans ms' F') as H'.
  destruct (Union veq true (map Some ms')) as [r'| |]; [|contradiction|contradiction].
  destruct H' as (_ & _ & L'). exists r'. split; [reflexivity|]. intros k.
  rewrite L, L'.
  destruct (last_wins k ms) as [v|] eqn:Ev, (last_wins k ms') as [w|] eqn:Ew; [| | |exact I].
  - apply last_wins_In in Ev. destruct Ev as (m & Hm & Fm).
    eapply pairwise_last_wins; eauto. eapply Permutation_in; eauto.
  - apply last_wins_In in Ev. destruct Ev as (m & Hm & Fm).
    rewrite (last_wins_None _ _ Ew m) in Fm; [discriminate|]. eapply Permutation_in; eauto.
  - apply last_wins_In in Ew. destruct Ew as (m & Hm & Fm).
    rewrite (last_wins_None _ _ Ev m) in Fm; [discriminate|].
    eapply Permutation_in; [apply Permutation_sym|]; eauto.
Qed.
End X.
