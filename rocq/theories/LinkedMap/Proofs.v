From Coq Require Import String List Bool Arith Lia Sorted Permutation.
From Verif Require Import Common.Strs LinkedMap.Model LinkedMap.Spec.
Import ListNotations.

Section P.
Context {V : Type}.
Implicit Types p q : lmap V.

Lemma first_layer_app k (a b : list (list (string * V))) :
  first_layer k (a ++ b) = match first_layer k a with Some v => Some v | None => first_layer k b end.
Proof.
  induction a as [|l a IH]; cbn; [reflexivity|]. destruct (alookup k l); [reflexivity|exact IH].
Qed.

Lemma Find_layers p k : Find p k = first_layer k (layers p).
Proof.
  induction p as [|next IHn content IHc m]; [reflexivity|].
  cbn [Find layers]. rewrite first_layer_app, IHn, IHc. cbn [first_layer].
  destruct content as [|n' c' m']; cbn [IsNotNull first_layer];
    destruct next; cbn [IsNotNull];
    repeat match goal with |- context [match ?x with Some _ => _ | None => _ end] => destruct x end; reflexivity.
Qed.

Lemma merge_nil_r (a : list (string * V)) : merge_items a [] = a.
Proof. destruct a as [|[k v] r]; reflexivity. Qed.

Lemma merge_cons ck (cv : V) cr nk nv nr :
  merge_items ((ck, cv) :: cr) ((nk, nv) :: nr) =
    if String.eqb ck nk then (ck, cv) :: merge_items cr nr
    else if str_ltb ck nk then (ck, cv) :: merge_items cr ((nk, nv) :: nr)
    else (nk, nv) :: merge_items ((ck, cv) :: cr) nr.
Proof. reflexivity. Qed.

Lemma merge_In (a b : list (string * V)) x : In x (merge_items a b) -> In x a \/ In x b.
Proof.
  revert b. induction a as [|[ck cv] cr IHa]; [cbn; auto|].
  induction b as [|[nk nv] nr IHb]; [rewrite merge_nil_r; auto|].
  rewrite merge_cons. destruct (String.eqb ck nk).
  - intros [E|E]; [left; left; exact E|]. apply IHa in E. destruct E; [left; right|right; right]; assumption.
  - destruct (str_ltb ck nk).
    + intros [E|E]; [left; left; exact E|]. apply IHa in E. destruct E; [left; right|right]; assumption.
    + intros [E|E]; [right; left; exact E|]. apply IHb in E. destruct E; [left|right; right]; assumption.
Qed.

Lemma eqb_ltb_cases a b :
  (String.eqb a b = true /\ a = b) \/
  (String.eqb a b = false /\ str_ltb a b = true /\ str_lt a b) \/
  (String.eqb a b = false /\ str_ltb a b = false /\ str_lt b a).
Proof.
  rewrite eqb_str_cmp. unfold str_ltb.
  destruct (str_cmp_spec a b) as [E|E|E]; auto.
Qed.

Lemma merge_sorted (a b : list (string * V)) :
  sorted_keys a -> sorted_keys b -> sorted_keys (merge_items a b).
Proof.
  revert b. induction a as [|[ck cv] cr IHa]; [cbn; auto|].
  induction b as [|[nk nv] nr IHb]; intros Sa Sb; [rewrite merge_nil_r; auto|].
  rewrite merge_cons.
  destruct (eqb_ltb_cases ck nk) as [[E1 E]|[[E1 [E2 E]]|[E1 [E2 E]]]]; rewrite E1; try rewrite E2.
  - subst nk. constructor.
    + apply IHa; eapply sorted_keys_tail; eauto.
    + apply Forall_forall. intros x Hx. apply merge_In in Hx. destruct Hx as [Hx|Hx].
      * exact (sorted_keys_head _ _ _ Sa Hx).
      * exact (sorted_keys_head _ _ _ Sb Hx).
  - constructor.
    + apply IHa; [eapply sorted_keys_tail; eauto|assumption].
    + apply Forall_forall. intros x Hx. apply merge_In in Hx. destruct Hx as [Hx|[Hx|Hx]].
      * exact (sorted_keys_head _ _ _ Sa Hx).
      * subst x. exact E.
      * eapply str_lt_trans; [exact E|]. exact (sorted_keys_head _ _ _ Sb Hx).
  - constructor.
    + apply IHb; [assumption|eapply sorted_keys_tail; eauto].
    + apply Forall_forall. intros x Hx. apply merge_In in Hx. destruct Hx as [[Hx|Hx]|Hx].
      * subst x. exact E.
      * eapply str_lt_trans; [exact E|]. exact (sorted_keys_head _ _ _ Sa Hx).
      * exact (sorted_keys_head _ _ _ Sb Hx).
Qed.

Lemma merge_lookup (a b : list (string * V)) k :
  sorted_keys a -> sorted_keys b ->
  alookup k (merge_items a b) = match alookup k a with Some v => Some v | None => alookup k b end.
Proof.
  revert b. induction a as [|[ck cv] cr IHa]; [cbn; auto|].
  induction b as [|[nk nv] nr IHb]; intros Sa Sb.
  { rewrite merge_nil_r. cbn [alookup].
    destruct (String.eqb k ck); [reflexivity|]. destruct (alookup k cr); reflexivity. }
  rewrite merge_cons.
  destruct (eqb_ltb_cases ck nk) as [[E1 E]|[[E1 [E2 E]]|[E1 [E2 E]]]]; rewrite E1; try rewrite E2.
  - subst nk. cbn [alookup]. destruct (String.eqb k ck); [reflexivity|].
    apply IHa; eapply sorted_keys_tail; eauto.
  - cbn [alookup]. destruct (String.eqb k ck); [reflexivity|].
    apply (IHa ((nk, nv) :: nr)); [eapply sorted_keys_tail; eauto|assumption].
  - cbn [alookup]. rewrite IHb; [|assumption|eapply sorted_keys_tail; eauto].
    cbn [alookup].
    destruct (String.eqb_spec k nk) as [->|Hk]; [|reflexivity].
    destruct (String.eqb_spec nk ck) as [->|_]; [exfalso; exact (str_lt_irrefl _ E)|].
    pose proof (alookup_lt_head _ _ _ _ Sa E) as Hn. cbn [alookup] in Hn.
    destruct (String.eqb nk ck); [discriminate|]. rewrite Hn. reflexivity.
Qed.

Lemma std_maps_inv next content (m : list (string * V)) :
  std_maps (Link next content m) ->
  std_maps next /\ (content = Null -> sorted_keys m) /\ (content <> Null -> std_maps content).
Proof.
  unfold std_maps. cbn [layers]. rewrite Forall_app. intros [H1 H2]. split; [assumption|].
  destruct content; split; intros E; try congruence.
  now inversion H1.
Qed.

Lemma Items_ok p : std_maps p -> sorted_keys (Items p) /\ forall k, alookup k (Items p) = Find p k.
Proof.
  induction p as [|next IHn content IHc m]; intros H.
  - split; [constructor|reflexivity].
  - apply std_maps_inv in H. destruct H as (Hn & Hm & Hc).
    specialize (IHn Hn). cbn [Items Find].
    assert (exists cl, (if IsNotNull content then Items content else m) = cl /\ sorted_keys cl /\
      forall k, alookup k cl = if IsNotNull content then Find content k else alookup k m) as (cl & E & Sc & Lc).
    { destruct content as [|n' c' m']; cbn [IsNotNull].
      - exists m. auto.
      - destruct IHc as [Sc Lc]; [apply Hc; discriminate|]. eexists. split; [reflexivity|]. auto. }
    rewrite E.
    assert (exists nl, (if IsNotNull next then Items next else []) = nl /\ sorted_keys nl /\
      forall k, alookup k nl = if IsNotNull next then Find next k else None) as (nl & E' & Sn & Ln).
    { destruct next as [|n' c' m']; cbn [IsNotNull].
      - exists []. repeat split; constructor.
      - destruct IHn as [Sc' Lc']. eexists. split; [reflexivity|]. auto. }
    rewrite E'. split; [now apply merge_sorted|].
    intros k. rewrite merge_lookup by assumption. rewrite Lc, Ln. reflexivity.
Qed.

Lemma Items_In p k v : std_maps p -> (In (k, v) (Items p) <-> Find p k = Some v).
Proof.
  intros H. destruct (Items_ok p H) as [S L]. rewrite <- L. split.
  - now apply sorted_alookup_In.
  - apply alookup_In.
Qed.

Lemma merge_nil (a b : list (string * V)) : merge_items a b = [] <-> a = [] /\ b = [].
Proof.
  destruct a as [|[k v] a]; [cbn; intuition|].
  destruct b as [|[k' v'] b]; [rewrite merge_nil_r; intuition; discriminate|].
  rewrite merge_cons. destruct (String.eqb k k'), (str_ltb k k'); split; intros H; try discriminate; destruct H; discriminate.
Qed.

Lemma empty_Items p : empty p = true <-> Items p = [].
Proof.
  induction p as [|next IHn content IHc m]; [cbn; tauto|].
  cbn [empty Items]. rewrite merge_nil, andb_true_iff, orb_true_iff.
  destruct content; cbn [IsNotNull]; destruct next; cbn [IsNotNull negb];
    rewrite ?IHc, ?IHn; destruct m; intuition congruence.
Qed.

Lemma empty_Find p : std_maps p -> (empty p = true <-> forall k, Find p k = None).
Proof.
  intros H. rewrite empty_Items. destruct (Items_ok p H) as [S L]. split.
  - intros E k. rewrite <- L, E. reflexivity.
  - intros E. destruct (Items p) as [|[k v] r] eqn:EI; [reflexivity|].
    specialize (L k). rewrite E in L. cbn in L. rewrite String.eqb_refl in L. discriminate.
Qed.

Lemma items_ext p q : std_maps p -> std_maps q ->
  (forall k, Find p k = Find q k) -> Items p = Items q.
Proof.
  intros Hp Hq E. destruct (Items_ok p Hp) as [S1 L1], (Items_ok q Hq) as [S2 L2].
  apply sorted_ext; try assumption. intros k. rewrite L1, L2. apply E.
Qed.

Section Eq.
Variable veq : V -> V -> bool.

Lemma items_eqb_spec (a b : list (string * V)) : sorted_keys a -> sorted_keys b ->
  (items_eqb veq a b = true <->
   forall k, match alookup k a, alookup k b with
             | Some v, Some w => veq v w = true | None, None => True | _, _ => False end).
Proof.
  revert b. induction a as [|[k1 v1] r1 IH]; intros [|[k2 v2] r2] S1 S2; cbn [items_eqb].
  - split; [intros _ k; exact I | reflexivity].
  - split; [discriminate|]. intros H. specialize (H k2). cbn in H. rewrite String.eqb_refl in H. destruct H.
  - split; [discriminate|]. intros H. specialize (H k1). cbn in H. rewrite String.eqb_refl in H. destruct H.
  - rewrite !andb_true_iff, IH by (eapply sorted_keys_tail; eauto).
    split.
    + intros [[E1 E2] E3] k. apply String.eqb_eq in E1. subst k2. cbn.
      destruct (String.eqb k k1); [exact E2|apply E3].
    + intros H.
      assert (k1 = k2) as ->.
      { destruct (str_trichotomy k1 k2) as [[L|L]|L]; [|assumption|].
        - specialize (H k1). rewrite (alookup_lt_head _ _ _ _ S2 L) in H.
          cbn in H. rewrite String.eqb_refl in H. destruct H.
        - specialize (H k2). rewrite (alookup_lt_head _ _ _ _ S1 L) in H.
          cbn in H. rewrite String.eqb_refl in H. destruct H. }
      split; [split|].
      * apply String.eqb_refl.
      * specialize (H k2). cbn in H. rewrite String.eqb_refl in H. exact H.
      * intros k. pose proof (H k) as Hk. cbn in Hk.
        destruct (String.eqb_spec k k2); [|exact Hk]. subst k.
        assert (forall v rr, sorted_keys ((k2, v) :: rr) -> alookup k2 (rr : list (string * V)) = None) as Hn.
        { intros v rr S. apply alookup_None. intros Hin. apply sorted_NoDup in S. cbn in S. inversion S. auto. }
        rewrite (Hn _ _ S1), (Hn _ _ S2). exact I.
Qed.

Lemma lmap_eqb_spec p q : std_maps p -> std_maps q ->
  (lmap_eqb veq p q = true <->
   forall k, match Find p k, Find q k with
             | Some v, Some w => veq v w = true | None, None => True | _, _ => False end).
Proof.
  intros Hp Hq. destruct (Items_ok p Hp) as [S1 L1], (Items_ok q Hq) as [S2 L2].
  unfold lmap_eqb. rewrite orb_true_iff, andb_true_iff, items_eqb_spec by assumption.
  split.
  - intros [[E1 E2]|H] k.
    + rewrite (proj1 (empty_Find p Hp) E1), (proj1 (empty_Find q Hq) E2). exact I.
    + specialize (H k). rewrite L1, L2 in H. exact H.
  - intros H. right. intros k. rewrite L1, L2. apply H.
Qed.

Lemma find_dup_nil_r (a : list (string * V)) : find_dup veq a [] = None.
Proof. destruct a as [|[k v] r]; reflexivity. Qed.

Lemma find_dup_cons mk mv mr tk tv tr :
  find_dup veq ((mk, mv) :: mr) ((tk, tv) :: tr) =
   if String.eqb mk tk then
     if negb (veq mv tv) then Some mk else find_dup veq mr tr
   else if str_ltb mk tk then find_dup veq mr ((tk, tv) :: tr)
   else find_dup veq ((mk, mv) :: mr) tr.
Proof. reflexivity. Qed.

Definition conflict_at (a b : list (string * V)) k :=
  exists v w, alookup k a = Some v /\ alookup k b = Some w /\ veq v w = false.

Lemma find_dup_spec (a b : list (string * V)) : sorted_keys a -> sorted_keys b ->
  match find_dup veq a b with
  | Some k => conflict_at a b k
  | None => forall k, ~ conflict_at a b k
  end.
Proof.
  revert b. induction a as [|[mk mv] mr IHa].
  { intros b _ _. cbn. intros k (v & w & E & _). discriminate. }
  induction b as [|[tk tv] tr IHb]; intros Sa Sb.
  { rewrite find_dup_nil_r. intros k (v & w & _ & E & _). discriminate. }
  rewrite find_dup_cons.
  destruct (eqb_ltb_cases mk tk) as [[E1 E]|[[E1 [E2 E]]|[E1 [E2 E]]]]; rewrite E1; try rewrite E2.
  - subst tk. destruct (veq mv tv) eqn:Ev; cbn [negb].
    + specialize (IHa tr (sorted_keys_tail _ _ Sa) (sorted_keys_tail _ _ Sb)).
      assert (forall v rr, sorted_keys ((mk, v) :: rr) -> alookup mk (rr : list (string * V)) = None) as Hn.
      { intros v rr S. apply alookup_None. intros Hin. apply sorted_NoDup in S. cbn in S. inversion S. auto. }
      destruct (find_dup veq mr tr) as [k|].
      * destruct IHa as (v & w & A & B & C). exists v, w. cbn.
        destruct (String.eqb_spec k mk); [subst; rewrite (Hn _ _ Sa) in A; discriminate|auto].
      * intros k (v & w & A & B & C). cbn in A, B. destruct (String.eqb_spec k mk).
        -- congruence.
        -- apply (IHa k). exists v, w. auto.
    + exists mv, tv. cbn. rewrite String.eqb_refl. auto.
  - specialize (IHa ((tk, tv) :: tr) (sorted_keys_tail _ _ Sa) Sb).
    pose proof (alookup_lt_head _ _ _ _ Sb E) as Hn.
    destruct (find_dup veq mr ((tk, tv) :: tr)) as [k|].
    + destruct IHa as (v & w & A & B & C). exists v, w. cbn [alookup].
      destruct (String.eqb_spec k mk); [subst; congruence|auto].
    + intros k (v & w & A & B & C). cbn [alookup] in A. destruct (String.eqb_spec k mk).
      * subst. congruence.
      * apply (IHa k). exists v, w. auto.
  - specialize (IHb Sa (sorted_keys_tail _ _ Sb)).
    pose proof (alookup_lt_head _ _ _ _ Sa E) as Hn.
    destruct (find_dup veq ((mk, mv) :: mr) tr) as [k|].
    + destruct IHb as (v & w & A & B & C). exists v, w. split; [exact A|]. split; [|exact C].
      cbn [alookup]. destruct (String.eqb_spec k tk); [subst; congruence|exact B].
    + intros k (v & w & A & B & C). cbn [alookup] in B. destruct (String.eqb_spec k tk).
      * subst. congruence.
      * apply (IHb k). exists v, w. auto.
Qed.

Lemma FindConflictingDuplicate_spec p q : std_maps p -> std_maps q ->
  match FindConflictingDuplicate veq p q with
  | Some k => exists v w, Find p k = Some v /\ Find q k = Some w /\ veq v w = false
  | None => agree veq p q
  end.
Proof.
  intros Hp Hq. destruct (Items_ok p Hp) as [S1 L1], (Items_ok q Hq) as [S2 L2].
  unfold FindConflictingDuplicate. pose proof (find_dup_spec _ _ S1 S2) as H.
  destruct (find_dup veq (Items p) (Items q)) as [k|].
  - destruct H as (v & w & A & B & C). rewrite L1 in A. rewrite L2 in B. eauto.
  - intros k v w A B. destruct (veq v w) eqn:E; [reflexivity|]. exfalso.
    apply (H k). exists v, w. rewrite L1, L2. auto.
Qed.

(** ** Unions *)

Lemma std_maps_Link p q : std_maps p -> std_maps q -> std_maps (Link p q []).
Proof.
  intros Hp Hq. unfold std_maps. cbn [layers]. apply Forall_app. split; [|assumption].
  destruct q; [repeat constructor|assumption].
Qed.

Lemma Find_Link p q k : Find (Link p q []) k = match Find q k with Some v => Some v | None => Find p k end.
Proof. cbn. destruct q; cbn [IsNotNull]; destruct p; reflexivity. Qed.

Lemma last_wins_app k (a b : list (lmap V)) :
  last_wins k (a ++ b) = match last_wins k b with Some v => Some v | None => last_wins k a end.
Proof.
  unfold last_wins. rewrite fold_left_app. generalize (fold_left (fun acc m => match Find m k with Some v => Some v | None => acc end) a None) as acc.
  induction b as [|m b IH] using rev_ind; intros acc; [reflexivity|].
  rewrite !fold_left_app. cbn. destruct (Find m k); [reflexivity|]. apply IH.
Qed.

Definition seg {A} (l : list A) from to := firstn (to - from) (skipn from l).

Lemma skipn_add {A} (l : list A) a b : skipn a (skipn b l) = skipn (b + a) l.
Proof.
  revert l. induction b as [|b IH]; intros l; [reflexivity|].
  destruct l as [|x l]; cbn; [apply skipn_nil|apply IH].
Qed.

Lemma seg_split {A} (l : list A) from mid to : from <= mid <= to -> seg l from to = seg l from mid ++ seg l mid to.
Proof.
  intros H. unfold seg.
  replace (skipn mid l) with (skipn (mid - from) (skipn from l)).
  2:{ rewrite skipn_add. f_equal. lia. }
  rewrite <- (firstn_skipn (mid - from) (firstn (to - from) (skipn from l))) at 1.
  rewrite firstn_firstn. f_equal; [f_equal; lia|].
  rewrite skipn_firstn_comm. f_equal. lia.
Qed.

Lemma seg_one {A} (l : list A) from x : nth_error l from = Some x -> seg l from (from + 1) = [x].
Proof.
  intros H. unfold seg. replace (from + 1 - from) with 1 by lia.
  revert from H. induction l as [|y l IH]; intros [|from] H; cbn in *; try discriminate.
  - congruence.
  - apply IH. exact H.
Qed.

Lemma half_bounds from to : from + 1 < to -> from < from + (to - from) / 2 < to.
Proof.
  intros H. assert (1 <= (to - from) / 2) by (apply Nat.div_le_lower_bound; lia).
  assert ((to - from) / 2 < to - from) by (apply Nat.div_lt; lia). lia.
Qed.

(** Everything about [union_rec] without disjointness. *)
Lemma union_rec_spec fuel : forall (ms : list (lmap V)) from to,
  Forall std_maps ms -> to <= List.length ms -> to - from < fuel ->
  exists r, union_rec veq false fuel (map Some ms) from to = UOk r /\ std_maps r /\
            forall k, Find r k = last_wins k (seg ms from to).
Proof.
  induction fuel as [|fuel IH]; intros ms from to F B Hf; [lia|].
  cbn [union_rec]. destruct (Nat.leb_spec to from) as [L|L].
  - exists kEmptyMap. split; [reflexivity|]. split; [repeat constructor|].
    intros k. unfold seg. replace (to - from) with 0 by lia. reflexivity.
  - destruct (Nat.eqb_spec to (from + 1)) as [E|E].
    + destruct (nth_error ms from) as [m|] eqn:N.
      2:{ apply nth_error_None in N. lia. }
      rewrite nth_error_map, N. cbn [option_map]. exists m. split; [reflexivity|].
      split; [exact (proj1 (Forall_forall _ _) F _ (nth_error_In _ _ N))|].
      intros k. subst to. rewrite (seg_one _ _ _ N). cbn. destruct (Find m k); reflexivity.
    + pose proof (half_bounds from to ltac:(lia)) as HB.
      set (mid := from + (to - from) / 2) in *.
      destruct (IH ms from mid F ltac:(lia) ltac:(lia)) as (l & El & Sl & Ll).
      destruct (IH ms mid to F ltac:(lia) ltac:(lia)) as (r & Er & Sr & Lr).
      rewrite El, Er.
      assert (forall k, last_wins k (seg ms from to) = match Find r k with Some v => Some v | None => Find l k end) as Hs.
      { intros k. rewrite (seg_split ms from mid to) by lia. rewrite last_wins_app, Ll, Lr. reflexivity. }
      destruct (empty l) eqn:El0.
      { exists r. split; [reflexivity|]. split; [assumption|]. intros k. rewrite Hs.
        rewrite (proj1 (empty_Find l Sl) El0 k). destruct (Find r k); reflexivity. }
      destruct (empty r) eqn:Er0.
      { exists l. split; [reflexivity|]. split; [assumption|]. intros k. rewrite Hs.
        rewrite (proj1 (empty_Find r Sr) Er0 k). reflexivity. }
      exists (Link l r []). split; [reflexivity|]. split; [now apply std_maps_Link|].
      intros k. rewrite Find_Link, Hs. reflexivity.
Qed.

Lemma seg_all {A} (l : list A) : seg l 0 (List.length l) = l.
Proof. unfold seg. rewrite Nat.sub_0_r. cbn. apply firstn_all. Qed.

Lemma map_union_spec (ms : list (lmap V)) : Forall std_maps ms ->
  exists r, Union veq false (map Some ms) = UOk r /\ std_maps r /\ forall k, Find r k = last_wins k ms.
Proof.
  intros F. unfold Union. destruct ms as [|m0 ms0]; cbn [map].
  - exists kEmptyMap. split; [reflexivity|]. split; [repeat constructor|reflexivity].
  - destruct (union_rec_spec (S (List.length (m0 :: ms0))) (m0 :: ms0) 0 (List.length (m0 :: ms0)) F ltac:(lia) ltac:(lia))
      as (r & E & Sr & L).
    exists r. rewrite seg_all in L. cbn [map] in E.
    change (List.length (Some m0 :: map Some ms0)) with (S (List.length (map Some ms0))).
    rewrite map_length. cbn [List.length] in E. split; [exact E|auto].
Qed.

(** A list with an entry that is not a map is rejected. *)
Lemma union_rec_err disjoint fuel : forall (ds : list (option (lmap V))) from to,
  to <= List.length ds -> to - from < fuel -> In None (seg ds from to) ->
  union_rec veq disjoint fuel ds from to = UErr.
Proof.
  induction fuel as [|fuel IH]; intros ds from to B Hf Hin; [lia|].
  cbn [union_rec]. destruct (Nat.leb_spec to from) as [L|L].
  - unfold seg in Hin. replace (to - from) with 0 in Hin by lia. destruct Hin.
  - destruct (Nat.eqb_spec to (from + 1)) as [E|E].
    + destruct (nth_error ds from) as [o|] eqn:N.
      2:{ apply nth_error_None in N. lia. }
      subst to. rewrite (seg_one _ _ _ N) in Hin. destruct Hin as [->|[]]. reflexivity.
    + pose proof (half_bounds from to ltac:(lia)) as HB.
      set (mid := from + (to - from) / 2) in *.
      rewrite (seg_split ds from mid to) in Hin by lia. apply in_app_or in Hin. destruct Hin as [Hin|Hin].
      * rewrite (IH ds from mid ltac:(lia) ltac:(lia) Hin). reflexivity.
      * rewrite (IH ds mid to ltac:(lia) ltac:(lia) Hin).
        assert (forall ds from to, to - from < fuel -> union_rec veq disjoint fuel ds from to <> UFuel) as NF.
        { clear. induction fuel as [|fuel IH]; intros ds from to H; [lia|].
          cbn [union_rec]. destruct (Nat.leb_spec to from); [discriminate|].
          destruct (Nat.eqb_spec to (from + 1)).
          - destruct (nth_error ds from) as [[m|]|]; discriminate.
          - pose proof (half_bounds from to ltac:(lia)) as HB.
            set (mid := from + (to - from) / 2) in *.
            pose proof (IH ds from mid ltac:(lia)) as N1. pose proof (IH ds mid to ltac:(lia)) as N2.
            destruct (union_rec veq disjoint fuel ds from mid); try discriminate; [|congruence].
            destruct (union_rec veq disjoint fuel ds mid to); try discriminate; [|congruence].
            destruct (empty m); [discriminate|]. destruct (empty m0); [discriminate|].
            destruct disjoint; [|discriminate]. destruct (FindConflictingDuplicate veq m m0); discriminate. }
        destruct (union_rec veq disjoint fuel ds from mid) eqn:E1; [reflexivity|reflexivity|].
        exfalso. eapply NF; [|exact E1]. lia.
Qed.

Lemma union_non_map disjoint (ds : list (option (lmap V))) : In None ds -> Union veq disjoint ds = UErr.
Proof.
  intros H. unfold Union. destruct ds as [|d ds]; [destruct H|].
  apply union_rec_err; [lia|lia|]. rewrite seg_all. exact H.
Qed.

Hypothesis veq_refl : forall v, veq v v = true.
Hypothesis veq_sym : forall v w, veq v w = true -> veq w v = true.
Hypothesis veq_trans : forall u v w, veq u v = true -> veq v w = true -> veq u w = true.

Definition pairwise (ms : list (lmap V)) : Prop := ForallOrdPairs (agree veq) ms.

Lemma agree_sym p q : agree veq p q -> agree veq q p.
Proof using veq_sym. intros H k v w A B. apply veq_sym. eapply H; eauto. Qed.

Lemma pairwise_app (a b : list (lmap V)) :
  pairwise (a ++ b) <-> pairwise a /\ pairwise b /\ (forall x y, In x a -> In y b -> agree veq x y).
Proof.
  unfold pairwise. induction a as [|x a IH]; cbn [app].
  - split; [intros H; repeat split; [constructor|exact H|intros ? ? []] | tauto].
  - split.
    + intros H. inversion H as [|? ? H1 H2]; subst. apply IH in H2. destruct H2 as (A & B & C).
      rewrite Forall_app in H1. destruct H1 as [H1a H1b]. repeat split; [constructor; assumption|assumption|].
      intros u y [<-|Hu] Hy; [rewrite Forall_forall in H1b; auto | auto].
    + intros (A & B & C). inversion A as [|? ? A1 A2]; subst. constructor.
      * apply Forall_app. split; [assumption|]. apply Forall_forall. intros y Hy. apply C; [left; reflexivity|assumption].
      * apply IH. repeat split; try assumption. intros u y Hu Hy. apply C; [right; assumption|assumption].
Qed.

Lemma last_wins_In k (ms : list (lmap V)) v : last_wins k ms = Some v -> exists m, In m ms /\ Find m k = Some v.
Proof.
  induction ms as [|m ms IH] using rev_ind; [discriminate|].
  rewrite last_wins_app. cbn. destruct (Find m k) as [w|] eqn:E; intros H.
  - inversion H; subst. exists m. split; [apply in_or_app; right; left; reflexivity|assumption].
  - destruct (IH H) as (m' & A & B). exists m'. split; [apply in_or_app; auto|assumption].
Qed.

Lemma last_wins_None k (ms : list (lmap V)) : last_wins k ms = None -> forall m, In m ms -> Find m k = None.
Proof.
  induction ms as [|m ms IH] using rev_ind; [intros _ ? []|].
  rewrite last_wins_app. cbn. destruct (Find m k) as [w|] eqn:E; intros H; [discriminate|].
  intros m' Hin. apply in_app_or in Hin. destruct Hin as [Hin|[<-|[]]]; auto.
Qed.

(** In a pairwise agreeing list, the union agrees with every member. *)
Lemma pairwise_last_wins k (ms : list (lmap V)) v m w :
  pairwise ms -> last_wins k ms = Some v -> In m ms -> Find m k = Some w -> veq w v = true.
Proof using veq_refl.
  intros P H Hin Hm. induction ms as [|x ms IH] using rev_ind; [destruct Hin|].
  apply pairwise_app in P. destruct P as (P1 & _ & P3).
  rewrite last_wins_app in H. cbn in H. destruct (Find x k) as [u|] eqn:E.
  - inversion H; subst v. apply in_app_or in Hin. destruct Hin as [Hin|[->|[]]].
    + exact (P3 m x Hin (or_introl eq_refl) k w u Hm E).
    + replace w with u by congruence. apply veq_refl.
  - apply in_app_or in Hin. destruct Hin as [Hin|[->|[]]]; [exact (IH P1 H Hin)|congruence].
Qed.

Lemma union_rec_disjoint fuel : forall (ms : list (lmap V)) from to,
  Forall std_maps ms -> to <= List.length ms -> to - from < fuel ->
  match union_rec veq true fuel (map Some ms) from to with
  | UOk r => pairwise (seg ms from to) /\ std_maps r /\ forall k, Find r k = last_wins k (seg ms from to)
  | UErr => ~ pairwise (seg ms from to)
  | UFuel => False
  end.
Proof using veq_refl veq_sym veq_trans.
  induction fuel as [|fuel IH]; intros ms from to F B Hf; [lia|].
  cbn [union_rec]. destruct (Nat.leb_spec to from) as [L|L].
  - unfold seg. replace (to - from) with 0 by lia. repeat split; repeat constructor.
  - destruct (Nat.eqb_spec to (from + 1)) as [E|E].
    + destruct (nth_error ms from) as [m|] eqn:N.
      2:{ apply nth_error_None in N. lia. }
      rewrite nth_error_map, N. cbn [option_map]. subst to. rewrite (seg_one _ _ _ N). split; [repeat constructor|].
      split; [exact (proj1 (Forall_forall _ _) F _ (nth_error_In _ _ N))|].
      intros k. cbn. destruct (Find m k); reflexivity.
    + pose proof (half_bounds from to ltac:(lia)) as HB.
      set (mid := from + (to - from) / 2) in *.
      pose proof (IH ms from mid F ltac:(lia) ltac:(lia)) as H1.
      pose proof (IH ms mid to F ltac:(lia) ltac:(lia)) as H2.
      rewrite (seg_split ms from mid to) by lia.
      destruct (union_rec veq true fuel (map Some ms) from mid) as [l| |]; [|intros P; apply H1; apply pairwise_app in P; tauto|destruct H1].
      destruct H1 as (P1 & Sl & Ll).
      destruct (union_rec veq true fuel (map Some ms) mid to) as [r| |]; [|intros P; apply H2; apply pairwise_app in P; tauto|destruct H2].
      destruct H2 as (P2 & Sr & Lr).
      assert (forall k, last_wins k (seg ms from mid ++ seg ms mid to) = match Find r k with Some v => Some v | None => Find l k end) as Hs.
      { intros k. rewrite last_wins_app, Ll, Lr. reflexivity. }
      assert (agree veq l r -> pairwise (seg ms from mid ++ seg ms mid to)) as Hag.
      { intros A. apply pairwise_app. repeat split; try assumption.
        intros x y Hx Hy k v w Fx Fy.
        destruct (last_wins k (seg ms from mid)) as [vl|] eqn:El.
        2:{ rewrite (last_wins_None _ _ El _ Hx) in Fx. discriminate. }
        destruct (last_wins k (seg ms mid to)) as [vr|] eqn:Er.
        2:{ rewrite (last_wins_None _ _ Er _ Hy) in Fy. discriminate. }
        pose proof (pairwise_last_wins _ _ _ _ _ P1 El Hx Fx) as Q1.
        pose proof (pairwise_last_wins _ _ _ _ _ P2 Er Hy Fy) as Q2.
        assert (veq vl vr = true) as Q3 by (eapply (A k); rewrite ?Ll, ?Lr; assumption).
        eapply veq_trans; [exact Q1|]. eapply veq_trans; [exact Q3|]. apply veq_sym. exact Q2. }
      destruct (empty l) eqn:El0.
      { pose proof (proj1 (empty_Find l Sl) El0) as EN. split; [|split; [assumption|]].
        - apply Hag. intros k v w A. rewrite EN in A. discriminate.
        - intros k. rewrite Hs, EN. destruct (Find r k); reflexivity. }
      destruct (empty r) eqn:Er0.
      { pose proof (proj1 (empty_Find r Sr) Er0) as EN. split; [|split; [assumption|]].
        - apply Hag. intros k v w _ A. rewrite EN in A. discriminate.
        - intros k. rewrite Hs, EN. reflexivity. }
      pose proof (FindConflictingDuplicate_spec l r Sl Sr) as D.
      destruct (FindConflictingDuplicate veq l r) as [k|].
      * intros P. apply pairwise_app in P. destruct P as (_ & _ & P3).
        destruct D as (v & w & A & Bq & C). rewrite Ll in A. rewrite Lr in Bq.
        apply last_wins_In in A. apply last_wins_In in Bq.
        destruct A as (x & Hx & Fx). destruct Bq as (y & Hy & Fy).
        rewrite (P3 x y Hx Hy k v w Fx Fy) in C. discriminate.
      * split; [auto|]. split; [now apply std_maps_Link|].
        intros k. rewrite Find_Link, Hs. reflexivity.
Qed.

Lemma disjoint_union_spec (ms : list (lmap V)) : Forall std_maps ms ->
  match Union veq true (map Some ms) with
  | UOk r => pairwise ms /\ std_maps r /\ forall k, Find r k = last_wins k ms
  | UErr => ~ pairwise ms
  | UFuel => False
  end.
Proof using veq_refl veq_sym veq_trans.
  intros F. unfold Union. destruct ms as [|m0 ms0]; cbn [map].
  - repeat split; repeat constructor.
  - pose proof (union_rec_disjoint (S (List.length (m0 :: ms0))) (m0 :: ms0) 0 (List.length (m0 :: ms0)) F ltac:(lia) ltac:(lia)) as H.
    rewrite seg_all in H. cbn [map] in H.
    change (List.length (Some m0 :: map Some ms0)) with (S (List.length (map Some ms0))).
    rewrite map_length. cbn [List.length] in H. exact H.
Qed.

Lemma pairwise_forall (ms : list (lmap V)) : pairwise ms ->
  forall i j a b, i <> j -> nth_error ms i = Some a -> nth_error ms j = Some b -> agree veq a b.
Proof using veq_sym.
  intros P. induction P as [|x l H1 H2 IH]; intros i j a b Hij Ha Hb.
  - destruct i; discriminate.
  - rewrite Forall_forall in H1. destruct i as [|i], j as [|j]; cbn in *.
    + congruence.
    + inversion Ha; subst. apply H1. eapply nth_error_In; eauto.
    + inversion Hb; subst. apply agree_sym. apply H1. eapply nth_error_In; eauto.
    + eapply (IH i j); eauto.
Qed.

Lemma forall_pairwise (ms : list (lmap V)) :
  (forall i j a b, i <> j -> nth_error ms i = Some a -> nth_error ms j = Some b -> agree veq a b) ->
  pairwise ms.
Proof.
  induction ms as [|x l IH]; intros H; constructor.
  - apply Forall_forall. intros y Hy. apply In_nth_error in Hy. destruct Hy as [n Hn].
    apply (H 0 (S n)); [discriminate|reflexivity|exact Hn].
  - apply IH. intros i j a b Hij Ha Hb. apply (H (S i) (S j)); [congruence|assumption|assumption].
Qed.

Lemma pairwise_perm (ms ms' : list (lmap V)) : Permutation ms ms' -> pairwise ms -> pairwise ms'.
Proof using veq_sym.
  intros H. induction H as [|x l l' H IH|x y l|l l' l'' H1 IH1 H2 IH2]; intros P.
  - assumption.
  - inversion P as [|? ? A B]; subst. constructor; [|apply IH; assumption].
    eapply Permutation_Forall; eauto.
  - inversion P as [|? ? A B]; subst. inversion B as [|? ? C D]; subst. inversion A as [|? ? A1 A2]; subst.
    constructor; [constructor; [now apply agree_sym|assumption]|]. constructor; assumption.
  - auto.
Qed.

End Eq.
End P.
