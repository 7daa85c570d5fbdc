(** C01-C04: layered maps and unions of maps. *)
From Coq Require Import String List Bool Sorted Permutation.
From Verif Require Import Common.Strs LinkedMap.Model LinkedMap.Spec LinkedMap.Proofs LinkedMap.Extra.
Import ListNotations.
Local Open Scope string_scope.

(** C01: lookup returns the entry of the first layer (content before next) that has the key. *)
Theorem C01_find_first_layer : forall (V : Type) (m : lmap V) (k : string),
  Find m k = first_layer k (layers m).
Proof. intros V. exact Find_layers. Qed.
Print Assumptions C01_find_first_layer.

(** C01: iteration yields exactly the entries lookup finds, in strictly increasing key order. *)
Theorem C01_items_exact : forall (V : Type) (m : lmap V), std_maps m ->
  StronglySorted (fun a b => str_lt (fst a) (fst b)) (Items m) /\
  forall k v, In (k, v) (Items m) <-> Find m k = Some v.
Proof. exact items_exact. Qed.
Print Assumptions C01_items_exact.

Theorem C01_empty_exact : forall (V : Type) (m : lmap V), std_maps m ->
  (empty m = true <-> forall k, Find m k = None) /\ (empty m = true <-> size m = 0).
Proof. exact empty_exact. Qed.
Print Assumptions C01_empty_exact.

(** C01: two maps with the same lookups are iterated identically, however they are layered. *)
Theorem C01_layering_unobservable : forall (V : Type) (a b : lmap V), std_maps a -> std_maps b ->
  (forall k, Find a k = Find b k) ->
  Items a = Items b /\ size a = size b /\ Keys a = Keys b /\ Values a = Values b /\ empty a = empty b.
Proof. exact layering_unobservable. Qed.
Print Assumptions C01_layering_unobservable.

Theorem C01_equality_exact : forall (V : Type) (veq : V -> V -> bool) (a b : lmap V),
  std_maps a -> std_maps b ->
  (lmap_eqb veq a b = true <->
   forall k, match Find a k, Find b k with
             | Some v, Some w => veq v w = true
             | None, None => True
             | _, _ => False
             end).
Proof. intros V. exact lmap_eqb_spec. Qed.
Print Assumptions C01_equality_exact.

(** C02: a conflicting duplicate is reported exactly if there is one, and the report is one. *)
Theorem C02_conflict_reported_is_conflict : forall (V : Type) (veq : V -> V -> bool) (a b : lmap V) k,
  std_maps a -> std_maps b -> FindConflictingDuplicate veq a b = Some k ->
  exists v w, Find a k = Some v /\ Find b k = Some w /\ veq v w = false.
Proof. exact conflict_reported. Qed.
Print Assumptions C02_conflict_reported_is_conflict.

Theorem C02_conflict_exact : forall (V : Type) (veq : V -> V -> bool) (a b : lmap V),
  std_maps a -> std_maps b ->
  (FindConflictingDuplicate veq a b = None <->
   forall k v w, Find a k = Some v -> Find b k = Some w -> veq v w = true).
Proof. exact conflict_exact. Qed.
Print Assumptions C02_conflict_exact.

(** C03: the union of any list of maps takes each key from the last map having it. *)
Theorem C03_map_union_right_biased : forall (V : Type) (veq : V -> V -> bool) (ms : list (lmap V)),
  Forall std_maps ms ->
  exists r, Union veq false (map Some ms) = UOk r /\ std_maps r /\
    forall k, Find r k = last_wins k ms.
Proof. exact @map_union_spec. Qed.
Print Assumptions C03_map_union_right_biased.

(** C03/C04: an entry that is not a map makes both unions fail. *)
Theorem C03_union_rejects_non_maps : forall (V : Type) (veq : V -> V -> bool) disjoint ds,
  In (None : option (lmap V)) ds -> Union veq disjoint ds = UErr.
Proof. exact @union_non_map. Qed.
Print Assumptions C03_union_rejects_non_maps.

(** C04: the disjoint union succeeds exactly if any two maps of the list agree on common keys. *)
Theorem C04_disjoint_union_exact : forall (V : Type) (veq : V -> V -> bool),
  (forall v, veq v v = true) -> (forall v w, veq v w = true -> veq w v = true) ->
  (forall u v w, veq u v = true -> veq v w = true -> veq u w = true) ->
  forall ms : list (lmap V), Forall std_maps ms ->
  ((exists r, Union veq true (map Some ms) = UOk r) <->
   forall i j a b, i <> j -> nth_error ms i = Some a -> nth_error ms j = Some b -> agree veq a b).
Proof. exact disjoint_union_exact. Qed.
Print Assumptions C04_disjoint_union_exact.

(** C04: on success the result has precisely the entries of all maps. *)
Theorem C04_disjoint_union_entries : forall (V : Type) (veq : V -> V -> bool),
  (forall v, veq v v = true) -> (forall v w, veq v w = true -> veq w v = true) ->
  (forall u v w, veq u v = true -> veq v w = true -> veq u w = true) ->
  forall (ms : list (lmap V)) r, Forall std_maps ms -> Union veq true (map Some ms) = UOk r ->
  (forall k v, Find r k = Some v -> exists m, In m ms /\ Find m k = Some v) /\
  (forall m k v, In m ms -> Find m k = Some v -> exists w, Find r k = Some w /\ veq v w = true).
Proof. exact disjoint_union_entries. Qed.
Print Assumptions C04_disjoint_union_entries.

(** C04: the verdict does not depend on the order of the list. *)
Theorem C04_disjoint_union_order : forall (V : Type) (veq : V -> V -> bool),
  (forall v, veq v v = true) -> (forall v w, veq v w = true -> veq w v = true) ->
  (forall u v w, veq u v = true -> veq v w = true -> veq u w = true) ->
  forall ms ms' : list (lmap V), Forall std_maps ms -> Permutation ms ms' ->
  forall r, Union veq true (map Some ms) = UOk r ->
  exists r', Union veq true (map Some ms') = UOk r' /\
    forall k, match Find r k, Find r' k with
              | Some v, Some w => veq v w = true
              | None, None => True
              | _, _ => False
              end.
Proof. exact disjoint_union_order. Qed.
Print Assumptions C04_disjoint_union_order.

(** Non-vacuity: layered maps with shadowing, three maps with a conflict between the first and last. *)
Example C01_nonvacuous :
  let base := Link Null Null [("a", 1); ("c", 3)] in
  let over := Link Null Null [("b", 2); ("c", 4)] in
  std_maps (Link base over []) /\ Items (Link base over []) = [("a", 1); ("b", 2); ("c", 4)].
Proof.
  split; [|reflexivity].
  unfold std_maps; cbn. repeat (constructor; cbn); reflexivity.
Qed.

Example C04_nonvacuous :
  let m1 := Link Null Null [("a", 1)] in
  let m2 := Link Null Null [("b", 2)] in
  let m3 := Link Null Null [("a", 3)] in
  let m4 := Link Null Null [("a", 1); ("d", 5)] in
  Union Nat.eqb true [Some m1; Some m2; Some m3] = UErr /\
  exists r, Union Nat.eqb true [Some m1; Some m2; Some m4] = UOk r /\ Items r = [("a", 1); ("b", 2); ("d", 5)].
Proof. split; [reflexivity|]. eexists. split; reflexivity. Qed.
