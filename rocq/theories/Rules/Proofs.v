(** Proofs about reading definitions of rules. *)
From Coq Require Import String List Bool Sorted Permutation Lia.
From Verif Require Import Common.Strs Rules.Model Rules.Spec.
Import ListNotations.
Open Scope string_scope.
Open Scope list_scope.

(** * Sorting and intersecting *)

Definition le (x y : string) : Prop := ~ str_lt y x.

Lemma le_refl x : le x x.
Proof. apply str_lt_irrefl. Qed.

Lemma le_trans x y z : le x y -> le y z -> le x z.
Proof.
  unfold le. intros A B C. destruct (str_trichotomy x y) as [[L|E]|L].
  - apply B. exact (str_lt_trans _ _ _ C L).
  - subst. exact (B C).
  - exact (A L).
Qed.

Lemma insert_perm x l : Permutation (x :: l) (insert x l).
Proof.
  induction l as [|y l IH]; cbn [insert]; [reflexivity|].
  destruct (str_ltb y x); [|reflexivity].
  etransitivity; [apply perm_swap|]. now constructor.
Qed.

Lemma sort_perm l : Permutation l (sort l).
Proof.
  induction l as [|x l IH]; cbn [sort fold_right]; [reflexivity|].
  fold (sort l). etransitivity; [apply perm_skip, IH|apply insert_perm].
Qed.

Lemma sort_in l x : In x (sort l) <-> In x l.
Proof.
  split; apply Permutation_in; [apply Permutation_sym|]; apply sort_perm.
Qed.

Lemma insert_sorted x l : StronglySorted le l -> StronglySorted le (insert x l).
Proof.
  induction l as [|y l IH]; intro S; cbn [insert]; [repeat constructor|].
  inversion S as [|? ? S' F]; subst.
  destruct (str_ltb y x) eqn:E.
  - apply str_ltb_lt in E. constructor; [exact (IH S')|].
    apply Forall_forall. intros z Hz.
    apply (Permutation_in _ (Permutation_sym (insert_perm x l))) in Hz.
    destruct Hz as [<-|Hz].
    + intro L. exact (str_lt_asym _ _ E L).
    + rewrite Forall_forall in F. exact (F z Hz).
  - assert (L : le x y).
    { intro L. apply str_ltb_lt in L. congruence. }
    constructor; [exact S|]. constructor; [exact L|].
    rewrite Forall_forall in *. intros z Hz. exact (le_trans _ _ _ L (F z Hz)).
Qed.

Lemma sort_sorted l : StronglySorted le (sort l).
Proof.
  induction l as [|x l IH]; cbn [sort fold_right]; [constructor|].
  apply insert_sorted, IH.
Qed.

Lemma sorted_not_below x y l : StronglySorted le (y :: l) -> str_lt x y -> ~ In x (y :: l).
Proof.
  intros S L Hin. inversion S as [|? ? _ F]; subst. destruct Hin as [->|Hin].
  - exact (str_lt_irrefl _ L).
  - rewrite Forall_forall in F. exact (F x Hin L).
Qed.

Lemma inter_spec a : forall b, StronglySorted le a -> StronglySorted le b ->
  forall z, In z (inter a b) <-> In z a /\ In z b.
Proof.
  induction a as [|x a IHa]; intros b Sa Sb z.
  { cbn [inter In]. tauto. }
  inversion Sa as [|? ? Sa' Fa]; subst.
  induction b as [|y b IHb].
  { cbn [inter In]. tauto. }
  inversion Sb as [|? ? Sb' Fb]; subst. specialize (IHb Sb').
  change (inter (x :: a) (y :: b)) with
    (match str_cmp x y with
     | Lt => inter a (y :: b) | Gt => inter (x :: a) b | Eq => x :: inter a b end).
  destruct (str_cmp_spec x y) as [E|L|L].
  - subst y. cbn [In]. rewrite IHa by assumption. split.
    + intros [->|[? ?]]; tauto.
    + intros [[->|?] [E|?]]; tauto.
  - rewrite IHa by assumption. split.
    + intros [? ?]. split; [now right|assumption].
    + intros [[->|?] Hb]; [|tauto]. exfalso. exact (sorted_not_below _ _ _ Sb L Hb).
  - rewrite IHb. split.
    + intros [? ?]. split; [assumption|now right].
    + intros [Ha [->|?]]; [|tauto]. exfalso. exact (sorted_not_below _ _ _ Sa L Ha).
Qed.

Lemma linear_spec first rest :
  StronglySorted le first -> Forall (StronglySorted le) rest ->
  forall z, In z (FindLinear first rest) <->
    In z first /\ exists l, In l rest /\ In z l.
Proof.
  intros S F z. induction F as [|l rest Sl F IH]; cbn [FindLinear].
  - cbn [In]. split; [tauto|]. intros [_ (l & [] & _)].
  - rewrite in_app_iff, IH, inter_spec by assumption. split.
    + intros [[? ?]|[? (l' & ? & ?)]]; (split; [assumption|]).
      * exists l. split; [now left|assumption].
      * exists l'. split; [now right|assumption].
    + intros [? (l' & [->|?] & ?)]; [now left|]. right. split; [assumption|].
      exists l'. auto.
Qed.

Lemma triangular_spec rest : forall first,
  StronglySorted le first -> Forall (StronglySorted le) rest ->
  FindTriangular first rest = [] <->
  (forall i j f li lj, i < j ->
     nth_error (first :: rest) i = Some li -> nth_error (first :: rest) j = Some lj ->
     In f li -> In f lj -> False).
Proof.
  induction rest as [|second rest IH]; intros first Sf F; cbn [FindTriangular].
  - split; [|reflexivity]. intros _ i j f li lj L Hi Hj.
    destruct j as [|j]; [lia|]. cbn [nth_error] in Hj. destruct j; discriminate.
  - inversion F as [|? ? Ss F']; subst. split.
    + intros E i j f li lj L Hi Hj Hfi Hfj.
      apply app_eq_nil in E. destruct E as [E1 E]. apply app_eq_nil in E.
      destruct E as [E2 E3].
      destruct j as [|j]; [lia|]. cbn [nth_error] in Hj.
      destruct i as [|i].
      * cbn [nth_error] in Hi. injection Hi as <-.
        destruct j as [|j]; cbn [nth_error] in Hj.
        -- injection Hj as <-.
           assert (X : In f (inter first second)) by (apply inter_spec; auto).
           rewrite E1 in X. exact X.
        -- apply nth_error_In in Hj.
           assert (X : In f (FindLinear first rest)).
           { apply linear_spec; [assumption|assumption|]. split; [assumption|].
             exists lj. auto. }
           rewrite E2 in X. exact X.
      * cbn [nth_error] in Hi. refine (proj1 (IH second Ss F') E3 i j f li lj _ Hi Hj Hfi Hfj). lia.
    + intro H.
      assert (E1 : inter first second = []).
      { destruct (inter first second) as [|f l] eqn:E; [reflexivity|]. exfalso.
        assert (X : In f (inter first second)) by (rewrite E; now left).
        apply inter_spec in X; [|assumption|assumption]. destruct X as [X1 X2].
        apply (H 0 1 f first second); try reflexivity; auto. }
      assert (E2 : FindLinear first rest = []).
      { destruct (FindLinear first rest) as [|f l] eqn:E; [reflexivity|]. exfalso.
        assert (X : In f (FindLinear first rest)) by (rewrite E; now left).
        apply linear_spec in X; [|assumption|assumption].
        destruct X as [X1 (l' & Hl & X2)]. apply In_nth_error in Hl.
        destruct Hl as [j Hj].
        apply (H 0 (S (S j)) f first l'); try reflexivity; auto. lia. }
      rewrite E1, E2. cbn [app]. apply IH; [assumption|assumption|].
      intros i j f li lj L Hi Hj. apply (H (S i) (S j) f li lj); auto. lia.
Qed.

(** * Reading *)

Lemma value_at_get m k d v : NoDup (map fst m) ->
  value_at m k d v <-> GetOrDefault m k d = v.
Proof.
  intro ND. unfold value_at, GetOrDefault. split.
  - intros [Hin|[N ->]].
    + assert (E : alookup k m = Some v).
      { clear d. induction m as [|[k' v'] m IH]; [destruct Hin|].
        cbn [map fst] in ND. inversion ND as [|? ? Nk ND']; subst.
        cbn [alookup]. destruct Hin as [E|Hin].
        - injection E as -> ->. now rewrite String.eqb_refl.
        - destruct (String.eqb_spec k k') as [->|]; [|auto].
          exfalso. apply Nk. apply in_map_iff. exists (k', v). auto. }
      now rewrite E.
    + apply alookup_None in N. now rewrite N.
  - destruct (alookup k m) as [w|] eqn:E; intros ->.
    + left. now apply alookup_In.
    + right. split; [|reflexivity]. now apply alookup_None.
Qed.

Lemma in_alookup {A} m k (v : A) : NoDup (map fst m) -> In (k, v) m <-> alookup k m = Some v.
Proof.
  intro ND. split; [|apply alookup_In].
  induction m as [|[k' v'] m IH]; [intros []|]. intro Hin.
  cbn [map fst] in ND. inversion ND as [|? ? Nk ND']; subst.
  cbn [alookup]. destruct Hin as [E|Hin].
  - injection E as -> ->. now rewrite String.eqb_refl.
  - destruct (String.eqb_spec k k') as [->|]; [|auto].
    exfalso. apply Nk. apply in_map_iff. exists (k', v). auto.
Qed.

Lemma get_strings_spec l r : get_strings l = Some r <-> l = map JStr r.
Proof.
  split.
  - revert r. induction l as [|v l IH]; intros r; cbn [get_strings].
    + now intros [= <-].
    + destruct v; try discriminate. destruct (get_strings l) as [r'|]; [|discriminate].
      intros [= <-]. cbn [map]. now rewrite (IH r' eq_refl).
  - intros ->. induction r as [|x r IH]; cbn [map get_strings]; [reflexivity|now rewrite IH].
Qed.

Lemma strings_at_read m k l : NoDup (map fst m) ->
  strings_at m k l <-> ReadStringList m k = Some l.
Proof.
  intro ND. unfold strings_at, ReadStringList. rewrite value_at_get by exact ND.
  split.
  - intros ->. now apply get_strings_spec.
  - destruct (GetOrDefault m k (JArr [])) as [| | |vs|]; try discriminate.
    intro H. apply get_strings_spec in H. now subst.
Qed.

Lemma map_entries_spec {A} (f : json -> option A) o l :
  map_entries f o = Some l <-> entries (fun v a => f v = Some a) o l.
Proof.
  unfold entries. split.
  - revert l. induction o as [|[k v] o IH]; intros l; cbn [map_entries].
    + intros [= <-]. constructor.
    + destruct (f v) as [a|] eqn:E; [|discriminate].
      destruct (map_entries f o) as [r|]; [|discriminate].
      intros [= <-]. constructor; [split; [reflexivity|exact E]|]. now apply IH.
  - intro F. induction F as [|[k v] [k' a] o l [E1 E2] F IH]; cbn [map_entries];
      [reflexivity|]. cbn [fst snd] in *. subst k'. now rewrite E2, IH.
Qed.

Lemma entries_ext {A} (R R' : json -> A -> Prop) o l :
  (forall k v a, In (k, v) o -> R v a <-> R' v a) -> entries R o l <-> entries R' o l.
Proof.
  unfold entries. intro H. split; intro F.
  - induction F as [|[k v] [k' a] o l [E1 E2] F IH]; constructor.
    + split; [exact E1|]. cbn [snd] in *. apply (H k); [now left|exact E2].
    + apply IH. intros. apply (H k0). now right.
  - induction F as [|[k v] [k' a] o l [E1 E2] F IH]; constructor.
    + split; [exact E1|]. cbn [snd] in *. apply (H k); [now left|exact E2].
    + apply IH. intros. apply (H k0). now right.
Qed.

Lemma get_unique m k d v : unique_keys (JObj m) -> unique_keys d ->
  GetOrDefault m k d = v -> unique_keys v.
Proof.
  intros U Ud. unfold GetOrDefault. destruct (alookup k m) as [w|] eqn:E; intros <-; [|exact Ud].
  inversion U as [| | | |? _ F]; subst. apply alookup_In in E.
  rewrite Forall_forall in F. exact (F _ E).
Qed.

Lemma object_at_read {A} (R : json -> A -> Prop) (f : json -> option A) m k l :
  unique_keys (JObj m) ->
  (forall v a, unique_keys v -> R v a <-> f v = Some a) ->
  object_at R m k l <->
  match GetOrDefault m k (JObj []) with JObj o => map_entries f o | _ => None end = Some l.
Proof.
  intros U H. assert (ND : NoDup (map fst m)) by (inversion U; assumption).
  assert (Ue : unique_keys (JObj [])) by (constructor; constructor).
  unfold object_at. split.
  - intros (o & V & E). rewrite value_at_get in V by exact ND. rewrite V.
    apply map_entries_spec. apply (entries_ext R); [|exact E].
    intros k' v a Hin. apply H.
    assert (Uo := get_unique _ _ _ _ U Ue V). inversion Uo as [| | | |? _ F]; subst.
    rewrite Forall_forall in F. exact (F _ Hin).
  - destruct (GetOrDefault m k (JObj [])) as [| | | |o] eqn:V; try discriminate.
    intro E. exists o. split; [now rewrite value_at_get|].
    apply map_entries_spec in E. apply (entries_ext _ (fun v a => f v = Some a)); [|exact E].
    intros k' v a Hin. apply H.
    assert (Uo := get_unique _ _ _ _ U Ue V). inversion Uo as [| | | |? _ F]; subst.
    rewrite Forall_forall in F. exact (F _ Hin).
Qed.

Section S.
Variable name : Type.
Variable parse : json -> option name.
Variable function : name -> bool.

Lemma parse_all_spec vs l : parse_all name parse vs = Some l <-> Forall2 (is_name name parse) vs l.
Proof.
  unfold is_name. split.
  - revert l. induction vs as [|v vs IH]; intros l; cbn [parse_all].
    + intros [= <-]. constructor.
    + destruct (parse v) as [n|] eqn:E; [|discriminate].
      destruct (parse_all name parse vs) as [r|]; [|discriminate].
      intros [= <-]. constructor; [exact E|]. now apply IH.
  - intro F. induction F as [|v n vs l E F IH]; cbn [parse_all]; [reflexivity|].
    now rewrite E, IH.
Qed.

Lemma is_names_read v l :
  is_names name parse v l <->
  match v with JArr vs => parse_all name parse vs | _ => None end = Some l.
Proof.
  unfold is_names. split.
  - intros (vs & -> & F). now apply parse_all_spec.
  - destruct v as [| | |vs|]; try discriminate. intro E. exists vs.
    split; [reflexivity|]. now apply parse_all_spec.
Qed.

Lemma is_anon_read v a : unique_keys v ->
  is_anon name parse v a <-> read_anon name parse v = Some a.
Proof.
  intro U. unfold is_anon. split.
  - intros (d & -> & Ht & Hp & o & Hr & E).
    assert (ND : NoDup (map fst d)) by (inversion U; assumption).
    rewrite in_alookup in Ht, Hp, Hr by exact ND. cbn [read_anon].
    rewrite Ht, Hp, Hr. apply (map_entries_spec parse) in E. rewrite E.
    destruct a; reflexivity.
  - unfold read_anon. destruct v as [| | | |d]; try discriminate.
    destruct (alookup "target" d) as [[| |t| |]|] eqn:Et; try discriminate.
    destruct (alookup "provider" d) as [[| |p| |]|] eqn:Ep; try discriminate.
    destruct (alookup "rule_map" d) as [[| | | |o]|] eqn:Eo; try discriminate.
    destruct (map_entries parse o) as [r|] eqn:Er; try discriminate.
    intros [= <-]. exists d. split; [reflexivity|].
    split; [now apply alookup_In|]. split; [now apply alookup_In|].
    exists o. split; [now apply alookup_In|]. now apply map_entries_spec.
Qed.

(** * Creating *)

Lemma existsb_in x l : existsb (String.eqb x) l = true <-> In x l.
Proof.
  rewrite existsb_exists. split.
  - intros (y & Hy & E). apply String.eqb_eq in E. now subst.
  - intro H. exists x. split; [exact H|apply String.eqb_refl].
Qed.

Lemma reserved_sorted : StronglySorted le kReservedKeywords.
Proof.
  unfold kReservedKeywords. repeat constructor; unfold le, str_lt; discriminate.
Qed.

Lemma sorted_all ls : Forall (StronglySorted le) (map sort ls).
Proof.
  apply Forall_forall. intros l Hl. apply in_map_iff in Hl.
  destruct Hl as (l' & <- & _). apply sort_sorted.
Qed.

Lemma nil_iff {A} (l : list A) : l = [] <-> forall x, ~ In x l.
Proof.
  split; [intros -> x []|]. destruct l as [|x l]; [reflexivity|].
  intro H. exfalso. apply (H x). now left.
Qed.

Lemma create_spec tf sf cf im an cv ta tr ex ia :
  Forall (fun e => function (snd e) = true) ia ->
  (Create name tf sf cf im an cv ta tr ex ia <> None <->
   consistent name function (mkSays name tf sf cf im an cv ta tr ex ia)).
Proof.
  intro Fi. unfold Create.
  set (ls := [tf; sf; cf; map fst im; map fst an]).
  assert (R : FindLinear kReservedKeywords
      [sort tf; sort sf; sort cf; sort (map fst im); sort (map fst an)] = [] <->
      (forall l f, In l ls -> In f l -> f <> "arguments_config" /\ f <> "tainted" /\ f <> "type")).
  { change [sort tf; sort sf; sort cf; sort (map fst im); sort (map fst an)] with (map sort ls).
    rewrite nil_iff. split.
    - intros H l f Hl Hf.
      assert (N : ~ In f kReservedKeywords).
      { intro K. apply (H f). apply linear_spec; [apply reserved_sorted|apply sorted_all|].
        split; [exact K|]. exists (sort l). split; [now apply in_map|now apply sort_in]. }
      unfold kReservedKeywords in N. cbn [In] in N.
      repeat split; intros ->; apply N; tauto.
    - intros H f Hf. apply linear_spec in Hf; [|apply reserved_sorted|apply sorted_all].
      destruct Hf as [K (l & Hl & Hf)]. apply in_map_iff in Hl.
      destruct Hl as (l' & <- & Hl). apply (proj1 (sort_in _ _)) in Hf.
      destruct (H l' f Hl Hf) as (N1 & N2 & N3).
      unfold kReservedKeywords in K. cbn [In] in K.
      destruct K as [K|[K|[K|[]]]]; congruence. }
  assert (T : FindTriangular (sort tf) [sort sf; sort cf; sort (map fst im); sort (map fst an)] = [] <->
      (forall i j f li lj, nth_error ls i = Some li -> nth_error ls j = Some lj ->
         In f li -> In f lj -> i = j)).
  { change [sort sf; sort cf; sort (map fst im); sort (map fst an)]
      with (map sort [sf; cf; map fst im; map fst an]).
    rewrite triangular_spec by (try apply sort_sorted; apply sorted_all).
    change (sort tf :: map sort [sf; cf; map fst im; map fst an]) with (map sort ls).
    split.
    - intros H i j f li lj Hi Hj Hfi Hfj.
      destruct (PeanoNat.Nat.lt_trichotomy i j) as [L|[E|L]]; [exfalso|exact E|exfalso].
      + apply (H i j f (sort li) (sort lj) L); try (now apply map_nth_error); now apply sort_in.
      + apply (H j i f (sort lj) (sort li) L); try (now apply map_nth_error); now apply sort_in.
    - intros H i j f li lj L Hi Hj Hfi Hfj.
      rewrite nth_error_map in Hi, Hj.
      destruct (nth_error ls i) as [li'|] eqn:Ei; [|discriminate].
      destruct (nth_error ls j) as [lj'|] eqn:Ej; [|discriminate].
      cbn [option_map] in Hi, Hj. injection Hi as <-. injection Hj as <-.
      apply (proj1 (sort_in _ _)) in Hfi, Hfj.
      specialize (H i j f li' lj' Ei Ej Hfi Hfj). lia. }
  assert (P : forallb (fun t => existsb (String.eqb t)
                (FindLinear (sort (map fst tr)) [sort tf; sort (map fst im); sort (map fst an)]))
                (sort (map fst tr)) = true <->
      (forall f, In f (map fst tr) -> In f tf \/ In f (map fst im) \/ In f (map fst an))).
  { change [sort tf; sort (map fst im); sort (map fst an)]
      with (map sort [tf; map fst im; map fst an]).
    rewrite forallb_forall. split.
    - intros H f Hf. specialize (H f (proj2 (sort_in _ _) Hf)).
      apply existsb_in in H.
      apply linear_spec in H; [|apply sort_sorted|apply sorted_all].
      destruct H as [_ (l & Hl & Hfl)]. cbn [map In] in Hl.
      destruct Hl as [<-|[<-|[<-|[]]]]; apply (proj1 (sort_in _ _)) in Hfl; tauto.
    - intros H f Hf. apply existsb_in.
      apply linear_spec; [apply sort_sorted|apply sorted_all|]. split; [exact Hf|].
      apply (proj1 (sort_in _ _)) in Hf.
      destruct (H f Hf) as [X|[X|X]].
      + exists (sort tf). split; [now left|now apply sort_in].
      + exists (sort (map fst im)). split; [right; now left|now apply sort_in].
      + exists (sort (map fst an)). split; [right; right; now left|now apply sort_in]. }
  cbv zeta.
  destruct (FindLinear kReservedKeywords _) as [|x xs] eqn:E1.
  2:{ split; [congruence|]. intros [_ C _ _]. exfalso.
      assert (X : x :: xs = []) by (apply R; exact C). discriminate. }
  destruct (FindTriangular (sort tf) _) as [|y ys] eqn:E2.
  2:{ split; [congruence|]. intros [C _ _ _]. exfalso.
      assert (X : y :: ys = []) by (apply T; exact C). discriminate. }
  destruct (forallb _ (sort (map fst tr))) eqn:E3.
  - split; [|discriminate]. intros _. constructor.
    + apply T. reflexivity.
    + apply R. reflexivity.
    + apply P. reflexivity.
    + intros k n Hin. rewrite Forall_forall in Fi. exact (Fi _ Hin).
  - split; [congruence|]. intros [_ _ C _]. exfalso.
    assert (X : false = true) by (apply P; exact C). discriminate.
Qed.

(** ** Transitions *)

Lemma emplace_lookup {A} k (v : A) l x :
  alookup x (emplace k v l) =
  match alookup x l with Some w => Some w | None => if String.eqb x k then Some v else None end.
Proof.
  unfold emplace. destruct (alookup k l) as [w|] eqn:E.
  - destruct (alookup x l) eqn:F; [reflexivity|].
    destruct (String.eqb_spec x k); [congruence|reflexivity].
  - clear E. induction l as [|[k' v'] l IH]; cbn [app alookup]; [reflexivity|].
    destruct (String.eqb x k'); [reflexivity|exact IH].
Qed.

Lemma default_lookup fields : forall l x,
  alookup x (default_transitions fields l) =
  match alookup x l with
  | Some w => Some w
  | None => if existsb (String.eqb x) fields then Some None else None
  end.
Proof.
  unfold default_transitions.
  induction fields as [|f fields IH]; intros l x; cbn [fold_left existsb].
  - destruct (alookup x l); reflexivity.
  - rewrite IH, emplace_lookup. destruct (alookup x l); [reflexivity|].
    destruct (String.eqb x f); reflexivity.
Qed.

Lemma alookup_map_some (tr : list (string * json)) x :
  alookup x (map (fun '(k, v) => (k, Some v)) tr) = option_map Some (alookup x tr).
Proof.
  induction tr as [|[k v] tr IH]; cbn [map alookup]; [reflexivity|].
  destruct (String.eqb x k); [reflexivity|exact IH].
Qed.

(** * All *)

Lemma create_some tf sf cf im an cv ta tr ex ia r :
  Create name tf sf cf im an cv ta tr ex ia = Some r ->
  r = mkRule name (sort tf) (sort sf) (sort cf) im an cv ta
        (default_transitions (sort tf ++ sort (map fst im) ++ sort (map fst an))
           (map (fun '(k, v) => (k, Some v)) tr)) ex ia.
Proof.
  unfold Create. cbv zeta.
  destruct (FindLinear kReservedKeywords _); [|discriminate].
  destruct (FindTriangular _ _); [|discriminate].
  destruct (forallb _ _); [|discriminate]. now intros [= <-].
Qed.

Lemma describes_read m d : unique_keys (JObj m) -> describes name parse m d ->
  ReadRule name parse function (JObj m) =
  if forallb (fun '(_, n) => function n) (s_imports _ d)
  then Create name (s_targets _ d) (s_strings _ d) (s_configs _ d) (s_implicit _ d)
         (s_anonymous _ d) (s_vars _ d) (s_tainted _ d) (s_transitions _ d)
         (s_expression _ d) (s_imports _ d)
  else None.
Proof.
  intros U [D1 D2 D3 D4 D5 D6 D7 D8 D9 D10].
  assert (ND : NoDup (map fst m)) by (inversion U; assumption).
  apply (strings_at_read _ _ _ ND) in D1, D2, D3, D6, D7.
  apply (in_alookup _ _ _ ND) in D9. apply (value_at_get _ _ _ _ ND) in D8.
  rewrite (object_at_read _ _ _ _ _ U (fun v a _ => is_names_read v a)) in D4.
  rewrite (object_at_read _ _ _ _ _ U (fun v a Uv => is_anon_read v a Uv)) in D5.
  rewrite (object_at_read _ parse _ _ _ U (fun v a _ => iff_refl _)) in D10.
  unfold ReadRule, ReadImplicitObject, ReadAnonymousObject, ReadEntityAliasesObject,
    ReadConfigTransitionsObject.
  rewrite D9, D1, D2, D3, D4, D5, D6, D7, D10, D8. reflexivity.
Qed.

Lemma read_describes v r : unique_keys v -> ReadRule name parse function v = Some r ->
  exists m d, v = JObj m /\ describes name parse m d.
Proof.
  intros U. destruct v as [| | | |m]; try discriminate. cbn [ReadRule].
  assert (ND : NoDup (map fst m)) by (inversion U; assumption).
  destruct (alookup "expression" m) as [ex|] eqn:D9; [|discriminate].
  destruct (ReadStringList m "target_fields") as [tf|] eqn:D1; [|discriminate].
  destruct (ReadStringList m "string_fields") as [sf|] eqn:D2; [|discriminate].
  destruct (ReadStringList m "config_fields") as [cf|] eqn:D3; [|discriminate].
  destruct (ReadImplicitObject name parse m) as [im|] eqn:D4; [|discriminate].
  destruct (ReadAnonymousObject name parse m) as [an|] eqn:D5; [|discriminate].
  destruct (ReadStringList m "config_vars") as [cv|] eqn:D6; [|discriminate].
  destruct (ReadStringList m "tainted") as [ta|] eqn:D7; [|discriminate].
  destruct (ReadEntityAliasesObject name parse m "imports") as [ia|] eqn:D10; [|discriminate].
  destruct (forallb _ ia); [|discriminate].
  destruct (ReadConfigTransitionsObject m) as [tr|] eqn:D8; [|discriminate].
  intros _. exists m, (mkSays name tf sf cf im an cv ta tr ex ia).
  split; [reflexivity|].
  unfold ReadImplicitObject in D4. unfold ReadAnonymousObject in D5.
  unfold ReadEntityAliasesObject in D10. unfold ReadConfigTransitionsObject in D8.
  constructor; cbn [s_targets s_strings s_configs s_implicit s_anonymous s_vars
    s_tainted s_transitions s_expression s_imports].
  - now apply strings_at_read.
  - now apply strings_at_read.
  - now apply strings_at_read.
  - now apply (object_at_read _ _ _ _ _ U (fun v a _ => is_names_read v a)).
  - now apply (object_at_read _ _ _ _ _ U (fun v a Uv => is_anon_read v a Uv)).
  - now apply strings_at_read.
  - now apply strings_at_read.
  - apply value_at_get; [exact ND|].
    destruct (GetOrDefault m "config_transitions" (JObj [])); try discriminate.
    now injection D8 as ->.
  - now apply in_alookup.
  - now apply (object_at_read _ parse _ _ _ U (fun v a _ => iff_refl _)).
Qed.

Lemma forallb_imports (ia : list (string * name)) :
  forallb (fun '(_, n) => function n) ia = true <->
  Forall (fun e => function (snd e) = true) ia.
Proof.
  rewrite forallb_forall, Forall_forall. split.
  - intros H [k n] Hin. exact (H _ Hin).
  - intros H [k n] Hin. exact (H _ Hin).
Qed.

Lemma read_iff m d : unique_keys (JObj m) -> describes name parse m d ->
  (ReadRule name parse function (JObj m) <> None <-> consistent name function d).
Proof.
  intros U D. rewrite (describes_read m d U D).
  destruct (forallb _ (s_imports _ d)) eqn:E.
  - apply forallb_imports in E. rewrite create_spec by exact E. destruct d; reflexivity.
  - split; [congruence|]. intros [_ _ _ I4]. exfalso.
    assert (X : forallb (fun '(_, n) => function n) (s_imports name d) = true).
    { apply forallb_forall. intros [k n] Hin. exact (I4 k n Hin). }
    congruence.
Qed.

(** ** Other keys *)

Lemma alookup_filter {A} (p : string -> bool) k (m : list (string * A)) :
  p k = true -> alookup k (filter (fun e => p (fst e)) m) = alookup k m.
Proof.
  intro H. induction m as [|[k' v] m IH]; cbn [filter alookup fst]; [reflexivity|].
  destruct (p k') eqn:E; cbn [alookup].
  - destruct (String.eqb k k'); [reflexivity|exact IH].
  - destruct (String.eqb_spec k k') as [->|]; [congruence|exact IH].
Qed.

Lemma read_filter (p : string -> bool) m :
  (forall k, In k ["expression"; "target_fields"; "string_fields"; "config_fields";
                   "implicit"; "anonymous"; "config_vars"; "tainted"; "imports";
                   "config_transitions"] -> p k = true) ->
  ReadRule name parse function (JObj (filter (fun e => p (fst e)) m)) =
  ReadRule name parse function (JObj m).
Proof.
  intro H. unfold ReadRule, ReadStringList, ReadImplicitObject, ReadAnonymousObject,
    ReadEntityAliasesObject, ReadConfigTransitionsObject, GetOrDefault.
  rewrite !alookup_filter; [reflexivity|..]; apply H; cbn [In]; tauto.
Qed.
End S.
