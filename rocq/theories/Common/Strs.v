(** Byte strings and their order, shared by all areas.

    [std::string::operator<] (used through [std::map<std::string, _>], [std::set<std::string>] and
    the explicit comparisons in linked_map.hpp:228) compares with [std::char_traits<char>::compare],
    i.e. lexicographically on unsigned bytes. *)
From Coq Require Import String Ascii NArith List Bool Lia Sorted Permutation.
Import ListNotations.
Local Open Scope string_scope.

(** Model of [std::string::compare] (lexicographic on unsigned bytes). *)
Fixpoint str_cmp (a b : string) : comparison :=
  match a, b with
  | EmptyString, EmptyString => Eq
  | EmptyString, String _ _ => Lt
  | String _ _, EmptyString => Gt
  | String x a', String y b' =>
      match N.compare (N_of_ascii x) (N_of_ascii y) with
      | Eq => str_cmp a' b'
      | c => c
      end
  end.

Definition str_ltb (a b : string) : bool :=
  match str_cmp a b with Lt => true | _ => false end.

Definition str_lt (a b : string) : Prop := str_cmp a b = Lt.

Lemma N_of_ascii_inj a b : N_of_ascii a = N_of_ascii b -> a = b.
Proof.
  intros H. rewrite <- (ascii_N_embedding a), <- (ascii_N_embedding b), H. reflexivity.
Qed.

Lemma str_cmp_refl a : str_cmp a a = Eq.
Proof. induction a as [|x a IH]; cbn; [reflexivity|]. rewrite N.compare_refl. exact IH. Qed.

Lemma str_cmp_eq a : forall b, str_cmp a b = Eq -> a = b.
Proof.
  induction a as [|x a IH]; intros [|y b]; cbn; intros H; try discriminate; [reflexivity|].
  destruct (N.compare_spec (N_of_ascii x) (N_of_ascii y)) as [E|E|E]; try discriminate.
  apply N_of_ascii_inj in E. subst y. f_equal. auto.
Qed.

Lemma str_cmp_antisym a : forall b, str_cmp b a = CompOpp (str_cmp a b).
Proof.
  induction a as [|x a IH]; intros [|y b]; cbn; try reflexivity.
  rewrite (N.compare_antisym (N_of_ascii x) (N_of_ascii y)).
  destruct (N.compare (N_of_ascii x) (N_of_ascii y)); cbn; auto.
Qed.

Lemma str_lt_irrefl a : ~ str_lt a a.
Proof. unfold str_lt. rewrite str_cmp_refl. discriminate. Qed.

Lemma str_lt_trans a : forall b c, str_lt a b -> str_lt b c -> str_lt a c.
Proof.
  unfold str_lt. induction a as [|x a IH]; intros [|y b] [|z c]; cbn; intros H1 H2;
    try discriminate; try reflexivity.
  destruct (N.compare_spec (N_of_ascii x) (N_of_ascii y)) as [E|E|E]; try discriminate;
  destruct (N.compare_spec (N_of_ascii y) (N_of_ascii z)) as [F|F|F]; try discriminate.
  - rewrite E, F, N.compare_refl. eauto.
  - rewrite E. rewrite (proj2 (N.compare_lt_iff _ _) F). reflexivity.
  - rewrite <- F. rewrite (proj2 (N.compare_lt_iff _ _) E). reflexivity.
  - rewrite (proj2 (N.compare_lt_iff _ _) (N.lt_trans _ _ _ E F)). reflexivity.
Qed.

Lemma str_lt_gt a b : str_cmp a b = Gt -> str_lt b a.
Proof. unfold str_lt. intros H. rewrite str_cmp_antisym, H. reflexivity. Qed.

Lemma str_gt_lt a b : str_lt b a -> str_cmp a b = Gt.
Proof. unfold str_lt. intros H. rewrite str_cmp_antisym, H. reflexivity. Qed.

Lemma str_lt_neq a b : str_lt a b -> a <> b.
Proof. intros H E. subst. exact (str_lt_irrefl _ H). Qed.

Lemma str_lt_asym a b : str_lt a b -> ~ str_lt b a.
Proof. intros H1 H2. exact (str_lt_irrefl _ (str_lt_trans _ _ _ H1 H2)). Qed.

Lemma str_trichotomy a b : {str_lt a b} + {a = b} + {str_lt b a}.
Proof.
  destruct (str_cmp a b) eqn:E.
  - left; right. now apply str_cmp_eq.
  - left; left. exact E.
  - right. now apply str_lt_gt.
Defined.

Lemma str_ltb_lt a b : str_ltb a b = true <-> str_lt a b.
Proof. unfold str_ltb, str_lt. destruct (str_cmp a b); split; congruence. Qed.

Lemma str_cmp_spec a b : CompareSpec (a = b) (str_lt a b) (str_lt b a) (str_cmp a b).
Proof.
  destruct (str_cmp a b) eqn:E; constructor.
  - now apply str_cmp_eq.
  - exact E.
  - now apply str_lt_gt.
Qed.

Lemma eqb_str_cmp a b : String.eqb a b = match str_cmp a b with Eq => true | _ => false end.
Proof.
  destruct (str_cmp_spec a b) as [E|E|E].
  - subst. apply String.eqb_refl.
  - apply String.eqb_neq. now apply str_lt_neq.
  - apply String.eqb_neq. intros ->. exact (str_lt_irrefl _ E).
Qed.

(** First binding of a key in an association list: [std::map::find] when keys are unique. *)
Fixpoint alookup {V} (k : string) (l : list (string * V)) : option V :=
  match l with
  | [] => None
  | (k', v) :: r => if String.eqb k k' then Some v else alookup k r
  end.

Definition keys {V} (l : list (string * V)) : list string := map fst l.

(** Strictly increasing keys: the invariant of [std::map] iteration. *)
Definition key_lt {V} (p q : string * V) : Prop := str_lt (fst p) (fst q).
Definition sorted_keys {V} (l : list (string * V)) : Prop := StronglySorted key_lt l.

(** [std::map::insert_or_assign] / [operator[]=] on a sorted association list. *)
Fixpoint ainsert {V} (k : string) (v : V) (l : list (string * V)) : list (string * V) :=
  match l with
  | [] => [(k, v)]
  | (k', v') :: r =>
      match str_cmp k k' with
      | Lt => (k, v) :: l
      | Eq => (k, v) :: r
      | Gt => (k', v') :: ainsert k v r
      end
  end.

(** [std::map::emplace]: keeps an already present binding. *)
Fixpoint aemplace {V} (k : string) (v : V) (l : list (string * V)) : list (string * V) :=
  match l with
  | [] => [(k, v)]
  | (k', v') :: r =>
      match str_cmp k k' with
      | Lt => (k, v) :: l
      | Eq => l
      | Gt => (k', v') :: aemplace k v r
      end
  end.

Lemma alookup_In {V} k v (l : list (string * V)) : alookup k l = Some v -> In (k, v) l.
Proof.
  induction l as [|[k' v'] r IH]; cbn; [discriminate|].
  destruct (String.eqb_spec k k'); intros H; [inversion H; subst; auto | auto].
Qed.

Lemma alookup_None {V} k (l : list (string * V)) : alookup k l = None <-> ~ In k (keys l).
Proof.
  induction l as [|[k' v'] r IH]; cbn; [tauto|].
  destruct (String.eqb_spec k k'); split; intros H.
  - discriminate.
  - exfalso. apply H. left. congruence.
  - intros [E|E]; [congruence|]. now apply IH.
  - apply IH. intros E. apply H. auto.
Qed.

Lemma sorted_keys_tail {V} (p : string * V) l : sorted_keys (p :: l) -> sorted_keys l.
Proof. intros H. inversion H. assumption. Qed.

Lemma sorted_keys_head {V} (p : string * V) l q : sorted_keys (p :: l) -> In q l -> str_lt (fst p) (fst q).
Proof. intros H Hq. inversion H as [|? ? _ F]; subst. rewrite Forall_forall in F. exact (F _ Hq). Qed.

Lemma sorted_alookup_In {V} k v (l : list (string * V)) :
  sorted_keys l -> In (k, v) l -> alookup k l = Some v.
Proof.
  induction l as [|[k' v'] r IH]; cbn; intros S E; [destruct E|destruct E as [E|E]].
  - inversion E; subst. rewrite String.eqb_refl. reflexivity.
  - pose proof (sorted_keys_head _ _ _ S E) as L. cbn in L.
    destruct (String.eqb_spec k k'); [subst; exfalso; exact (str_lt_irrefl _ L)|].
    apply IH; [eapply sorted_keys_tail; eauto | assumption].
Qed.

Lemma sorted_NoDup {V} (l : list (string * V)) : sorted_keys l -> NoDup (keys l).
Proof.
  induction l as [|[k v] r IH]; cbn; intros S; constructor.
  - intros Hin. unfold keys in Hin. rewrite in_map_iff in Hin. destruct Hin as [[k' v'] [E Hin]].
    cbn in E. subst. pose proof (sorted_keys_head _ _ _ S Hin) as L. exact (str_lt_irrefl _ L).
  - apply IH. eapply sorted_keys_tail; eauto.
Qed.

Lemma alookup_lt_head {V} k k' (v' : V) r :
  sorted_keys ((k', v') :: r) -> str_lt k k' -> alookup k ((k', v') :: r) = None.
Proof.
  intros S L. apply alookup_None. cbn. intros [E|E].
  - subst. exact (str_lt_irrefl _ L).
  - unfold keys in E. rewrite in_map_iff in E. destruct E as [q [Eq Hq]].
    pose proof (sorted_keys_head _ _ _ S Hq) as L2. cbn in L2. rewrite Eq in L2.
    exact (str_lt_irrefl _ (str_lt_trans _ _ _ L L2)).
Qed.

(** Sorted association lists are determined by their lookup function. *)
Lemma sorted_ext {V} (l1 l2 : list (string * V)) :
  sorted_keys l1 -> sorted_keys l2 -> (forall k, alookup k l1 = alookup k l2) -> l1 = l2.
Proof.
  revert l2. induction l1 as [|[k v] r IH]; intros [|[k' v'] r'] S1 S2 E.
  - reflexivity.
  - specialize (E k'). cbn in E. rewrite String.eqb_refl in E. discriminate.
  - specialize (E k). cbn in E. rewrite String.eqb_refl in E. discriminate.
  - assert (k = k') as ->.
    { destruct (str_trichotomy k k') as [[L|L]|L]; [|assumption|].
      - pose proof (E k) as E1. rewrite (alookup_lt_head _ _ _ _ S2 L) in E1.
        cbn in E1. rewrite String.eqb_refl in E1. discriminate.
      - pose proof (E k') as E1. rewrite (alookup_lt_head _ _ _ _ S1 L) in E1.
        cbn in E1. rewrite String.eqb_refl in E1. discriminate. }
    pose proof (E k') as E1. cbn in E1. rewrite String.eqb_refl in E1. inversion E1; subst v'.
    f_equal. apply IH; [eapply sorted_keys_tail; eauto..|].
    intros x. specialize (E x). cbn in E. destruct (String.eqb_spec x k'); [|assumption].
    subst x.
    assert (forall rr, sorted_keys ((k', v) :: rr) -> alookup k' rr = None) as Hn.
    { intros rr S. apply alookup_None. intros Hin. apply sorted_NoDup in S. cbn in S. inversion S. auto. }
    rewrite (Hn _ S1), (Hn _ S2). reflexivity.
Qed.

Lemma ainsert_lookup {V} k (v : V) l x :
  alookup x (ainsert k v l) = if String.eqb x k then Some v else alookup x l.
Proof.
  induction l as [|[k' v'] r IH]; cbn.
  - reflexivity.
  - destruct (str_cmp_spec k k') as [E|E|E]; cbn.
    + subst. destruct (String.eqb_spec x k'); reflexivity.
    + destruct (String.eqb_spec x k); reflexivity.
    + rewrite IH. destruct (String.eqb_spec x k'); [|reflexivity].
      subst. destruct (String.eqb_spec k' k); [subst; exfalso; exact (str_lt_irrefl _ E)|reflexivity].
Qed.

Lemma aemplace_lookup {V} k (v : V) l x : sorted_keys l ->
  alookup x (aemplace k v l) = match alookup x l with
                               | Some w => Some w
                               | None => if String.eqb x k then Some v else None
                               end.
Proof.
  induction l as [|[k' v'] r IH]; intros S; cbn.
  - reflexivity.
  - destruct (str_cmp_spec k k') as [E|E|E]; cbn.
    + subst. destruct (String.eqb_spec x k') as [Ex|Ex]; [reflexivity|].
      destruct (alookup x r); reflexivity.
    + destruct (String.eqb_spec x k) as [Ex|Ex].
      * subst. pose proof (alookup_lt_head _ _ _ _ S E) as Hn. cbn in Hn. rewrite Hn. reflexivity.
      * destruct (String.eqb_spec x k'); [reflexivity|]. destruct (alookup x r); reflexivity.
    + rewrite IH by (eapply sorted_keys_tail; eauto).
      destruct (String.eqb_spec x k'); reflexivity.
Qed.

Lemma In_ainsert {V} k (v : V) l p : In p (ainsert k v l) -> p = (k, v) \/ In p l.
Proof.
  induction l as [|[k' v'] r IH]; cbn; [intuition|].
  destruct (str_cmp k k'); cbn; intuition.
Qed.

Lemma In_aemplace {V} k (v : V) l p : In p (aemplace k v l) -> p = (k, v) \/ In p l.
Proof.
  induction l as [|[k' v'] r IH]; cbn; [intuition|].
  destruct (str_cmp k k'); cbn; intuition.
Qed.

Lemma ainsert_sorted {V} k (v : V) l : sorted_keys l -> sorted_keys (ainsert k v l).
Proof.
  induction l as [|[k' v'] r IH]; cbn; intros S.
  - repeat constructor.
  - destruct (str_cmp_spec k k') as [E|E|E].
    + subst. inversion S; subst. constructor; assumption.
    + constructor; [assumption|]. constructor; [exact E|].
      apply Forall_forall. intros q Hq. unfold key_lt. cbn.
      eapply str_lt_trans; [exact E|]. exact (sorted_keys_head _ _ _ S Hq).
    + constructor; [apply IH; eapply sorted_keys_tail; eauto|].
      apply Forall_forall. intros q Hq. destruct (In_ainsert _ _ _ _ Hq) as [->|Hq'].
      * exact E.
      * exact (sorted_keys_head _ _ _ S Hq').
Qed.

Lemma aemplace_sorted {V} k (v : V) l : sorted_keys l -> sorted_keys (aemplace k v l).
Proof.
  induction l as [|[k' v'] r IH]; cbn; intros S.
  - repeat constructor.
  - destruct (str_cmp_spec k k') as [E|E|E].
    + assumption.
    + constructor; [assumption|]. constructor; [exact E|].
      apply Forall_forall. intros q Hq. unfold key_lt. cbn.
      eapply str_lt_trans; [exact E|]. exact (sorted_keys_head _ _ _ S Hq).
    + constructor; [apply IH; eapply sorted_keys_tail; eauto|].
      apply Forall_forall. intros q Hq. destruct (In_aemplace _ _ _ _ Hq) as [->|Hq'].
      * exact E.
      * exact (sorted_keys_head _ _ _ S Hq').
Qed.

(** ** Strings as lists *)
Fixpoint str_rev_app (a acc : string) : string :=
  match a with EmptyString => acc | String c r => str_rev_app r (String c acc) end.

Lemma app_str_assoc (a b c : string) : (a ++ b) ++ c = a ++ (b ++ c).
Proof. induction a as [|x a IH]; cbn; [reflexivity|]. now rewrite IH. Qed.

Lemma app_str_nil_r (a : string) : a ++ "" = a.
Proof. induction a as [|x a IH]; cbn; [reflexivity|]. now rewrite IH. Qed.

Lemma app_str_length (a b : string) : String.length (a ++ b) = String.length a + String.length b.
Proof. induction a as [|x a IH]; cbn; [reflexivity|]. now rewrite IH. Qed.

Lemma app_str_inv_head (a b c : string) : a ++ b = a ++ c -> b = c.
Proof. induction a as [|x a IH]; cbn; [auto|]. intros H. inversion H. auto. Qed.

Lemma list_ascii_app a b :
  list_ascii_of_string (a ++ b) = (list_ascii_of_string a ++ list_ascii_of_string b)%list.
Proof. induction a as [|x a IH]; cbn; [reflexivity|]. now rewrite IH. Qed.

Lemma list_ascii_inj a b : list_ascii_of_string a = list_ascii_of_string b -> a = b.
Proof.
  intros H. rewrite <- (string_of_list_ascii_of_string a), <- (string_of_list_ascii_of_string b).
  now rewrite H.
Qed.

Lemma app_str_inv_tail (a b c : string) : a ++ c = b ++ c -> a = b.
Proof.
  intros H. apply list_ascii_inj. apply (f_equal list_ascii_of_string) in H.
  rewrite !list_ascii_app in H. now apply app_inv_tail in H.
Qed.

Lemma list_ascii_length s : List.length (list_ascii_of_string s) = String.length s.
Proof. induction s; cbn; congruence. Qed.
