(** Proofs about the order of places and about repeated attempts. *)
From Coq Require Import String NArith List Bool Permutation Lia Arith.
From Verif Require Import Mirrors.Model Mirrors.Spec.
Import ListNotations.
Open Scope string_scope.
Open Scope list_scope.

(** * The map *)

Lemma hm_find_set k v h k' :
  hm_find k' (hm_set k v h) = if String.eqb k' k then Some v else hm_find k' h.
Proof.
  induction h as [|[k0 v0] h IH]; cbn [hm_set hm_find].
  - destruct (String.eqb_spec k' k); reflexivity.
  - destruct (String.eqb_spec k k0) as [->|N]; cbn [hm_find].
    + destruct (String.eqb_spec k' k0); reflexivity.
    + destruct (String.eqb_spec k' k0) as [->|N'].
      * destruct (String.eqb_spec k0 k); [congruence|reflexivity].
      * exact IH.
Qed.

Definition get (k : string) (h : hmap) : list string :=
  match hm_find k h with Some l => l | None => [] end.

Lemma get_set k v h k' :
  get k' (hm_set k v h) = if String.eqb k' k then v else get k' h.
Proof. unfold get. rewrite hm_find_set. destruct (String.eqb k' k); reflexivity. Qed.

Lemma init_map_get hs : forall h, (forall k, get k h = []) ->
  forall k, get k (init_map hs h) = [].
Proof.
  induction hs as [|x hs IH]; intros h H k; cbn [init_map]; [apply H|].
  apply IH. intro k'. destruct (hm_find x h) eqn:E; [apply H|].
  rewrite get_set. destruct (String.eqb k' x); [reflexivity|apply H].
Qed.

Lemma init_map_has hs : forall h k,
  hm_find k (init_map hs h) <> None <-> In k hs \/ hm_find k h <> None.
Proof.
  induction hs as [|x hs IH]; intros h k; cbn [init_map In]; [tauto|].
  rewrite IH. destruct (hm_find x h) eqn:E.
  - split; [tauto|]. intros [[<-|?]|?]; [right; congruence|tauto|tauto].
  - rewrite hm_find_set. destruct (String.eqb_spec k x) as [->|N].
    + split; [tauto|]. intros _. right. discriminate.
    + split; [tauto|]. intros [[?|?]|?]; [congruence|tauto|tauto].
Qed.

Section S.
Variable hostname : string -> option string.

(** The list a place is put to. *)
Definition group (hs : list string) (m : string) : string :=
  match hostname m with
  | Some h => if in_dec string_dec h hs then h else ""
  | None => ""
  end.

Lemma fill_one_get hs h m k
  (H : forall k, k <> "" -> hm_find k h <> None <-> In k hs) :
  get k (fill_one hostname h m) =
  get k h ++ (if String.eqb (group hs m) k then [m] else []).
Proof.
  unfold fill_one, group.
  set (hn := value_or_empty (hostname m)).
  assert (G : (match hostname m with
               | Some h => if in_dec string_dec h hs then h else ""
               | None => "" end) =
              match hm_find hn h with Some _ => hn | None => "" end).
  { unfold hn, value_or_empty. destruct (hostname m) as [x|].
    - destruct (string_dec x "") as [->|N].
      + destruct (in_dec string_dec "" hs); destruct (hm_find "" h); reflexivity.
      + specialize (H x N). destruct (in_dec string_dec x hs), (hm_find x h);
          try reflexivity; exfalso; [apply H in i; congruence|].
        apply n. apply H. discriminate.
    - destruct (hm_find "" h); reflexivity. }
  rewrite G. destruct (hm_find hn h) as [l|] eqn:E.
  - rewrite get_set. rewrite (String.eqb_sym k hn).
    destruct (String.eqb_spec hn k) as [<-|N]; [|now rewrite app_nil_r].
    unfold get. now rewrite E.
  - rewrite get_set. rewrite (String.eqb_sym k "").
    destruct (String.eqb_spec "" k) as [<-|N]; [|now rewrite app_nil_r].
    reflexivity.
Qed.

Lemma fill_one_has hs h m
  (H : forall k, k <> "" -> hm_find k h <> None <-> In k hs) :
  forall k, k <> "" -> hm_find k (fill_one hostname h m) <> None <-> In k hs.
Proof.
  intros k N. rewrite <- (H k N). unfold fill_one.
  set (hn := value_or_empty (hostname m)).
  destruct (hm_find hn h) as [l|] eqn:E; rewrite hm_find_set.
  - destruct (String.eqb_spec k hn) as [->|N']; [|tauto].
    split; [congruence|discriminate].
  - destruct (String.eqb_spec k "") as [->|N']; [congruence|tauto].
Qed.

Lemma fill_get hs ms : forall h
  (H : forall k, k <> "" -> hm_find k h <> None <-> In k hs) k,
  get k (fold_left (fill_one hostname) ms h) =
  get k h ++ filter (fun m => String.eqb (group hs m) k) ms.
Proof.
  induction ms as [|m ms IH]; intros h H k; cbn [fold_left filter].
  - now rewrite app_nil_r.
  - rewrite IH by (apply fill_one_has; exact H).
    rewrite (fill_one_get hs) by exact H.
    rewrite <- app_assoc. destruct (String.eqb (group hs m) k); reflexivity.
Qed.

(** ** Collecting *)

Fixpoint gathered (f : string -> string) (hs ms : list string) : list string :=
  match hs with
  | [] => filter (fun m => String.eqb (f m) "") ms
  | h :: hs' =>
      filter (fun m => String.eqb (f m) h) ms ++
      gathered f hs' (filter (fun m => negb (String.eqb (f m) h)) ms)
  end.

Lemma filter_filter {A} (p q : A -> bool) l :
  filter p (filter q l) = filter (fun x => q x && p x) l.
Proof.
  induction l as [|x l IH]; cbn [filter]; [reflexivity|].
  destruct (q x); cbn [filter andb]; [destruct (p x); now rewrite IH|exact IH].
Qed.

Lemma filter_none {A} (p : A -> bool) l :
  (forall x, In x l -> p x = false) -> filter p l = [].
Proof.
  induction l as [|x l IH]; intro H; cbn [filter]; [reflexivity|].
  rewrite (H x) by now left. apply IH. intros y Hy. apply H. now right.
Qed.

Lemma filter_every {A} (p : A -> bool) l :
  (forall x, In x l -> p x = true) -> filter p l = l.
Proof.
  induction l as [|x l IH]; intro H; cbn [filter]; [reflexivity|].
  rewrite (H x) by now left. f_equal. apply IH. intros y Hy. apply H. now right.
Qed.

Lemma collect_gathered f hs : forall h ms acc,
  (forall k, get k h = filter (fun m => String.eqb (f m) k) ms) ->
  (let (o, h') := collect hs h acc in
   match hm_find "" h' with Some l => o ++ l | None => o end) =
  acc ++ gathered f hs ms.
Proof.
  induction hs as [|x hs IH]; intros h ms acc H; cbn [collect gathered].
  - specialize (H ""). unfold get in H. destruct (hm_find "" h).
    + now rewrite H.
    + rewrite <- H. now rewrite app_nil_r.
  - destruct (hm_find x h) as [l|] eqn:E.
    + assert (El : l = filter (fun m => String.eqb (f m) x) ms).
      { rewrite <- H. unfold get. now rewrite E. }
      rewrite (IH _ (filter (fun m => negb (String.eqb (f m) x)) ms)).
      * rewrite El, app_assoc. reflexivity.
      * intro k. rewrite get_set, filter_filter.
        destruct (String.eqb_spec k x) as [->|N].
        -- symmetry. apply filter_none. intros y _.
           destruct (String.eqb (f y) x); reflexivity.
        -- rewrite H. apply filter_ext_in. intros y _.
           destruct (String.eqb_spec (f y) x) as [Ey|Ny].
           ++ cbn [negb andb].
              destruct (String.eqb_spec (f y) k); [congruence|reflexivity].
           ++ reflexivity.
    + assert (El : [] = filter (fun m => String.eqb (f m) x) ms).
      { rewrite <- H. unfold get. now rewrite E. }
      rewrite <- El. cbn [app]. rewrite (IH _ ms acc H). f_equal.
      f_equal. symmetry. apply filter_every. intros y Hy.
      destruct (String.eqb_spec (f y) x) as [Ey|]; [|reflexivity].
      exfalso. assert (Hin : In y (filter (fun m => String.eqb (f m) x) ms)).
      { apply filter_In. split; [exact Hy|]. now apply String.eqb_eq. }
      rewrite <- El in Hin. exact Hin.
Qed.

Lemma sort_gathered ms hs :
  SortByHostname hostname ms hs = gathered (group hs) hs ms.
Proof.
  unfold SortByHostname.
  rewrite (collect_gathered (group hs) hs
             (fold_left (fill_one hostname) ms (init_map hs [])) ms []).
  - reflexivity.
  - intro k. rewrite (fill_get hs).
    + rewrite init_map_get; [reflexivity|]. reflexivity.
    + intros k' _. rewrite init_map_has. cbn [hm_find]. split; [|tauto].
      intros [?|?]; [assumption|congruence].
Qed.

(** ** What is gathered *)

Lemma filter_split_perm {A} (p : A -> bool) l :
  Permutation l (filter p l ++ filter (fun x => negb (p x)) l).
Proof.
  induction l as [|x l IH]; cbn [filter]; [reflexivity|].
  destruct (p x); cbn [negb app].
  - now constructor.
  - etransitivity; [apply perm_skip, IH|]. apply Permutation_middle.
Qed.

Lemma gathered_perm f hs : forall ms,
  (forall m, In m ms -> In (f m) hs \/ f m = "") ->
  Permutation ms (gathered f hs ms).
Proof.
  induction hs as [|h hs IH]; intros ms H; cbn [gathered].
  - rewrite filter_every; [reflexivity|]. intros m Hm.
    destruct (H m Hm) as [[]|E]. now apply String.eqb_eq.
  - etransitivity; [apply (filter_split_perm (fun m => String.eqb (f m) h))|].
    apply Permutation_app_head, IH. intros m Hm. apply filter_In in Hm.
    destruct Hm as [Hm N]. destruct (H m Hm) as [[E|?]|?]; [|tauto|tauto].
    exfalso. rewrite <- E, String.eqb_refl in N. discriminate.
Qed.

Lemma gathered_stable f hs : forall ms r,
  (forall m, In m ms -> In (f m) hs \/ f m = "") ->
  filter (fun p => Nat.eqb (pos (f p) hs) r) (gathered f hs ms) =
  filter (fun p => Nat.eqb (pos (f p) hs) r) ms.
Proof.
  induction hs as [|h hs IH]; intros ms r H; cbn [gathered].
  - rewrite filter_filter. apply filter_ext_in. intros m Hm.
    destruct (H m Hm) as [[]|E]. rewrite E. reflexivity.
  - rewrite filter_app.
    assert (H' : forall m, In m (filter (fun m => negb (String.eqb (f m) h)) ms) ->
                   In (f m) hs \/ f m = "").
    { intros m Hm. apply filter_In in Hm.
      destruct Hm as [Hm N]. destruct (H m Hm) as [[E|?]|?]; [|tauto|tauto].
      exfalso. rewrite <- E, String.eqb_refl in N. discriminate. }
    destruct r as [|r].
    + rewrite (filter_none _ (gathered f hs _)).
      * rewrite app_nil_r, filter_filter. apply filter_ext_in. intros m _.
        cbn [pos]. destruct (String.eqb_spec (f m) h), (string_dec (f m) h);
          try congruence; reflexivity.
      * intros m Hm. eapply Permutation_in in Hm;
          [|apply Permutation_sym, gathered_perm; exact H'].
        apply filter_In in Hm. destruct Hm as [_ N]. cbn [pos].
        destruct (string_dec (f m) h) as [E|]; [|reflexivity].
        rewrite E, String.eqb_refl in N. discriminate.
    + rewrite filter_none.
      * cbn [app].
        assert (Hp : forall m, In m (filter (fun m => negb (String.eqb (f m) h)) ms) ->
                  pos (f m) (h :: hs) = S (pos (f m) hs)).
        { intros m Hm. apply filter_In in Hm. destruct Hm as [_ N]. cbn [pos].
          destruct (string_dec (f m) h) as [E|]; [|reflexivity].
          rewrite E, String.eqb_refl in N. discriminate. }
        rewrite (filter_ext_in _ (fun p => Nat.eqb (pos (f p) hs) r)).
        -- rewrite IH by exact H'. rewrite filter_filter.
           apply filter_ext_in. intros m Hm. cbn [pos].
           destruct (String.eqb_spec (f m) h), (string_dec (f m) h);
             try congruence; reflexivity.
        -- intros m Hm. eapply Permutation_in in Hm;
             [|apply Permutation_sym, gathered_perm; exact H'].
           rewrite (Hp m Hm). reflexivity.
      * intros m Hm. apply filter_In in Hm. destruct Hm as [_ E].
        apply String.eqb_eq in E. cbn [pos].
        destruct (string_dec (f m) h); [reflexivity|congruence].
Qed.

Definition ordered_by (g : string -> nat) (l : list string) : Prop :=
  forall a x b y c, l = a ++ x :: b ++ y :: c -> g x <= g y.

Lemma ordered_sorted g l : ordered_by g l <-> ForallOrdPairs (fun x y => g x <= g y) l.
Proof.
  split.
  - induction l as [|x l IH]; intro H; constructor.
    + apply Forall_forall. intros y Hy. apply in_split in Hy.
      destruct Hy as (b & c & ->). apply (H [] x b y c). reflexivity.
    + apply IH. intros a u b v c E. apply (H (x :: a) u b v c). now rewrite E.
  - intro F. induction F as [|x l Hx F IH]; intros a u b v c E.
    + destruct a; discriminate.
    + destruct a as [|x' a]; cbn [app] in E; injection E as <- E.
      * rewrite Forall_forall in Hx. apply Hx. rewrite E.
        apply in_or_app. right. now left.
      * exact (IH a u b v c E).
Qed.

Lemma fop_app {A} (R : A -> A -> Prop) l1 l2 :
  ForallOrdPairs R l1 -> ForallOrdPairs R l2 ->
  (forall x y, In x l1 -> In y l2 -> R x y) -> ForallOrdPairs R (l1 ++ l2).
Proof.
  intros F1 F2 H. induction F1 as [|x l Hx F IH]; cbn [app]; [exact F2|].
  constructor.
  - apply Forall_app. split; [exact Hx|]. apply Forall_forall.
    intros y Hy. apply H; [now left|exact Hy].
  - apply IH. intros u v Hu Hv. apply H; [now right|exact Hv].
Qed.

Lemma fop_all {A} (R : A -> A -> Prop) l :
  (forall x y, In x l -> In y l -> R x y) -> ForallOrdPairs R l.
Proof.
  induction l as [|x l IH]; intro H; constructor.
  - apply Forall_forall. intros y Hy. apply H; [now left|now right].
  - apply IH. intros u v Hu Hv. apply H; now right.
Qed.

Lemma fop_weaken {A} (R R' : A -> A -> Prop) l :
  ForallOrdPairs R l -> (forall x y, In x l -> In y l -> R x y -> R' x y) ->
  ForallOrdPairs R' l.
Proof.
  intro F. induction F as [|x l Hx F IH]; intro H; constructor.
  - rewrite Forall_forall in *. intros y Hy. apply H; [now left|now right|auto].
  - apply IH. intros u v Hu Hv. apply H; now right.
Qed.

Lemma gathered_sorted f hs : forall ms,
  (forall m, In m ms -> In (f m) hs \/ f m = "") ->
  ForallOrdPairs (fun x y => pos (f x) hs <= pos (f y) hs) (gathered f hs ms).
Proof.
  induction hs as [|h hs IH]; intros ms H; cbn [gathered].
  - apply fop_all. intros. cbn [pos]. lia.
  - assert (H' : forall m, In m (filter (fun m => negb (String.eqb (f m) h)) ms) ->
                   In (f m) hs \/ f m = "").
    { intros m Hm. apply filter_In in Hm.
      destruct Hm as [Hm N]. destruct (H m Hm) as [[E|?]|?]; [|tauto|tauto].
      exfalso. rewrite <- E, String.eqb_refl in N. discriminate. }
    apply fop_app.
    + apply fop_all. intros x y Hx Hy. apply filter_In in Hx, Hy.
      destruct Hx as [_ Ex], Hy as [_ Ey]. apply String.eqb_eq in Ex, Ey.
      rewrite Ex, Ey. lia.
    + apply (fop_weaken _ _ _ (IH _ H')). intros x y Hx Hy L.
      eapply Permutation_in in Hx, Hy;
        try (apply Permutation_sym, gathered_perm; exact H').
      apply filter_In in Hx, Hy. destruct Hx as [_ Nx], Hy as [_ Ny].
      cbn [pos]. destruct (string_dec (f x) h), (string_dec (f y) h); try lia.
      rewrite e, String.eqb_refl in Ny. discriminate.
    + intros x y Hx Hy. apply filter_In in Hx. destruct Hx as [_ Ex].
      apply String.eqb_eq in Ex. cbn [pos].
      destruct (string_dec (f x) h); [lia|congruence].
Qed.

Lemma rank_group hs m : rank hostname hs m = pos (group hs m) hs.
Proof.
  unfold rank, group. destruct (hostname m) as [h|]; [|reflexivity].
  destruct (in_dec string_dec h hs); reflexivity.
Qed.

Lemma sort_by_preference ms hs :
  by_preference hostname hs ms (SortByHostname hostname ms hs).
Proof.
  rewrite sort_gathered.
  assert (H : forall m, In m ms -> In (group hs m) hs \/ group hs m = "").
  { intros m _. unfold group. destruct (hostname m) as [h|]; [|tauto].
    destruct (in_dec string_dec h hs); tauto. }
  constructor.
  - apply gathered_perm. exact H.
  - intros a x b y c E. rewrite !rank_group.
    refine (proj2 (ordered_sorted (fun m => pos (group hs m) hs) _) _ a x b y c E).
    apply gathered_sorted. exact H.
  - intro r. rewrite !(filter_ext (fun p => Nat.eqb (rank hostname hs p) r)
                         (fun p => Nat.eqb (pos (group hs p) hs) r))
      by (intro; now rewrite rank_group).
    apply gathered_stable. exact H.
Qed.

Lemma no_preference ms : by_preference hostname [] ms ms.
Proof.
  constructor.
  - reflexivity.
  - intros. unfold rank. destruct (hostname x), (hostname y); cbn [pos];
      repeat match goal with |- context [in_dec ?a ?b ?c] => destruct (in_dec a b c) end; cbn [pos]; lia.
  - reflexivity.
Qed.

(** At most one order is by preference. *)
Lemma by_preference_unique hs ms l1 l2 :
  by_preference hostname hs ms l1 -> by_preference hostname hs ms l2 -> l1 = l2.
Proof.
  intros [P1 O1 K1] [P2 O2 K2].
  assert (K : forall r, filter (fun p => Nat.eqb (rank hostname hs p) r) l1 =
                        filter (fun p => Nat.eqb (rank hostname hs p) r) l2).
  { intro r. now rewrite K1, K2. }
  assert (P : Permutation l1 l2) by (now rewrite <- P1, <- P2).
  clear P1 P2 K1 K2.
  apply ordered_sorted in O1, O2. revert l2 P O2 K.
  induction O1 as [|x l1 Hx O1 IH]; intros l2 P O2 K.
  - apply Permutation_nil in P. now subst.
  - destruct l2 as [|y l2]; [apply Permutation_sym, Permutation_nil in P; discriminate|].
    assert (O2' := O2). inversion O2' as [|? ? Hy O2'']; subst.
    assert (R : rank hostname hs x = rank hostname hs y).
    { apply Nat.le_antisymm.
      - assert (Hin : In y (x :: l1)) by (eapply Permutation_in; [symmetry; exact P|now left]).
        destruct Hin as [->|Hin]; [lia|]. rewrite Forall_forall in Hx. apply Hx, Hin.
      - assert (Hin : In x (y :: l2)) by (eapply Permutation_in; [exact P|now left]).
        destruct Hin as [->|Hin]; [lia|]. rewrite Forall_forall in Hy. apply Hy, Hin. }
    assert (E : x = y).
    { specialize (K (rank hostname hs x)). cbn [filter] in K.
      rewrite Nat.eqb_refl, <- R, Nat.eqb_refl in K. now injection K. }
    subst y. f_equal. apply IH.
    + eapply Permutation_cons_inv. exact P.
    + exact O2''.
    + intro r. specialize (K r). cbn [filter] in K.
      destruct (Nat.eqb (rank hostname hs x) r); [now injection K|exact K].
Qed.
End S.

(** * Configuration *)

Lemma all_strings_map l : all_strings (map JString l) = Some l.
Proof. induction l as [|x l IH]; cbn [map all_strings]; [reflexivity|now rewrite IH]. Qed.

Lemma all_strings_some l r : all_strings l = Some r -> l = map JString r.
Proof.
  revert r. induction l as [|x l IH]; intros r; cbn [all_strings].
  - now intros [= <-].
  - destruct x; try discriminate. destruct (all_strings l) as [r'|]; [|discriminate].
    intros [= <-]. cbn [map]. now rewrite (IH r' eq_refl).
Qed.

Lemma obj_find_in k m v : obj_find k m = Some v -> In (k, v) m.
Proof.
  induction m as [|[k' v'] m IH]; cbn [obj_find]; [discriminate|].
  destruct (String.eqb_spec k k') as [->|N]; [intros [= ->]; now left|].
  intro H. right. auto.
Qed.

Lemma obj_find_nodup k m v : NoDup (map fst m) -> In (k, v) m -> obj_find k m = Some v.
Proof.
  induction m as [|[k' v'] m IH]; cbn [map fst obj_find]; [intros _ []|].
  intros ND [E|Hin]; inversion ND; subst.
  - injection E as -> ->. now rewrite String.eqb_refl.
  - destruct (String.eqb_spec k k') as [->|N]; [|auto].
    exfalso. apply H1. apply in_map_iff. exists (k', v). auto.
Qed.

Lemma local_found M url l : local_for M url l -> GetLocalMirrors M url = l.
Proof.
  intros (m & E & ND & Hin). unfold GetLocalMirrors. rewrite E.
  rewrite (obj_find_nodup _ _ _ ND Hin). now rewrite all_strings_map.
Qed.

Lemma local_none M url :
  (forall m, local_mirrors M = JObject m -> NoDup (map fst m)) ->
  (forall l, ~ local_for M url l) -> GetLocalMirrors M url = [].
Proof.
  intros ND H. unfold GetLocalMirrors.
  destruct (local_mirrors M) as [| | | |m] eqn:E; try reflexivity.
  destruct (obj_find url m) as [[| | |l|]|] eqn:F; try reflexivity.
  destruct (all_strings l) as [r|] eqn:A; [|reflexivity].
  exfalso. apply (H r). exists m. split; [exact E|]. split; [now apply ND|].
  apply obj_find_in in F. apply all_strings_some in A. now rewrite <- A.
Qed.

Lemma preferred_found M hs : preferred M hs -> GetPreferredHostnames M = hs.
Proof.
  intro E. unfold GetPreferredHostnames. rewrite E. cbn [items].
  now rewrite all_strings_map.
Qed.

Lemma all_mirrors_eq hostname M url mirrors hs :
  GetPreferredHostnames M = hs ->
  exists rest, all_mirrors hostname M url mirrors = GetLocalMirrors M url ++ rest /\
    by_preference hostname hs (url :: mirrors) rest.
Proof.
  intro E. unfold all_mirrors. rewrite E. destruct hs as [|h hs].
  - eexists. split; [reflexivity|]. apply no_preference.
  - eexists. split; [reflexivity|]. apply sort_by_preference.
Qed.

Lemma strings_of_fun l : strings_of l
  (flat_map (fun v => match v with JString s => [s] | _ => [] end) l).
Proof.
  induction l as [|v l IH]; cbn [flat_map]; [constructor|].
  destruct v; cbn [app]; constructor; try exact IH; intros s' [=].
Qed.

Lemma strings_of_det l r1 r2 : strings_of l r1 -> strings_of l r2 -> r1 = r2.
Proof.
  intro H. revert r2. induction H; intros r2 H2; inversion H2; subst.
  - reflexivity.
  - f_equal. auto.
  - exfalso. eapply H3. reflexivity.
  - exfalso. eapply H. reflexivity.
  - auto.
Qed.

(** * Trying *)

Lemma try_all_spec {A} (download : string -> option A) l : forall tried,
  match try_all download l tried with
  | inl d => first_delivered download l d
  | inr t => t = tried ++ l /\ forall p, In p l -> download p = None
  end.
Proof.
  induction l as [|m l IH]; intro tried; cbn [try_all].
  - split; [now rewrite app_nil_r|intros ? []].
  - destruct (download m) as [d|] eqn:E.
    + exists [], m, l. split; [reflexivity|]. split; [intros ? []|exact E].
    + specialize (IH (tried ++ [m])).
      destruct (try_all download l (tried ++ [m])) as [d|t].
      * destruct IH as (b & p & a & -> & Hb & Hp). exists (m :: b), p, a.
        split; [reflexivity|]. split; [|exact Hp].
        intros q [<-|Hq]; auto.
      * destruct IH as [-> H]. split; [now rewrite <- app_assoc|].
        intros p [<-|Hp]; auto.
Qed.

Lemma try_all_first {A} (download : string -> option A) l d : forall tried,
  first_delivered download l d -> try_all download l tried = inl d.
Proof.
  induction l as [|m l IH]; intros tried (b & p & a & E & Hb & Hp).
  - destruct b; discriminate.
  - destruct b as [|q b]; cbn [app] in E; injection E as -> ->; cbn [try_all].
    + now rewrite Hp.
    + rewrite (Hb q) by now left. apply IH. exists b, p, a.
      split; [reflexivity|]. split; [|exact Hp]. intros x Hx. apply Hb. now right.
Qed.

Lemma try_all_none {A} (download : string -> option A) l : forall tried,
  (forall p, In p l -> download p = None) -> try_all download l tried = inr (tried ++ l).
Proof.
  induction l as [|m l IH]; intros tried H; cbn [try_all].
  - now rewrite app_nil_r.
  - rewrite (H m) by now left. rewrite IH by (intros p Hp; apply H; now right).
    now rewrite <- app_assoc.
Qed.

Lemma some_delivers {A} (download : string -> option A) l p d :
  In p l -> download p = Some d -> exists d', first_delivered download l d' /\
    exists q, In q l /\ download q = Some d'.
Proof.
  intros Hin Hd. assert (S := try_all_spec download l []).
  destruct (try_all download l []) as [d'|t].
  - exists d'. split; [exact S|]. destruct S as (b & q & a & -> & _ & Hq).
    exists q. split; [|exact Hq]. apply in_or_app. right. now left.
  - destruct S as [_ N]. rewrite (N p Hin) in Hd. discriminate.
Qed.

(** * Waiting *)

Open Scope N_scope.

Lemma u32_small n : n < 2 ^ 32 -> u32 n = n.
Proof. intro H. unfold u32. apply N.mod_small. exact H. Qed.

Lemma doubled_min n : forall b m, b <= m -> m < 2 ^ 30 ->
  doubled n b m = N.min m (b * 2 ^ N.of_nat n).
Proof.
  induction n as [|n IH]; intros b m L U; cbn [doubled].
  - change (N.of_nat 0) with 0. rewrite N.pow_0_r. lia.
  - assert (2 ^ 30 * 4 = 2 ^ 32) as E32 by reflexivity.
    rewrite u32_small by lia.
    assert (P : 2 ^ N.of_nat (S n) = 2 * 2 ^ N.of_nat n).
    { rewrite Nat2N.inj_succ. apply N.pow_succ_r'. }
    assert (1 <= 2 ^ N.of_nat n).
    { assert (2 ^ N.of_nat n <> 0) by (apply N.pow_nonzero; lia). lia. }
    rewrite P. destruct (N.leb_spec m (2 * b)) as [G|G].
    + symmetry. apply N.min_l. nia.
    + rewrite IH by lia. f_equal. lia.
Qed.

Lemma calls_cons_sleep s es : calls (Sleep s :: es) = calls es.
Proof. reflexivity. Qed.

Lemma with_retry_S call jitter fuel k c attempt :
  WithRetry call jitter (S fuel) k c attempt =
  if attempts c <? attempt then Some (false, [])
  else
    match call k with
    | Ok => Some (true, [Call Ok])
    | Fatal => Some (false, [Call Fatal])
    | Again =>
        match WithRetry call jitter fuel (S k) c (u32 (attempt + 1)) with
        | None => None
        | Some (b, es) =>
            Some (b, Call Again ::
                     (if attempt <? attempts c
                      then Sleep (GetSleepTimeSeconds c attempt
                                    (jitter k (Backoff c attempt))) :: es
                      else es))
        end
    end.
Proof. reflexivity. Qed.

Lemma with_retry_spec call jitter c :
  attempts c < 2 ^ 32 - 1 ->
  forall left k, attempts c = N.of_nat (k + left) -> (1 <= left)%nat ->
  exists b es n,
    WithRetry call jitter (S left) k c (N.of_nat (S k)) = Some (b, es) /\
    (n < left)%nat /\
    calls es = map call (seq k (S n)) /\
    (forall i, (k <= i < k + n)%nat -> call i = Again) /\
    (b = true <-> call (k + n)%nat = Ok) /\
    (call (k + n)%nat = Again -> S n = left) /\
    sleeps es = map (fun i => GetSleepTimeSeconds c (N.of_nat (S i))
                       (jitter i (Backoff c (N.of_nat (S i))))) (seq k n).
Proof.
  intro U. induction left as [|left IH]; intros k E L; [lia|].
  rewrite with_retry_S.
  destruct (N.ltb_spec (attempts c) (N.of_nat (S k))) as [G|G]; [lia|].
  destruct (call k) eqn:C.
  - exists true, [Call Ok], 0%nat. rewrite Nat.add_0_r. cbn [seq map].
    rewrite C. repeat split; try reflexivity; try lia; discriminate.
  - exists false, [Call Fatal], 0%nat. rewrite Nat.add_0_r. cbn [seq map].
    rewrite C. repeat split; try reflexivity; try lia; discriminate.
  - assert (U1 : u32 (N.of_nat (S k) + 1) = N.of_nat (S (S k))).
    { rewrite u32_small; lia. }
    rewrite U1. destruct left as [|left].
    + exists false, [Call Again], 0%nat. rewrite Nat.add_0_r. cbn [seq map].
      rewrite C, with_retry_S.
      destruct (N.ltb_spec (attempts c) (N.of_nat (S (S k)))) as [G'|G']; [|lia].
      destruct (N.ltb_spec (N.of_nat (S k)) (attempts c)) as [G2|G2]; [lia|].
      repeat split; try reflexivity; try lia; discriminate.
    + destruct (IH (S k)) as (b & es & n & W & Hn & Hc & Ha & Hb & Hl & Hs);
        [lia|lia|].
      rewrite W.
      destruct (N.ltb_spec (N.of_nat (S k)) (attempts c)) as [G2|G2]; [|lia].
      exists b. eexists. exists (S n). split; [reflexivity|].
      replace (k + S n)%nat with (S k + n)%nat by lia.
      split; [lia|]. split.
      { cbn [calls flat_map app]. fold (calls es). rewrite Hc.
        change (seq k (S (S n))) with (k :: seq (S k) (S n)).
        cbn [map]. rewrite C. reflexivity. }
      split.
      { intros i Hi. destruct (Nat.eq_dec i k) as [->|]; [exact C|].
        apply Ha. lia. }
      split; [exact Hb|]. split; [intro A; specialize (Hl A); lia|].
      cbn [sleeps flat_map app]. fold (sleeps es). rewrite Hs. reflexivity.
Qed.

Lemma never_done jitter c : attempts c = 2 ^ 32 - 1 ->
  forall fuel k attempt, attempt < 2 ^ 32 ->
  WithRetry (fun _ => Again) jitter fuel k c attempt = None.
Proof.
  intros E. induction fuel as [|fuel IH]; intros k attempt H; cbn [WithRetry];
    [reflexivity|].
  rewrite E. destruct (N.ltb_spec (2 ^ 32 - 1) attempt) as [G|G]; [lia|].
  rewrite IH; [reflexivity|]. unfold u32. apply N.mod_lt. discriminate.
Qed.
