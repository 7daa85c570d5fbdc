(** Buckets, classes, and the result of the minimiser. *)
From Coq Require Import List Arith Bool Lia Permutation Sorted.
From Verif.Repo Require Import Minimizer Bisim BisimProofs MinimizerProofs.
Import ListNotations.

Lemma list_eqb_eq a b : list_eqb a b = true <-> a = b.
Proof. unfold list_eqb. destruct (list_eq_dec Nat.eq_dec a b); intuition congruence. Qed.

Lemma is_bucket_eq c syms b :
  is_bucket c syms b = true <-> b_content b = c /\ b_symbols b = syms.
Proof. unfold is_bucket. now rewrite andb_true_iff, Nat.eqb_eq, list_eqb_eq. Qed.

Definition bkey (b : bucket) := (b_content b, b_symbols b).

(** The buckets hold exactly the states [L]. *)
Record holds (bs : list bucket) (L : automaton) : Prop := {
  h_states : forall bk n t, In bk bs ->
    (In (n, t) (b_states bk) <-> In (n, t, b_content bk) L /\ map fst t = b_symbols bk);
  h_found : forall n t c, In (n, t, c) L ->
    exists bk, In bk bs /\ b_content bk = c /\ b_symbols bk = map fst t;
  h_keys : NoDup (map bkey bs);
  h_names : forall bk, In bk bs -> NoDup (map fst (b_states bk))
}.

Lemma put_state_keys c syms n t bs :
  map bkey (put_state c syms n t bs) =
  if existsb (is_bucket c syms) bs then map bkey bs else map bkey bs ++ [(c, syms)].
Proof.
  induction bs as [|b r IH]; cbn; auto.
  destruct (is_bucket c syms b) eqn:E; cbn; auto.
  rewrite IH. destruct (existsb _ r); auto.
Qed.

Lemma put_state_In c syms n t bs bk :
  NoDup (map bkey bs) ->
  In bk (put_state c syms n t bs) ->
  (In bk bs /\ is_bucket c syms bk = false) \/
  (exists b, In b bs /\ is_bucket c syms b = true /\
             bk = mkBucket (b_content b) (b_symbols b) (b_states b ++ [(n, t)])) \/
  (existsb (is_bucket c syms) bs = false /\ bk = mkBucket c syms [(n, t)]).
Proof.
  induction bs as [|b r IH]; cbn; intros ND.
  - intros [<-|[]]. right. right. auto.
  - inversion ND; subst. destruct (is_bucket c syms b) eqn:E; cbn.
    + intros [<-|H].
      * right. left. exists b. auto.
      * left. split; auto. destruct (is_bucket c syms bk) eqn:E'; auto. exfalso. apply H1.
        apply is_bucket_eq in E as [E1 E2]. apply is_bucket_eq in E' as [E3 E4].
        apply (in_map bkey) in H. unfold bkey in *. now rewrite E1, E2, <- E3, <- E4.
    + intros [<-|H]; auto.
      destruct (IH H2 H) as [[]|[(b' & ? & ? & ?)|[]]]; auto.
      right. left. exists b'. auto.
Qed.

Lemma put_state_old c syms n t bs b :
  In b bs -> exists bk, In bk (put_state c syms n t bs) /\ bkey bk = bkey b.
Proof.
  intros H. assert (G : In (bkey b) (map bkey (put_state c syms n t bs))).
  { rewrite put_state_keys. destruct (existsb _ bs); [|apply in_or_app; left]; now apply in_map. }
  apply in_map_iff in G as (bk & E & G). eauto.
Qed.

Lemma put_state_new c syms n t bs :
  exists bk, In bk (put_state c syms n t bs) /\ bkey bk = (c, syms).
Proof.
  assert (G : In (c, syms) (map bkey (put_state c syms n t bs))).
  { rewrite put_state_keys. destruct (existsb (is_bucket c syms) bs) eqn:E.
    - apply existsb_exists in E as (b & Hb & E). apply is_bucket_eq in E as [<- <-].
      now apply (in_map bkey) in Hb.
    - apply in_or_app. right. now left. }
  apply in_map_iff in G as (bk & E & G). eauto.
Qed.

Lemma put_state_holds bs L n t c :
  holds bs L -> ~ In n (names L) ->
  holds (put_state c (map fst t) n t bs) (L ++ [(n, t, c)]).
Proof.
  intros H Hn. constructor.
  - intros bk n' t' Hb. apply put_state_In in Hb as [[Hb E]|[(b & Hb & E & ->)|[E ->]]];
      [| | |apply (h_keys _ _ H)].
    + rewrite (h_states _ _ H bk n' t' Hb), in_app_iff. cbn. split.
      * intros [? ?]. auto.
      * intros [[?|[[= -> -> E1]|[]]] E2]; auto. exfalso.
        rewrite (proj2 (is_bucket_eq _ _ _)) in E; [discriminate|auto].
    + apply is_bucket_eq in E as [E1 E2]. cbn. rewrite !in_app_iff, (h_states _ _ H b n' t' Hb). cbn.
      rewrite E1, E2. split.
      * intros [[? ?]|[[= -> ->]|[]]]; auto.
      * intros [[?|[[= -> ->]|[]]] ?]; auto.
    + cbn. rewrite in_app_iff. cbn. split.
      * intros [[= -> ->]|[]]. auto.
      * intros [[HL|[[= -> ->]|[]]] Es]; auto. exfalso.
        destruct (h_found _ _ H _ _ _ HL) as (b & Hb & <- & Eb).
        apply Bool.not_true_iff_false in E. apply E. apply existsb_exists. exists b.
        split; auto. apply is_bucket_eq. split; auto. now rewrite Eb.
  - intros n' t' c' HL. apply in_app_iff in HL as [HL|[[= <- <- <-]|[]]].
    + destruct (h_found _ _ H _ _ _ HL) as (b & Hb & <- & <-).
      destruct (put_state_old c (map fst t) n t bs b Hb) as (bk & Hbk & [= E1 E2]). eauto.
    + destruct (put_state_new c (map fst t) n t bs) as (bk & Hbk & [= E1 E2]). eauto.
  - rewrite put_state_keys. destruct (existsb (is_bucket c (map fst t)) bs) eqn:E; [apply (h_keys _ _ H)|].
    apply NoDup_Add with (a := (c, map fst t)) (l := map bkey bs).
    + rewrite <- (app_nil_r (map bkey bs)) at 1. apply Add_app.
    + split; [apply (h_keys _ _ H)|]. intros Hi. apply in_map_iff in Hi as (b & [= E1 E2] & Hb).
      apply Bool.not_true_iff_false in E. apply E. apply existsb_exists. exists b.
      split; auto. now apply is_bucket_eq.
  - intros bk Hb. apply put_state_In in Hb as [[Hb E]|[(b & Hb & E & ->)|[E ->]]];
      [| | |apply (h_keys _ _ H)].
    + now apply (h_names _ _ H).
    + cbn. rewrite map_app. cbn. apply NoDup_Add with (a := n) (l := map fst (b_states b)).
      * rewrite <- (app_nil_r (map fst (b_states b))) at 1. apply Add_app.
      * split; [now apply (h_names _ _ H)|]. intros Hi.
        apply in_map_iff in Hi as ([n' t'] & E' & Hi). cbn in E'. subst n'.
        apply (h_states _ _ H b n t' Hb) in Hi as [Hi _].
        apply Hn. unfold names. apply (in_map (fun s => fst (fst s))) in Hi. exact Hi.
    + cbn. constructor; [intros []|constructor].
Qed.

Definition by_state_of (L : automaton) : list (nat * (nat * list nat)) :=
  map (fun s => (fst (fst s), (snd s, map fst (snd (fst s))))) L.

Lemma by_state_names L : map fst (by_state_of L) = names L.
Proof. unfold by_state_of, names. rewrite map_map. reflexivity. Qed.

Lemma add_states_spec : forall sts m L,
  m_by_state m = by_state_of L -> holds (m_buckets m) L -> NoDup (names (L ++ sts)) ->
  exists m', add_states m sts = Some m' /\ m_by_state m' = by_state_of (L ++ sts) /\
             holds (m_buckets m') (L ++ sts).
Proof.
  induction sts as [|[[n t] c] r IH]; intros m L E H ND; cbn [add_states].
  - rewrite app_nil_r. eauto.
  - assert (Hn : ~ In n (names L)).
    { unfold names in *. rewrite map_app in ND. cbn in ND. apply NoDup_remove_2 in ND.
      intros Hi. apply ND, in_or_app. auto. }
    unfold add_state. rewrite (proj2 (assoc_None _ _)).
    2:{ rewrite E, by_state_names. exact Hn. }
    destruct (IH (mkMin (put_state c (map fst t) n t (m_buckets m))
                        (m_by_state m ++ [(n, (c, map fst t))])) (L ++ [(n, t, c)])) as (m' & E1 & E2 & E3).
    + cbn. rewrite E. unfold by_state_of. now rewrite map_app.
    + cbn. now apply put_state_holds.
    + now rewrite <- app_assoc.
    + exists m'. rewrite <- app_assoc in E2, E3. auto.
Qed.

Lemma holds_empty : holds [] [].
Proof.
  constructor; cbn; try tauto. constructor.
Qed.

(** Enumeration order does not matter for [holds]. *)
Lemma holds_perm bs bs' L : Permutation bs bs' -> holds bs L -> holds bs' L.
Proof.
  intros P H. constructor.
  - intros bk n t Hb. apply (h_states _ _ H). eapply Permutation_in; [|exact Hb]. now symmetry.
  - intros n t c HL. destruct (h_found _ _ H _ _ _ HL) as (bk & Hb & E).
    exists bk. split; auto. eapply Permutation_in; eauto.
  - eapply Permutation_NoDup; [|apply (h_keys _ _ H)]. now apply Permutation_map.
  - intros bk Hb. apply (h_names _ _ H). eapply Permutation_in; [|exact Hb]. now symmetry.
Qed.

Lemma Forall2_in_l {X} (P : X -> X -> Prop) l l' x :
  Forall2 P l l' -> In x l -> exists y, In y l' /\ P x y.
Proof.
  induction 1; cbn; [tauto|]. intros [->|Hx]; eauto. destruct (IHForall2 Hx) as (z & ? & ?). eauto.
Qed.

Lemma Forall2_in_r {X} (P : X -> X -> Prop) l l' y :
  Forall2 P l l' -> In y l' -> exists x, In x l /\ P x y.
Proof.
  induction 1; cbn; [tauto|]. intros [->|Hx]; eauto. destruct (IHForall2 Hx) as (z & ? & ?). eauto.
Qed.

Lemma holds_same bs bs' L : Forall2 same_bucket bs bs' -> holds bs' L -> holds bs L.
Proof.
  intros F H. constructor.
  - intros bk n t Hb. destruct (Forall2_in_l _ _ _ _ F Hb) as (bk' & Hb' & E1 & E2 & P).
    rewrite E1, E2, <- (h_states _ _ H bk' n t Hb'). split; intros G.
    + eapply Permutation_in; eauto.
    + eapply Permutation_in; [symmetry|]; eauto.
  - intros n t c HL. destruct (h_found _ _ H _ _ _ HL) as (bk' & Hb' & E1 & E2).
    destruct (Forall2_in_r _ _ _ _ F Hb') as (bk & Hb & E3 & E4 & _).
    exists bk. split; auto. split; congruence.
  - replace (map bkey bs) with (map bkey bs'); [apply (h_keys _ _ H)|].
    clear H. induction F as [|b b' r r' (E1 & E2 & _) F IH]; cbn; auto.
    f_equal; auto. unfold bkey. congruence.
  - intros bk Hb. destruct (Forall2_in_l _ _ _ _ F Hb) as (bk' & Hb' & E1 & E2 & P).
    eapply Permutation_NoDup; [|apply (h_names _ _ H bk' Hb')].
    symmetry. now apply Permutation_map.
Qed.

Lemma find_bucket_spec bs bk :
  NoDup (map bkey bs) -> In bk bs -> find_bucket (b_content bk) (b_symbols bk) bs = Some bk.
Proof.
  induction bs as [|b r IH]; cbn; [tauto|]. intros ND Hb. inversion ND; subst.
  destruct (is_bucket (b_content bk) (b_symbols bk) b) eqn:E.
  - destruct Hb as [->|Hb]; auto. exfalso. apply H1. apply is_bucket_eq in E as [E1 E2].
    apply (in_map bkey) in Hb. unfold bkey in *. now rewrite E1, E2.
  - destruct Hb as [->|Hb]; auto. exfalso.
    rewrite (proj2 (is_bucket_eq _ _ _)) in E; [discriminate|auto].
Qed.

Section End_.
Variable A : automaton.
Hypothesis WF : well_formed A.
Variable bs : list bucket.
Hypothesis HB : holds bs A.
Variable ps : list pair_key.
Hypothesis HP : Permutation ps (create_pairs bs).

Lemma ps_spec k : In k ps <-> fst k < snd k /\ candidate A (fst k) (snd k).
Proof.
  assert (G : In k ps <-> In k (create_pairs bs)).
  { split; apply Permutation_in; auto. now symmetry. }
  rewrite G. unfold create_pairs. rewrite in_flat_map. split.
  - intros (bk & Hb & Hk). apply bucket_pairs_In in Hk as (a & b & -> & N & Ha & Hb');
      [|apply (h_names _ _ HB); auto].
    cbn [app] in Hb'.
    split; [now apply mkpair_lt|].
    apply in_map_iff in Ha as ([a' ta] & <- & Ha). apply in_map_iff in Hb' as ([b' tb] & <- & Hb').
    apply (h_states _ _ HB) in Ha as [Ha Ea]; auto. apply (h_states _ _ HB) in Hb' as [Hb' Eb]; auto.
    cbn [fst snd]. destruct (mkpair_cases a' b') as [->| ->]; cbn [fst snd].
    + exists ta, tb, (b_content bk). repeat split; auto. congruence.
    + exists tb, ta, (b_content bk). repeat split; auto. congruence.
  - destruct k as [a b]. cbn. intros (L & ta & tb & c & Ha & Hb & E).
    destruct (h_found _ _ HB _ _ _ Ha) as (bk & Hk & E1 & E2). exists bk. split; auto.
    apply bucket_pairs_In; [apply (h_names _ _ HB); auto|].
    exists a, b. rewrite mkpair_id by auto. repeat split; auto; [lia| |].
    + apply in_map_iff. exists (a, ta). split; auto. apply (h_states _ _ HB); auto. rewrite E1. auto.
    + cbn. apply in_map_iff. exists (b, tb). split; auto. apply (h_states _ _ HB); auto.
      rewrite E1, E2. auto.
Qed.

Lemma by_spec n t c : In (n, t, c) A -> assoc n (by_state_of A) = Some (c, map fst t).
Proof.
  intros H. apply assoc_unique.
  - rewrite by_state_names. apply WF.
  - unfold by_state_of. apply in_map_iff. exists (n, t, c). auto.
Qed.

Lemma bs_spec n t c : In (n, t, c) A ->
  exists bk, find_bucket c (map fst t) bs = Some bk /\ b_symbols bk = map fst t /\
             forall n' t', In (n', t', c) A -> map fst t' = map fst t ->
                           assoc n' (b_states bk) = Some t'.
Proof.
  intros H. destruct (h_found _ _ HB _ _ _ H) as (bk & Hb & <- & <-). exists bk.
  split; [apply find_bucket_spec; auto; apply (h_keys _ _ HB)|]. split; auto.
  intros n' t' Hn E. apply assoc_unique; [apply (h_names _ _ HB); auto|].
  apply (h_states _ _ HB); auto.
Qed.

(** ** Classes *)

Variable M : list pair_key.
Hypothesis HM : forall a b, candidate A a b -> a <> b ->
  (mem_key (mkpair a b) M = false <-> bisimilar A a b).

Lemma split_spec last l :
  (forall s, In s l -> candidate A last s /\ last <> s) ->
  exists eqs neqs, split_equal ps M last l = Some (eqs, neqs) /\
    (forall s, In s eqs <-> In s l /\ bisimilar A last s) /\
    (forall s, In s neqs <-> In s l /\ ~ bisimilar A last s) /\
    (NoDup l -> NoDup neqs) /\ length neqs <= length l.
Proof.
  induction l as [|s r IH]; cbn; intros H.
  - exists [], []. cbn. repeat split; auto; tauto.
  - destruct IH as (eqs & neqs & E & H1 & H2 & H3 & H4); [intros; apply H; auto|].
    rewrite E. destruct (H s (or_introl eq_refl)) as [C N].
    assert (Hp : In (mkpair last s) ps) by (apply (in_ps A ps ps_spec); auto).
    rewrite (proj2 (mem_key_In _ _) Hp). cbn [negb].
    destruct (mem_key (mkpair last s) M) eqn:Em.
    + assert (Nb : ~ bisimilar A last s).
      { intros Hb. apply (HM last s C N) in Hb. congruence. }
      exists eqs, (s :: neqs). split; auto. split; [|split; [|split]].
      * intros x. rewrite H1. split; [tauto|]. intros [[->|]]; tauto.
      * intros x. cbn. rewrite H2. split; [|tauto]. intros [->|]; tauto.
      * intros ND. inversion ND; subst. constructor; auto. intros Hi. apply H2 in Hi. tauto.
      * cbn. lia.
    + apply (HM last s C N) in Em.
      exists (s :: eqs), neqs. split; auto. split; [|split; [|split]].
      * intros x. cbn. rewrite H1. split; [|tauto]. intros [->|]; tauto.
      * intros x. rewrite H2. split; [tauto|]. intros [[->|]]; tauto.
      * intros ND. inversion ND; subst. auto.
      * lia.
Qed.

Lemma assoc_map_const (l : list nat) (v x : nat) :
  assoc x (map (fun s => (s, v)) l) = if in_dec Nat.eq_dec x l then Some v else None.
Proof.
  destruct (in_dec Nat.eq_dec x l) as [H|H].
  - assert (G : In x (map fst (map (fun s => (s, v)) l))).
    { rewrite map_map. cbn. now rewrite map_id. }
    destruct (assoc_Some_dom _ _ G) as (w & E). rewrite E.
    apply assoc_In, in_map_iff in E as (s & [= -> ->] & _). reflexivity.
  - apply assoc_None. rewrite map_map. cbn. now rewrite map_id.
Qed.

(** Every state of the list gets a bisimilar representative out of the list,
    the same one for bisimilar states. *)
Lemma classes_spec f : forall l,
  length l <= f -> NoDup l ->
  (forall a b, In a l -> In b l -> a <> b -> candidate A a b) ->
  exists out, classes f ps M l = Some out /\
    (forall x, In x (map fst out) -> In x l) /\
    (forall x, In x l -> In (rep out x) l /\ bisimilar A x (rep out x)) /\
    (forall x y, In x l -> In y l -> bisimilar A x y -> rep out x = rep out y).
Proof.
  induction f as [|f IH]; intros [|last rest] L ND C; cbn [classes]; cbn in L; try lia;
    try (exists []; split; [reflexivity|]; cbn; tauto).
  inversion ND as [|? ? Nl ND']; subst.
  destruct (split_spec last rest) as (eqs & neqs & E & H1 & H2 & H3 & H4).
  { intros s Hs. assert (last <> s) by (intros ->; contradiction).
    split; auto. apply C; auto; [now left|now right]. }
  rewrite E. destruct (IH neqs) as (out & E' & K1 & K2 & K3); [lia|auto| |].
  { intros a b Ha Hb. apply H2 in Ha as [Ha _]. apply H2 in Hb as [Hb _]. apply C; now right. }
  rewrite E'. eexists. split; [reflexivity|].
  set (o := map (fun s => (s, last)) eqs ++ out).
  assert (Rl : rep o last = last).
  { unfold rep, o. rewrite assoc_app, assoc_map_const.
    destruct (in_dec Nat.eq_dec last eqs) as [Hi|_]; auto.
    rewrite (proj2 (assoc_None last out)); auto. intros Hi. apply K1, H2 in Hi. tauto. }
  assert (Re : forall x, In x eqs -> rep o x = last).
  { intros x Hx. unfold rep, o. rewrite assoc_app, assoc_map_const.
    destruct (in_dec Nat.eq_dec x eqs); tauto. }
  assert (Rn : forall x, In x neqs -> rep o x = rep out x).
  { intros x Hx. unfold rep, o. rewrite assoc_app, assoc_map_const.
    destruct (in_dec Nat.eq_dec x eqs) as [Hi|]; auto.
    apply H1 in Hi. apply H2 in Hx. tauto. }
  assert (Cs : forall x, In x rest -> In x eqs \/ In x neqs).
  { intros x Hx. assert (N : last <> x) by (intros ->; contradiction).
    assert (Cx : candidate A last x) by (apply C; auto; [now left|now right]).
    destruct (mem_key (mkpair last x) M) eqn:Em.
    - right. apply H2. split; auto. intros Hb. apply (HM last x Cx N) in Hb. congruence.
    - left. apply H1. split; auto. now apply (HM last x Cx N). }
  assert (Bl : forall x, In x (last :: rest) -> In x neqs \/ (rep o x = last /\ bisimilar A last x)).
  { intros x [<-|Hx]; [right; split; auto using bisimilar_refl|].
    destruct (Cs x Hx) as [He|Hn]; auto. right. split; auto. now apply H1. }
  split; [|split].
  - intros x Hx. unfold o in Hx. rewrite map_app, map_map in Hx. cbn in Hx. rewrite map_id in Hx.
    apply in_app_iff in Hx as [Hx|Hx]; right; [now apply H1|]. now apply K1, H2 in Hx.
  - intros x Hx. destruct (Bl x Hx) as [Hn|[-> Hb]].
    + rewrite (Rn x Hn). destruct (K2 x Hn) as [G1 G2]. split; auto.
      right. now apply H2 in G1.
    + split; [now left|]. now apply bisimilar_sym.
  - intros x y Hx Hy Hb.
    destruct (Bl x Hx) as [Hn|[-> Hbx]]; destruct (Bl y Hy) as [Hm|[Ey Hby]]; try rewrite Ey.
    + rewrite (Rn x Hn), (Rn y Hm). now apply K3.
    + exfalso. apply H2 in Hn as [_ Hn]. apply Hn.
      apply (bisimilar_trans A WF) with y; auto. now apply bisimilar_sym.
    + exfalso. apply H2 in Hm as [_ Hm]. apply Hm.
      apply (bisimilar_trans A WF) with x; auto.
    + reflexivity.
Qed.

Lemma bucket_classes bk : In bk bs ->
  exists out, classes (length (rev (map fst (b_states bk)))) ps M (rev (map fst (b_states bk))) = Some out /\
    (forall x, In x (map fst out) -> In x (map fst (b_states bk))) /\
    (forall x, In x (map fst (b_states bk)) ->
       In (rep out x) (map fst (b_states bk)) /\ bisimilar A x (rep out x)) /\
    (forall x y, In x (map fst (b_states bk)) -> In y (map fst (b_states bk)) ->
       bisimilar A x y -> rep out x = rep out y).
Proof.
  intros Hb. set (l := map fst (b_states bk)).
  assert (Hl : forall x, In x l <-> In x (rev l)) by (intros; apply in_rev).
  destruct (classes_spec (length (rev l)) (rev l)) as (out & E & K1 & K2 & K3); auto.
  - apply NoDup_rev. apply (h_names _ _ HB); auto.
  - intros a b Ha Hb' N. apply Hl in Ha. apply Hl in Hb'. unfold l in *.
    apply in_map_iff in Ha as ([a' ta] & <- & Ha). apply in_map_iff in Hb' as ([b' tb] & <- & Hb').
    apply (h_states _ _ HB) in Ha as [Ha Ea]; auto. apply (h_states _ _ HB) in Hb' as [Hb' Eb]; auto.
    exists ta, tb, (b_content bk). repeat split; auto. congruence.
  - exists out. split; auto. split; [|split].
    + intros x Hx. apply Hl. auto.
    + intros x Hx. apply Hl in Hx. destruct (K2 x Hx). split; auto. now apply Hl.
    + intros x y Hx Hy. apply Hl in Hx. apply Hl in Hy. auto.
Qed.

(** A name occurs in one bucket only. *)
Lemma one_bucket bk bk' x : In bk bs -> In bk' bs ->
  In x (map fst (b_states bk)) -> In x (map fst (b_states bk')) -> bkey bk = bkey bk'.
Proof.
  intros Hb Hb' Hx Hx'.
  apply in_map_iff in Hx as ([a ta] & <- & Ha). apply in_map_iff in Hx' as ([a' tb] & E & Ha').
  cbn in E. subst a'.
  apply (h_states _ _ HB) in Ha as [Ha Ea]; auto. apply (h_states _ _ HB) in Ha' as [Ha' Eb]; auto.
  destruct (state_unique A _ _ _ _ _ WF Ha Ha') as [-> Ec]. unfold bkey. congruence.
Qed.

Lemma all_classes_spec : forall r, incl r bs -> NoDup (map bkey r) ->
  exists out, all_classes ps M r = Some out /\
    (forall x, In x (map fst out) -> exists bk, In bk r /\ In x (map fst (b_states bk))) /\
    (forall bk x, In bk r -> In x (map fst (b_states bk)) ->
       In (rep out x) (map fst (b_states bk)) /\ bisimilar A x (rep out x)) /\
    (forall bk x y, In bk r -> In x (map fst (b_states bk)) -> In y (map fst (b_states bk)) ->
       bisimilar A x y -> rep out x = rep out y).
Proof.
  induction r as [|b r IH]; intros I ND; cbn [all_classes].
  - exists []. cbn. repeat split; auto; try tauto.
  - inversion ND as [|? ? Nb ND']; subst.
    destruct (bucket_classes b) as (o & -> & K1 & K2 & K3); [apply I; now left|].
    destruct IH as (os & -> & J1 & J2 & J3); auto. { intros x Hx. apply I. now right. }
    eexists. split; [reflexivity|].
    assert (Rb : forall x, In x (map fst (b_states b)) -> rep (o ++ os) x = rep o x).
    { intros x Hx. unfold rep. rewrite assoc_app. destruct (assoc x o) eqn:Eo; auto.
      rewrite (proj2 (assoc_None x os)); auto. intros Hi. apply J1 in Hi as (bk & Hk & Hi).
      apply Nb. rewrite (one_bucket b bk x); auto; [now apply in_map|apply I; now left|apply I; now right]. }
    assert (Rr : forall bk x, In bk r -> In x (map fst (b_states bk)) -> rep (o ++ os) x = rep os x).
    { intros bk x Hk Hx. unfold rep. rewrite assoc_app. destruct (assoc x o) eqn:Eo; auto.
      exfalso. apply assoc_dom, K1 in Eo. apply Nb.
      rewrite (one_bucket b bk x); auto; [now apply in_map|apply I; now left|apply I; now right]. }
    split; [|split].
    + intros x Hx. rewrite map_app in Hx. apply in_app_iff in Hx as [Hx|Hx].
      * exists b. split; [now left|auto].
      * destruct (J1 x Hx) as (bk & ? & ?). exists bk. split; [now right|auto].
    + intros bk x [<-|Hk] Hx; [rewrite Rb by auto; auto|rewrite (Rr bk) by auto; auto].
    + intros bk x y [<-|Hk] Hx Hy Hb;
        [rewrite !Rb by auto; auto|rewrite !(Rr bk) by auto; eauto].
Qed.

End End_.

Theorem compute_spec A bs ps :
  well_formed A -> holds bs A -> Permutation ps (create_pairs bs) ->
  exists out, compute_bisimulation bs (by_state_of A) ps = Some out /\
    (forall x, ~ In x (names A) -> rep out x = x) /\
    (forall x, In x (names A) -> In (rep out x) (names A)) /\
    (forall x, bisimilar A x (rep out x)) /\
    (forall x y, rep out x = rep out y <-> bisimilar A x y).
Proof.
  intros WF HB HP. unfold compute_bisimulation.
  destruct (marks_correct A WF bs (by_state_of A) ps) as (T & -> & HM).
  { intros k. apply (ps_spec A bs HB ps HP). }
  { apply by_spec, WF. }
  { apply bs_spec, HB. }
  destruct (all_classes_spec A WF bs HB ps HP (t_marked T) HM bs) as (out & E & K1 & K2 & K3).
  { intros x; auto. } { apply (h_keys _ _ HB). }
  exists out. split; auto.
  assert (Nm : forall x, In x (names A) <-> exists bk, In bk bs /\ In x (map fst (b_states bk))).
  { intros x. unfold names. rewrite in_map_iff. split.
    - intros ([[n t] c] & <- & H). destruct (h_found _ _ HB _ _ _ H) as (bk & Hb & E1 & E2).
      exists bk. split; auto. apply in_map_iff. exists (n, t). split; auto.
      apply (h_states _ _ HB); auto. rewrite E1. auto.
    - intros (bk & Hb & Hx). apply in_map_iff in Hx as ([n t] & <- & Hx).
      apply (h_states _ _ HB) in Hx as [Hx _]; auto. exists (n, t, b_content bk). auto. }
  assert (R0 : forall x, ~ In x (names A) -> rep out x = x).
  { intros x Hx. unfold rep. rewrite (proj2 (assoc_None x out)); auto.
    intros Hi. apply Hx, Nm, K1, Hi. }
  assert (R1 : forall x, bisimilar A x (rep out x)).
  { intros x. destruct (in_dec Nat.eq_dec x (names A)) as [Hx|Hx].
    - apply Nm in Hx as (bk & Hb & Hx). now apply (K2 bk).
    - rewrite R0 by auto. apply bisimilar_refl. }
  split; auto. split; [|split; auto].
  { intros x Hx. apply Nm in Hx as (bk & Hb & Hx). apply Nm. exists bk. split; auto. now apply (K2 bk). }
  intros x y. split.
  - intros Exy. apply (bisimilar_trans A WF) with (rep out x); auto.
    rewrite Exy. apply bisimilar_sym. auto.
  - intros Hb. destruct (Nat.eq_dec x y) as [->|N]; auto.
    destruct (bisimilar_candidate A WF x y Hb N) as (ta & tb & c & Hx & Hy & Et).
    destruct (h_found _ _ HB _ _ _ Hx) as (bk & Hk & E1 & E2).
    apply (K3 bk); auto; apply in_map_iff.
    + exists (x, ta). split; auto. apply (h_states _ _ HB); auto. rewrite E1; auto.
    + exists (y, tb). split; auto. apply (h_states _ _ HB); auto. rewrite E1, E2; auto.
Qed.

Theorem minimized_spec A o :
  well_formed A -> minimized A o ->
  exists out, o = Some out /\
    (forall x, ~ In x (names A) -> rep out x = x) /\
    (forall x, In x (names A) -> In (rep out x) (names A)) /\
    (forall x, bisimilar A x (rep out x)) /\
    (forall x y, rep out x = rep out y <-> bisimilar A x y).
Proof.
  intros WF (m & bs & ps & E & (bs' & P & F) & HP & ->).
  destruct (add_states_spec A empty_minimizer []) as (m' & E' & Eb & HB); auto using holds_empty.
  { apply WF. }
  rewrite E in E'. injection E' as <-. rewrite Eb. cbn [app] in *.
  apply compute_spec; auto. eapply holds_same; eauto. eapply holds_perm; [|exact HB]. now symmetry.
Qed.

(** The minimiser accepts every automaton with distinct names. *)
Theorem minimized_exists A : well_formed A -> exists o, minimized A o.
Proof.
  intros WF. destruct (add_states_spec A empty_minimizer []) as (m & E & Eb & HB); auto using holds_empty.
  { apply WF. }
  eexists. exists m, (m_buckets m), (create_pairs (m_buckets m)). split; [exact E|].
  split; [|split; [reflexivity|reflexivity]].
  exists (m_buckets m). split; [reflexivity|].
  assert (G : forall l, Forall2 same_bucket l l).
  { induction l; constructor; auto. split; [|split]; auto. }
  apply G.
Qed.
