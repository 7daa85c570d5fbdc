(** Executions in which threads share a mapping of hashes: what each thread may rely on. *)
From Coq Require Import String Ascii List Bool NArith Arith Lia.
From Verif Require Import Common.Strs Hex.Model Describe.Model Executor.Wire Rehash.Directory.
From Verif Require Import GitTree.Model Rehash.Model Rehash.Spec Rehash.Nodes Expr.OpsProofs.
Import ListNotations.
Local Open Scope string_scope.
Local Open Scope list_scope.

Section Frame.
Variable H : string -> string.
Variable H2 : string -> string.
Variable utf8 : string -> bool.
Variable ord : list (string * entry) -> list (string * entry).
Variable native : bool.
Variable source : objects.
Variable faulty : bool.
Notation holds := (holds H H2 native source).

(** The nodes, their hash in the source storage, their digest in the target storage and the objects there. *)
Variable U : fnode -> Prop.
Variable sh : fnode -> string.
Variable td : fnode -> digest.
Variable tc : fnode -> objects.
(** Whether types are considered; whether nothing fails. *)
Variable typed : Prop.
Variable strict : Prop.
Hypothesis same : forall u v, U u -> U v -> sh u = sh v -> td u = td v /\ tc u = tc v /\ (typed -> ftype u = ftype v).
Hypothesis strict_ok : strict -> faulty = false.

Definition right (E : objects) (h : string) (i : info) : Prop :=
  forall u, U u -> sh u = h -> fst i = td u /\ incl (tc u) E /\ (typed -> snd i = ftype u).

Lemma right_node E u i : U u -> fst i = td u -> incl (tc u) E -> (typed -> snd i = ftype u) -> right E (sh u) i.
Proof.
  intros Uu D C T v Uv E1. destruct (same v u Uv Uu E1) as (Ed & Ec & Et). rewrite Ed, Ec. split; [exact D|]. split; [exact C|].
  intros t. rewrite (T t). symmetry. exact (Et t).
Qed.
Lemma right_mono E E' h i : incl E E' -> right E h i -> right E' h i.
Proof. intros L R u Uu Eu. destruct (R u Uu Eu) as (D & C & T). split; [exact D|]. split; [|exact T]. intros x I. now apply L, C. Qed.

(** A program keeps to the rules, given that the objects of [E] have been stored. *)
Section Ok.
Variable A : Type.
Variable Q : objects -> A -> Prop.
Fixpoint ok (p : prog A) (E : objects) : Prop :=
  match p with
  | Ret a => Q E a
  | Lookup h k => forall E', incl E E' ->
      (faulty = true -> ok (k LError) E') /\ ok (k LNone) E' /\ (forall i, right E' h i -> ok (k (LFound i)) E')
  | Remember h i k => right E h i /\ forall E', incl E E' -> (faulty = true -> ok (k false) E') /\ ok (k true) E'
  | Read t h k => (strict -> exists data, holds t h data) /\ forall E', incl E E' ->
      (faulty = true -> ok (k None) E') /\ (forall data, holds t h data -> ok (k (Some data)) E')
  | Store t d k => forall E', incl E E' -> (faulty = true -> ok (k false) E') /\ (In (t, d) E' -> ok (k true) E')
  end.
End Ok.
Arguments ok {A} Q p E.

Lemma ok_mono {A} (Q : objects -> A -> Prop) : (forall E E' a, incl E E' -> Q E a -> Q E' a) ->
  forall p E E', incl E E' -> ok Q p E -> ok Q p E'.
Proof.
  intros M p. destruct p; cbn [ok]; intros E E' L O.
  - eapply M; eauto.
  - intros E2 L2. apply O. eapply incl_tran; eauto.
  - destruct O as [R O]. split; [eapply right_mono; eauto|]. intros E2 L2. apply O. eapply incl_tran; eauto.
  - destruct O as [R O]. split; [exact R|]. intros E2 L2. apply O. eapply incl_tran; eauto.
  - intros E2 L2. apply O. eapply incl_tran; eauto.
Qed.

Lemma ok_grow {A} (Q Q' : objects -> A -> Prop) : forall p E, ok Q p E -> (forall E' a, incl E E' -> Q E' a -> Q' E' a) -> ok Q' p E.
Proof.
  induction p as [o|h k IH|h i k IH|t h k IH|t d k IH]; intros E O F; cbn [ok] in *.
  - apply F; [apply incl_refl|exact O].
  - intros E' L. destruct (O E' L) as (O1 & O2 & O3).
    assert (F' : forall E2 a, incl E' E2 -> Q E2 a -> Q' E2 a) by (intros; apply F; auto; eapply incl_tran; eauto).
    split; [|split]; intros; apply IH; auto.
  - destruct O as [Rt O]. split; [exact Rt|]. intros E' L. destruct (O E' L) as (O1 & O2).
    assert (F' : forall E2 a, incl E' E2 -> Q E2 a -> Q' E2 a) by (intros; apply F; auto; eapply incl_tran; eauto).
    split; intros; apply IH; auto.
  - destruct O as [Rt O]. split; [exact Rt|]. intros E' L. destruct (O E' L) as (O1 & O2).
    assert (F' : forall E2 a, incl E' E2 -> Q E2 a -> Q' E2 a) by (intros; apply F; auto; eapply incl_tran; eauto).
    split; intros; apply IH; auto.
  - intros E' L. destruct (O E' L) as (O1 & O2).
    assert (F' : forall E2 a, incl E' E2 -> Q E2 a -> Q' E2 a) by (intros; apply F; auto; eapply incl_tran; eauto).
    split; intros; apply IH; auto.
Qed.

(** Results: anything but a value only if something may fail. *)
Definition fin {A} (P : objects -> A -> Prop) (E : objects) (o : outcome A) : Prop :=
  match o with Value a => P E a | _ => ~ strict end.
Lemma faulty_lax : faulty = true -> ~ strict.
Proof. intros F S. apply strict_ok in S. congruence. Qed.

Lemma ok_bind {A B} (P : objects -> A -> Prop) (R : objects -> B -> Prop) f : forall p E,
  ok (fin P) p E -> (forall E' a, incl E E' -> P E' a -> ok (fin R) (f a) E') -> ok (fin R) (bind p f) E.
Proof.
  induction p as [o|h k IH|h i k IH|t h k IH|t d k IH]; intros E O F; cbn [bind ok] in *.
  - destruct o; cbn [fin ok] in *; auto. apply F; [apply incl_refl|exact O].
  - intros E' L. destruct (O E' L) as (O1 & O2 & O3).
    assert (F' : forall E2 a, incl E' E2 -> P E2 a -> ok (fin R) (f a) E2) by (intros; apply F; auto; eapply incl_tran; eauto).
    split; [|split]; intros; apply IH; auto.
  - destruct O as [Rt O]. split; [exact Rt|]. intros E' L. destruct (O E' L) as (O1 & O2).
    assert (F' : forall E2 a, incl E' E2 -> P E2 a -> ok (fin R) (f a) E2) by (intros; apply F; auto; eapply incl_tran; eauto).
    split; intros; apply IH; auto.
  - destruct O as [Rt O]. split; [exact Rt|]. intros E' L. destruct (O E' L) as (O1 & O2).
    assert (F' : forall E2 a, incl E' E2 -> P E2 a -> ok (fin R) (f a) E2) by (intros; apply F; auto; eapply incl_tran; eauto).
    split; intros; apply IH; auto.
  - intros E' L. destruct (O E' L) as (O1 & O2).
    assert (F' : forall E2 a, incl E' E2 -> P E2 a -> ok (fin R) (f a) E2) by (intros; apply F; auto; eapply incl_tran; eauto).
    split; intros; apply IH; auto.
Qed.

(** ** The list of requests *)
Variable fuel : nat.
Definition conv : string -> prog (outcome digest) := if native then to_git_tree H H2 utf8 fuel else to_directory H H2 ord fuel.
Definition converted (u : fnode) (E : objects) (d : digest) : Prop := d = td u /\ incl (tc u) E.
Hypothesis conv_ok : forall u E, U u -> is_dir u = true -> (strict -> depth u <= fuel) -> ok (fin (converted u)) (conv (sh u)) E.
Hypothesis file_ok : forall u data, U u -> is_dir u = false -> holds (ftype u) (sh u) data ->
  target_digest H H2 native data = td u /\ tc u = [(false, data)].
Hypothesis readable : strict -> forall u, U u -> exists data, holds (ftype u) (sh u) data.

Definition names (i : info) (u : fnode) : Prop := d_hash (fst i) = sh u /\ snd i = ftype u.
Definition requested (i : info) : Prop := exists u, U u /\ names i u /\ (strict -> depth u <= fuel).
Definition answer (E : objects) (i r : info) : Prop :=
  forall u, U u -> names i u -> fst r = td u /\ incl (tc u) E /\ (typed -> snd r = snd i).
Definition answers (infos : list info) (E : objects) (rs : list info) : Prop := Forall2 (answer E) infos rs.

Lemma answer_mono E E' i r : incl E E' -> answer E i r -> answer E' i r.
Proof. intros L A u Uu N. destruct (A u Uu N) as (D & C & T). split; [exact D|]. split; [|exact T]. intros x I. now apply L, C. Qed.
Lemma answers_mono infos E E' rs : incl E E' -> answers infos E rs -> answers infos E' rs.
Proof. intros L A. induction A; constructor; auto. eapply answer_mono; eauto. Qed.

Lemma right_answer E i u r : U u -> names i u -> right E (sh u) r -> answer E i r.
Proof.
  intros Uu [N T] R v Uv [Nv Tv]. destruct (R v Uv) as (D & C & Y); [congruence|]. split; [exact D|]. split; [exact C|].
  intros t. rewrite (Y t). now rewrite Tv.
Qed.

Lemma dir_type u : is_dir u = IsTreeObject (ftype u).
Proof. now destruct u as [[]| |]. Qed.

Lemma rehash_ok infos : Forall requested infos -> forall E, ok (fin (answers infos)) (Rehash H H2 utf8 ord native fuel infos) E.
Proof.
  induction 1 as [|[d t] infos (u & Uu & N & Dp) _ IH]; intros E.
  { cbn. constructor. }
  assert (Et : t = ftype u) by apply N. subst t.
  assert (Next : forall E i, right E (sh u) i ->
    ok (fin (answers ((d, ftype u) :: infos))) (bind (Rehash H H2 utf8 ord native fuel infos) (fun l => Ret (Value (i :: l)))) E).
  { intros E1 i R. apply ok_bind with (P := answers infos); [apply IH|]. intros E2 l L A. cbn. constructor; [|exact A].
    apply (right_answer _ _ u); auto. eapply right_mono; eauto. }
  destruct N as [Nh _]. cbn [fst snd] in *. cbn [Rehash ok]. intros E1 L1. rewrite Nh. split; [|split].
  - intros F. cbn. now apply faulty_lax.
  - rewrite <- dir_type. destruct (is_dir u) eqn:Du.
    + replace (if native then to_git_tree H H2 utf8 fuel (sh u) else to_directory H H2 ord fuel (sh u)) with (conv (sh u)) by (unfold conv; now destruct native).
      apply ok_bind with (P := converted u); [now apply conv_ok|]. intros E2 d' L2 [-> C]. apply Next.
      apply right_node; auto. intros _. cbn. destruct u as [| |]; try discriminate. reflexivity.
    + cbn [ok]. split; [intros S; now apply readable|]. intros E2 L2. split; [intros F; cbn; now apply faulty_lax|].
      intros data Hd. destruct (file_ok u data Uu Du Hd) as [T C]. cbn [or_fail ok]. intros E3 L3. split; [intros F; cbn; now apply faulty_lax|].
      intros I3. cbn [if_ok ok].
      assert (R : forall E4, incl E3 E4 -> right E4 (sh u) (target_digest H H2 native data, ftype u)).
      { intros E4 L4. apply right_node; auto. rewrite C. intros x [<-|[]]. now apply L4. }
      split; [apply R, incl_refl|]. intros E4 L4. split; [intros F; cbn; now apply faulty_lax|]. cbn [if_ok]. apply Next. now apply R.
  - intros i R. now apply Next.
Qed.

(** ** The system *)
Notation access := (access H H2 native source faulty).
Notation step := (step H H2 utf8 ord native source faulty).
Notation reachable := (reachable H H2 utf8 ord native source faulty).

Definition maps_right (E : objects) (ms : list mapping) : Prop := forall m h i, In m ms -> In (h, i) m -> right E h i.
Definition threads_ok (s : state) : Prop := forall infos p, In (infos, p) (st_threads s) -> ok (fin (answers infos)) p (st_ever s).
Definition requests (s : state) : Prop := forall infos p, In (infos, p) (st_threads s) -> Forall requested infos.

Lemma maps_mono E E' ms : incl E E' -> maps_right E ms -> maps_right E' ms.
Proof. intros L M m h i I J. eapply right_mono; eauto. Qed.
Lemma fin_mono infos E E' o : incl E E' -> fin (answers infos) E o -> fin (answers infos) E' o.
Proof. intros L. destruct o; cbn; auto. now apply answers_mono. Qed.

Lemma find_mapping_in ms h g i : find_mapping ms h = Some (g, i) -> exists m, In m ms /\ In (h, i) m.
Proof.
  revert g. induction ms as [|m ms IH]; intros g; cbn [find_mapping]; [discriminate|].
  destruct (alookup h m) as [j|] eqn:A.
  - intros E. injection E as <- <-. exists m. split; [now left|]. now apply alookup_In.
  - destruct (find_mapping ms h) as [[g' j]|] eqn:F; [|discriminate]. intros E. injection E as <- <-.
    destruct (IH _ eq_refl) as (m' & I & J). exists m'. split; [now right|exact J].
Qed.
Lemma add_young_right E ms h i : maps_right E ms -> right E h i -> maps_right E (add_young (h, i) ms).
Proof.
  intros M R. destruct ms as [|m ms]; [exact M|]. cbn. intros m' h' i' [<-|I].
  - intros [E1|J]; [injection E1 as <- <-; exact R|]. eapply M; [now left|exact J].
  - eapply M. right. exact I.
Qed.
Lemma removelast_incl {A} (l : list A) : incl (removelast l) l.
Proof. induction l as [|a [|b l] IH]; intros x; cbn; [auto|intros []|]. intros [->|I]; [now left|]. right. now apply IH. Qed.
Lemma rotate_right E ms : maps_right E ms -> maps_right E (rotate ms).
Proof. intros M m h i [<-|I]; [intros []|]. eapply M. now apply removelast_incl. Qed.

Lemma access_ok {A} (Q : objects -> A -> Prop) p s p' s' : access p s p' s' -> maps_right (st_ever s) (st_maps s) -> ok Q p (st_ever s) ->
  ok Q p' (st_ever s') /\ maps_right (st_ever s') (st_maps s') /\ incl (st_ever s) (st_ever s').
Proof.
  assert (R := incl_refl (st_ever s)).
  destruct 1; intros M O; cbn [ok st_ever st_maps] in *; try destruct O as [O1 O]; pose proof O as O0; try (specialize (O _ R)).
  - split; [apply O; assumption|]. auto.
  - split; [apply O|]. auto.
  - assert (Rt : right (st_ever s) h i).
    { destruct (find_mapping_in _ _ _ _ H0) as (m & I & J). eapply M; eauto. }
    split; [now apply O|]. split; [|exact R]. unfold link_young. destruct g; cbn [fst snd]; [exact M|]. now apply add_young_right.
  - split; [apply O|]. split; [now apply add_young_right|exact R].
  - split; [now apply O|]. auto.
  - split; [now apply O|]. auto.
  - split; [now apply O|]. auto.
  - assert (L : incl (st_ever s) ((tree, data) :: st_ever s)) by (intros x I; now right).
    split; [|split; [eapply maps_mono; eauto|exact L]]. apply (O0 _ L). now left.
  - split; [now apply O|]. auto.
Qed.

Lemma in_update {A} (ts1 ts2 : list A) x y z : In z (ts1 ++ y :: ts2) -> z = y \/ In z (ts1 ++ x :: ts2).
Proof. rewrite !in_app_iff. cbn. intuition. Qed.

Theorem system_ok gc n s : reachable gc fuel n s -> requests s -> threads_ok s /\ maps_right (st_ever s) (st_maps s).
Proof.
  induction 1 as [|s s' _ IH St]; intros Rq.
  { split; [intros ? ? []|]. intros m h i I. apply repeat_spec in I. subst m. intros []. }
  destruct St; cbn [st_threads st_ever st_maps] in *.
  - destruct IH as [T M].
    { intros is p I. apply (Rq is p). apply in_or_app. now left. }
    split; [|exact M]. intros is p I. apply in_app_or in I as [I|[I|[]]]; [now apply T|]. injection I as <- <-.
    apply rehash_ok. eapply Rq. apply in_or_app. right. now left.
  - destruct IH as [T M].
    { intros is q I. rewrite H0 in I. apply (in_update ts1 ts2 (infos, p')) in I as [I|I].
      - injection I as -> ->. eapply Rq. apply in_or_app. right. now left.
      - eapply Rq, I. }
    assert (Tp : ok (fin (answers infos)) p (st_ever s)) by (apply T; rewrite H0; apply in_or_app; right; now left).
    destruct (access_ok _ _ _ _ _ H1 M Tp) as (O & M' & L). split; [|exact M'].
    intros is q I. apply (in_update ts1 ts2 (infos, p)) in I as [I|I].
    + injection I as -> ->. exact O.
    + eapply ok_mono; [apply fin_mono|exact L|]. apply T. now rewrite H0.
  - assert (L : incl (st_ever s) (o :: st_ever s)) by (intros x I; now right).
    destruct (IH Rq) as [T M]. split; [|eapply maps_mono; eauto]. intros is q I. eapply ok_mono; [apply fin_mono|exact L|]. now apply T.
  - destruct (IH Rq) as [T M]. split; [exact T|]. now apply rotate_right.
Qed.

(** A thread that is not finished can go on, if nothing fails. *)
Lemma access_progress {A} (Q : objects -> A -> Prop) p s : strict -> ok Q p (st_ever s) -> (exists a, p = Ret a) \/ exists p' s', access p s p' s'.
Proof.
  intros S O. destruct p as [a|h k|h i k|t h k|t d k]; [left; eauto| | | |]; right.
  - destruct (find_mapping (st_maps s) h) as [[g i]|] eqn:F; eexists _, _; [eapply a_lookup_found|apply a_lookup_none]; eauto.
  - eexists _, _. apply a_remember.
  - destruct O as [O _]. destruct (O S) as [data D]. eexists _, _. apply a_read. exact D.
  - eexists _, _. apply a_store.
Qed.
End Frame.
Arguments ok H H2 native source faulty U sh td tc typed strict {A} Q p E.

(** ** Without garbage collection, what was stored is there *)
Section Stored.
Variable H : string -> string.
Variable H2 : string -> string.
Variable utf8 : string -> bool.
Variable ord : list (string * entry) -> list (string * entry).
Variable native : bool.
Variable source : objects.
Variable faulty : bool.
Lemma add_young_in {V} (v x : V) gs : gs <> [] -> x = v \/ In x (concat gs) -> In x (concat (add_young v gs)).
Proof. destruct gs as [|g r]; [contradiction|]. cbn. intros _ [->|I]; [now left|now right]. Qed.
Lemma add_young_nonempty {V} (v : V) gs : gs <> [] -> add_young v gs <> [].
Proof. now destruct gs. Qed.
Theorem kept fuel n s : reachable H H2 utf8 ord native source faulty false fuel n s ->
  incl (st_ever s) (concat (st_objs s)) /\ st_objs s <> [].
Proof.
  induction 1 as [|s s' _ [L N] St]; [split; [intros x []|discriminate]|].
  destruct St; cbn [st_ever st_objs] in *; auto.
  - destruct H1; cbn [st_ever st_objs] in *; auto. split; [|now apply add_young_nonempty].
    intros x [<-|I]; apply add_young_in; auto.
  - split; [|now apply add_young_nonempty]. intros x [<-|I]; apply add_young_in; auto.
  - discriminate.
Qed.
End Stored.
