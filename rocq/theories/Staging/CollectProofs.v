(** Reading directories into the storage. *)
From Coq Require Import String Ascii List Bool NArith Arith Lia Sorted Permutation.
From Verif Require Import Common.Strs Hex.Model Hex.Proofs Describe.Model Executor.Wire Rehash.Directory Rehash.DirectoryProofs.
From Verif Require Import GitTree.Model GitTree.Spec GitTree.Proofs GitTree.Ids TreeOps.Spec TreeOps.Proofs Path.Model.
From Verif Require Import Rehash.Model Rehash.Spec Rehash.Nodes Rehash.ToCompatible Rehash.ToNative Staging.Collect.
Import ListNotations.
Local Open Scope string_scope.
Local Open Scope list_scope.

(** All links, at any depth, do not point upwards. *)
Definition level_links (n : fnode) : Prop := forall t, In (FLink t) (parts n) -> PathIsNonUpwards t = true.
Lemma level_dir es : level_links (FDir es) <-> forall x c, In (x, c) es -> level_links c.
Proof.
  split.
  - intros L x c I t J. apply L. apply parts_dir. eauto.
  - intros L t J. apply parts_dir in J as [J|(x & c & I & J)]; [discriminate|]. exact (L x c I t J).
Qed.
Lemma git_objects_dir H es o : In o (git_objects H (FDir es)) <-> o = (true, git_data H (FDir es)) \/ exists x c, In (x, c) es /\ In o (git_objects H c).
Proof.
  unfold git_objects. rewrite in_map_iff. split.
  - intros (m & <- & J). apply parts_dir in J as [->|(x & c & I & J)]; [now left|right]. exists x, c. split; auto. apply in_map_iff. eauto.
  - intros [->|(x & c & I & J)]; [exists (FDir es); split; auto; apply parts_dir; now left|]. apply in_map_iff in J as (m & <- & J). exists m. split; auto. apply parts_dir. eauto.
Qed.
Lemma comp_objects_dir H2 es o : In o (comp_objects H2 (FDir es)) <-> o = (true, comp_data H2 (FDir es)) \/ exists x c, In (x, c) es /\ In o (comp_objects H2 c).
Proof.
  unfold comp_objects. rewrite in_map_iff. split.
  - intros (m & <- & J). apply parts_dir in J as [->|(x & c & I & J)]; [now left|right]. exists x, c. split; auto. apply in_map_iff. eauto.
  - intros [->|(x & c & I & J)]; [exists (FDir es); split; auto; apply parts_dir; now left|]. apply in_map_iff in J as (m & <- & J). exists m. split; auto. apply parts_dir. eauto.
Qed.

Section Git.
Variable H : string -> string.
Variable accepts : bool -> string -> bool.
Variable order : list (string * fnode) -> list (string * fnode).
Variable check : bool.
Hypothesis HL : forall s, String.length (H s) = 20.
Hypothesis OP : forall l, Permutation (order l) l.
Notation run := (git_from_local H accepts order check).
Notation td := (ToNative.td H).

(** What a run did for a node. *)
Record ran (n : fnode) (E : stored) (r : option digest) (E' : stored) : Prop := {
  ran_keeps : incl E E';
  ran_only : incl E' (git_objects H n ++ E);
  ran_right : forall d, r = Some d -> d = td n /\ incl (git_objects H n) E' /\ (check = true -> level_links n);
  ran_ok : (forall k s, In (k, s) (git_objects H n) -> accepts k s = true) -> (check = true -> level_links n) -> r <> None
}.
Lemma store_ran c data E : git_objects H c = [(is_dir c, data)] -> git_data H c = data -> (check = true -> level_links c) ->
  ran c E (fst (store accepts (nat_digest H) (is_dir c) data E)) (snd (store accepts (nat_digest H) (is_dir c) data E)).
Proof.
  intros O D L. unfold store. destruct (accepts (is_dir c) data) eqn:A; cbn [fst snd]; constructor.
  - intros x I. now right.
  - rewrite O. intros x [<-|I]; [now left|now right].
  - intros d Ed. injection Ed as <-. unfold ToNative.td. rewrite D. split; auto. split; auto. rewrite O. intros x [<-|[]]. now left.
  - discriminate.
  - apply incl_refl.
  - intros x I. apply in_or_app. now right.
  - discriminate.
  - intros K. rewrite O in K. rewrite (K (is_dir c) data) in A; [discriminate|now left].
Qed.
Lemma entries_ran fuel (es : list (string * fnode)) : (forall n E, named n -> is_dir n = true -> (depth n <= fuel)%nat -> ran n E (fst (run fuel n E)) (snd (run fuel n E))) ->
  (forall x c, In (x, c) es -> named c /\ (depth c <= fuel)%nat) ->
  forall ts E, let r := git_entries H accepts check (run fuel) es ts E in
  incl E (snd r) /\
  (forall o, In o (snd r) -> In o E \/ exists x c, In (x, c) es /\ In o (git_objects H c)) /\
  (forall ts', fst r = Some ts' -> added H ts es (snd r) ts' /\ (check = true -> forall x c, In (x, c) es -> level_links c)) /\
  ((forall x c k s, In (x, c) es -> In (k, s) (git_objects H c) -> accepts k s = true) -> (check = true -> forall x c, In (x, c) es -> level_links c) -> fst r <> None).
Proof.
  intros R. induction es as [|[x c] es IH]; intros K ts E; cbn [git_entries].
  { cbn [fst snd]. split; [apply incl_refl|]. split; [auto|]. split; [|discriminate]. intros ts' Et. injection Et as <-.
    split; [split; [reflexivity|intros ? ? []]|intros _ ? ? []]. }
  destruct (K x c (or_introl eq_refl)) as [Nc Dc].
  set (one := match c with FDir _ => run fuel c E | FLink t => _ | FFile _ data => _ end).
  assert (O : ran c E (fst one) (snd one)).
  { subst one. destruct c as [b data|t|cs].
    - apply (store_ran (FFile b data)); auto. intros _ t [J|[]]. discriminate.
    - destruct (check && negb (PathIsNonUpwards t))%bool eqn:U.
      + apply andb_true_iff in U as [Uc Ut]. cbn [fst snd]. constructor; [apply incl_refl|intros o I; apply in_or_app; now right|discriminate|].
        intros _ L _. rewrite (L Uc t) in Ut; [discriminate|now left].
      + apply (store_ran (FLink t)); auto. intros Uc s [J|[]]. injection J as <-. rewrite Uc in U. cbn in U. now apply negb_false_iff.
    - now apply R. }
  destruct one as [[d|] E1]; cbn [fst snd] in O; destruct O as [O1 O2 O3 O4].
  2:{ cbn [fst snd]. split; auto. split; [|split; [discriminate|]].
      - intros o I. apply O2, in_app_or in I as [I|I]; auto. right. exists x, c. split; auto. now left.
      - intros A L. exfalso. apply O4; auto; [intros k s I; eapply A; [left; reflexivity|exact I]|]. intros Ec. apply (L Ec x). now left. }
  destruct (O3 d eq_refl) as (Ed & Ei & El). subst d. rewrite (td_raw H c).
  destruct (IH (fun y e I => K y e (or_intror I)) (emplace_back (nid H (git_node H c)) (x, ftype c) ts) E1) as (I1 & I2 & I3 & I4).
  destruct (git_entries H accepts check (run fuel) es _ E1) as [r2 E2]. cbn [fst snd] in *. split; [eapply incl_tran; eauto|]. split; [|split].
  - intros o I. apply I2 in I as [I|(y & e & J & I)]; [|right; exists y, e; split; auto; now right].
    apply O2, in_app_or in I as [I|I]; auto. right. exists x, c. split; auto. now left.
  - intros ts' Et. destruct (I3 _ Et) as [A L]. split.
    + apply added_cons; [exact A|]. eapply incl_tran; eauto.
    + intros Ec y e [J|J]; [injection J as <- <-; auto|eauto].
  - intros A L. apply I4; [intros y e k s J; apply (A y e k s); now right|]. intros Ec y e J. apply (L Ec y). now right.
Qed.
Theorem git_ran fuel : forall n E, named n -> is_dir n = true -> (depth n <= fuel)%nat -> ran n E (fst (run fuel n E)) (snd (run fuel n E)).
Proof.
  induction fuel as [|fuel IH]; intros n E N D L; destruct n as [| |es]; try discriminate; [cbn in L; lia|].
  cbn [git_from_local]. pose proof (proj1 (named_dir es) N) as [Srt Nc].
  destruct (entries_ran fuel (order es) IH) with (ts := @nil (string * list entry)) (E := E) as (I1 & I2 & I3 & I4).
  { intros x c I. apply (Permutation_in _ (OP es)) in I. split; [now apply (Nc x c)|eapply depth_dir; eauto]. }
  set (r := git_entries H accepts check (run fuel) (order es) [] E) in *. destruct r as [[ts|] E1]; cbn [fst snd] in *.
  2:{ constructor; auto; [|discriminate|].
      - intros o I. apply in_or_app. apply I2 in I as [I|(x & c & J & I)]; auto. left. apply git_objects_dir. right. exists x, c. split; auto. eapply Permutation_in; eauto.
      - intros A Lv. exfalso. apply I4; auto.
        + intros x c k s J I. apply A. apply git_objects_dir. right. exists x, c. split; auto. eapply Permutation_in; eauto.
        + intros Ec x c J. apply (proj1 (level_dir es) (Lv Ec) x). eapply Permutation_in; eauto. }
  destruct (I3 ts eq_refl) as [[P B] Lv]. cbn [items] in P. change (items []) with (@nil item) in P. rewrite app_nil_r in P.
  assert (P' : Permutation (items ts) (map (git_item H) es)) by (eapply perm_trans; [exact P|apply Permutation_map, OP]).
  cbn [CreateShallowTree snd]. rewrite (same_content H HL es ts N P').
  assert (Lv' : check = true -> level_links (FDir es)).
  { intros Ec. apply level_dir. intros x c J. apply (Lv Ec x). eapply Permutation_in; [apply Permutation_sym, OP|exact J]. }
  unfold store. destruct (accepts true (git_data H (FDir es))) eqn:A; cbn [fst snd]; constructor.
  - intros o I. right. auto.
  - intros o [<-|I]; apply in_or_app; [left; apply git_objects_dir; now left|]. apply I2 in I as [I|(x & c & J & I)]; auto.
    left. apply git_objects_dir. right. exists x, c. split; auto. eapply Permutation_in; eauto.
  - intros d Ed. injection Ed as <-. split; [reflexivity|]. split; auto. intros o I. apply git_objects_dir in I as [->|(x & c & J & I)]; [now left|right].
    eapply B; [|exact I]. eapply Permutation_in; [apply Permutation_sym, OP|exact J].
  - discriminate.
  - auto.
  - intros o I. apply in_or_app. apply I2 in I as [I|(x & c & J & I)]; auto. left. apply git_objects_dir. right. exists x, c. split; auto. eapply Permutation_in; eauto.
  - discriminate.
  - intros K. rewrite K in A; [discriminate|]. apply git_objects_dir. now left.
Qed.
End Git.

Section Comp.
Variable H2 : string -> string.
Variable accepts : bool -> string -> bool.
Variable order : list (string * fnode) -> list (string * fnode).
Hypothesis OP : forall l, Permutation (order l) l.
Notation run := (CreateDirectoryDigestFromLocalTree H2 accepts order).

Definition small (n : fnode) : Prop := forall m, In m (parts n) -> is_dir m = true -> (strlen (comp_data H2 m) < 2 ^ 31)%N.
Lemma small_dir es : small (FDir es) <-> (strlen (comp_data H2 (FDir es)) < 2 ^ 31)%N /\ forall x c, In (x, c) es -> small c.
Proof.
  split.
  - intros S. split; [apply S; [apply parts_dir; now left|reflexivity]|]. intros x c I m J. apply S. apply parts_dir. eauto.
  - intros [S C] m J. apply parts_dir in J as [->|(x & c & I & J)]; [auto|]. exact (C x c I m J).
Qed.

Record cran (n : fnode) (E : stored) (r : option digest) (E' : stored) : Prop := {
  cran_keeps : incl E E';
  cran_only : incl E' (comp_objects H2 n ++ E);
  cran_right : forall d, r = Some d -> d = comp_digest H2 (comp_data H2 n) /\ incl (comp_objects H2 n) E' /\ small n;
  cran_ok : (forall k s, In (k, s) (comp_objects H2 n) -> accepts k s = true) -> small n -> r <> None
}.
Lemma store_cran c data E : comp_objects H2 c = [(is_dir c, data)] -> comp_data H2 c = data -> is_dir c = false -> small c ->
  cran c E (fst (store accepts (fun _ => comp_digest H2) (is_dir c) data E)) (snd (store accepts (fun _ => comp_digest H2) (is_dir c) data E)).
Proof.
  intros O D _ S. unfold store. destruct (accepts (is_dir c) data) eqn:A; cbn [fst snd]; constructor.
  - intros x I. now right.
  - rewrite O. intros x [<-|I]; [now left|now right].
  - intros d Ed. injection Ed as <-. rewrite D. split; auto. split; auto. rewrite O. intros x [<-|[]]. now left.
  - discriminate.
  - apply incl_refl.
  - intros x I. apply in_or_app. now right.
  - discriminate.
  - intros K. rewrite O in K. rewrite (K (is_dir c) data) in A; [discriminate|now left].
Qed.
Lemma leaf_small c : is_dir c = false -> small c.
Proof. intros D m J Dm. destruct c; try discriminate; destruct J as [<-|[]]; discriminate. Qed.

Lemma centries_ran fuel (es : list (string * fnode)) : (forall n E, named n -> is_dir n = true -> (depth n <= fuel)%nat -> cran n E (fst (run fuel n E)) (snd (run fuel n E))) ->
  (forall x c, In (x, c) es -> named c /\ (depth c <= fuel)%nat) ->
  forall f s l E, let r := directory_entries H2 accepts (run fuel) es (f, s, l) E in
  incl E (snd r) /\
  (forall o, In o (snd r) -> In o E \/ exists x c, In (x, c) es /\ In o (comp_objects H2 c)) /\
  (forall a, fst r = Some a -> a = (f ++ file_nodes H2 es, s ++ dir_nodes H2 es, l ++ link_nodes es) /\
     forall x c, In (x, c) es -> incl (comp_objects H2 c) (snd r) /\ small c) /\
  ((forall x c k s, In (x, c) es -> In (k, s) (comp_objects H2 c) -> accepts k s = true) -> (forall x c, In (x, c) es -> small c) -> fst r <> None).
Proof.
  intros R. induction es as [|[x c] es IH]; intros K f s l E; cbn [directory_entries].
  { cbn [fst snd]. split; [apply incl_refl|]. split; [auto|]. split; [|discriminate]. intros a Ea. injection Ea as <-.
    cbn. rewrite !app_nil_r. split; [reflexivity|]. intros ? ? []. }
  destruct (K x c (or_introl eq_refl)) as [Nc Dc].
  set (one := match c with FDir _ => run fuel c E | FLink t => store accepts (fun _ => comp_digest H2) false t E | FFile _ data => store accepts (fun _ => comp_digest H2) false data E end).
  assert (O : cran c E (fst one) (snd one)).
  { subst one. destruct c as [b data|t|cs].
    - apply (store_cran (FFile b data)); auto. now apply leaf_small.
    - apply (store_cran (FLink t)); auto. now apply leaf_small.
    - now apply R. }
  assert (Q : let a d := match c with FDir _ => add_dir (f, s, l) x d | FLink t => add_link (f, s, l) x t | FFile b _ => add_file (f, s, l) x b d end in
    let r := match one with (None, E') => (None, E') | (Some d, E') => directory_entries H2 accepts (run fuel) es (a d) E' end in
    incl E (snd r) /\
    (forall o, In o (snd r) -> In o E \/ exists y e, In (y, e) ((x, c) :: es) /\ In o (comp_objects H2 e)) /\
    (forall a, fst r = Some a -> a = (f ++ file_nodes H2 ((x, c) :: es), s ++ dir_nodes H2 ((x, c) :: es), l ++ link_nodes ((x, c) :: es)) /\
       forall y e, In (y, e) ((x, c) :: es) -> incl (comp_objects H2 e) (snd r) /\ small e) /\
    ((forall y e k s, In (y, e) ((x, c) :: es) -> In (k, s) (comp_objects H2 e) -> accepts k s = true) -> (forall y e, In (y, e) ((x, c) :: es) -> small e) -> fst r <> None)).
  { cbn zeta. destruct one as [[d|] E1]; cbn [fst snd] in O; destruct O as [O1 O2 O3 O4].
    2:{ cbn [fst snd]. split; auto. split; [|split; [discriminate|]].
        - intros o I. apply O2, in_app_or in I as [I|I]; auto. right. exists x, c. split; auto. now left.
        - intros A L. exfalso. apply O4; auto; [intros k t I; eapply A; [left; reflexivity|exact I]|]. apply (L x). now left. }
    destruct (O3 d eq_refl) as (Ed & Ei & El). subst d.
    set (a := match c with FFile b _ => _ | FLink _ => _ | FDir _ => _ end).
    assert (Ea : a = (f ++ file_nodes H2 [(x, c)], s ++ dir_nodes H2 [(x, c)], l ++ link_nodes [(x, c)])).
    { subst a. unfold file_nodes, dir_nodes, link_nodes. destruct c; cbn [flat_map app add_file add_dir add_link]; now rewrite !app_nil_r. }
    clearbody a. subst a.
    destruct (IH (fun y e I => K y e (or_intror I)) (f ++ file_nodes H2 [(x, c)]) (s ++ dir_nodes H2 [(x, c)]) (l ++ link_nodes [(x, c)]) E1) as (I1 & I2 & I3 & I4).
    destruct (directory_entries H2 accepts (run fuel) es _ E1) as [r2 E2]. cbn [fst snd] in *. split; [eapply incl_tran; eauto|]. split; [|split].
    - intros o I. apply I2 in I as [I|(y & e & J & I)]; [|right; exists y, e; split; auto; now right].
      apply O2, in_app_or in I as [I|I]; auto. right. exists x, c. split; auto. now left.
    - intros a Et. destruct (I3 _ Et) as [A L]. split.
      + rewrite A, <- !app_assoc. unfold file_nodes, dir_nodes, link_nodes. now rewrite <- !flat_map_app.
      + intros y e [J|J]; [injection J as <- <-; split; auto; eapply incl_tran; eauto|eauto].
    - intros A L. apply I4; [intros y e k t J; apply (A y e k t); now right|]. intros y e J. apply (L y). now right. }
  destruct c; exact Q.
Qed.
Theorem comp_ran fuel : forall n E, named n -> is_dir n = true -> (depth n <= fuel)%nat -> cran n E (fst (run fuel n E)) (snd (run fuel n E)).
Proof.
  induction fuel as [|fuel IH]; intros n E N D L; destruct n as [| |es]; try discriminate; [cbn in L; lia|].
  cbn [CreateDirectoryDigestFromLocalTree]. pose proof (proj1 (named_dir es) N) as [Srt Nc].
  destruct (centries_ran fuel (order es) IH) with (f := @nil (string * (bool * digest))) (s := @nil (string * digest)) (l := @nil (string * string)) (E := E) as (I1 & I2 & I3 & I4).
  { intros x c I. apply (Permutation_in _ (OP es)) in I. split; [now apply (Nc x c)|eapply depth_dir; eauto]. }
  assert (B : forall o, In o (snd (directory_entries H2 accepts (run fuel) (order es) ([], [], []) E)) -> In o (comp_objects H2 (FDir es) ++ E)).
  { intros o I. apply in_or_app. apply I2 in I as [I|(x & c & J & I)]; auto. left. apply comp_objects_dir. right. exists x, c. split; auto. eapply Permutation_in; eauto. }
  assert (Pi : forall x c, In (x, c) es -> In (x, c) (order es)) by (intros x c J; eapply Permutation_in; [apply Permutation_sym, OP|exact J]).
  assert (Pj : forall x c, In (x, c) (order es) -> In (x, c) es) by (intros x c J; eapply Permutation_in; [apply OP|exact J]).
  set (r := directory_entries H2 accepts (run fuel) (order es) ([], [], []) E) in *. destruct r as [[[[f s] l]|] E1]; cbn [fst snd] in *.
  2:{ constructor; auto; [discriminate|]. intros A Lv. exfalso. apply I4; auto.
      - intros x c k s J I. apply A. apply comp_objects_dir. right. eauto.
      - intros x c J. apply (proj2 (proj1 (small_dir es) Lv) x). auto. }
  destruct (I3 _ eq_refl) as [Ea Bl]. injection Ea as -> -> ->. cbn [app]. rewrite (create_message H2 (order es) es (OP es) Srt), <- comp_data_dir.
  unfold SerializeMessage. destruct (strlen (comp_data H2 (FDir es)) <? 2 ^ 31)%N eqn:Sz.
  2:{ constructor; auto; [discriminate|]. intros _ Sm. apply small_dir in Sm as [Sm _]. apply N.ltb_ge in Sz. lia. }
  apply N.ltb_lt in Sz. unfold store. destruct (accepts true (comp_data H2 (FDir es))) eqn:A; cbn [fst snd]; constructor.
  - intros o I. right. auto.
  - intros o [<-|I]; auto. apply in_or_app. left. apply comp_objects_dir. now left.
  - intros d Ed. injection Ed as <-. split; [reflexivity|]. split.
    + intros o I. apply comp_objects_dir in I as [->|(x & c & J & I)]; [now left|right]. eapply Bl; eauto.
    + apply small_dir. split; auto. intros x c J. apply (Bl x c). auto.
  - discriminate.
  - auto.
  - exact B.
  - discriminate.
  - intros K. rewrite K in A; [discriminate|]. apply comp_objects_dir. now left.
Qed.
End Comp.
