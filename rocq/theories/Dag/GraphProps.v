(** C37: the action graph after additions; C35 and C36 for the graphs so
    constructed. *)

From Coq Require Import List Arith Bool ZArith Lia.
From Verif Require Import Async.Lists Dag.Graph Dag.GraphInv Dag.GraphAdd.
From Verif Require Dag.Traverse Dag.TraverseInv Dag.TraverseProps.
Import ListNotations.

(** ** What can be asked of a graph *)

(** Identifiers of the action nodes and artifact nodes at given positions *)
Definition act_id (s : gstate) (c : nat) : option nat := option_map cn_id (nth_error (acts s) c).
Definition art_id (s : gstate) (a : nat) : option aid := option_map an_id (nth_error (arts s) a).

(** [BuilderActionNode] and the consumers of an artifact, by identifiers *)
Definition builder_of (s : gstate) (x : aid) : option nat :=
  match artifact_node s x with
  | Some n => match an_children n with c :: _ => act_id s c | [] => None end
  | None => None
  end.
Definition consumers_of (s : gstate) (x : aid) : list (option nat) :=
  match artifact_node s x with Some n => map (act_id s) (an_parents n) | None => [] end.

Definition named (s : gstate) (l : list (nat * nat)) : list (nat * option aid) :=
  map (fun x => (fst x, art_id s (snd x))) l.
Definition some_snd (l : list (nat * aid)) : list (nat * option aid) :=
  map (fun x => (fst x, Some (snd x))) l.

(** The descriptions with a given identifier *)
Definition with_id (id : nat) (ds : list desc) : list desc := filter (fun d => Nat.eqb (d_id d) id) ds.

Lemma in_one : forall {A} b (x y : A), In x (one b y) <-> b = true /\ y = x.
Proof. intros A [|] x y; cbn; intuition discriminate. Qed.

(** ** Any sequence of additions, also with failures *)

Lemma apply_R : forall s h o, R s h -> exists h', R (apply s o) h'.
Proof.
  intros s h [l|id] V; cbn [apply].
  - revert s h V. induction l as [|d l IH]; intros s h V; cbn [add]; [eauto|].
    destruct (add_action s d) as [s1 ok] eqn:E. destruct (add_action_R _ _ _ _ _ V E) as [[h' V1] _].
    destruct ok; [|eauto]. eapply IH; eauto.
  - destruct (add_artifact s id) as [s1 n] eqn:E. destruct (add_artifact_R _ _ _ _ _ V E) as [V1 _]. eauto.
Qed.

Lemma reach_R : forall ops, exists h, R (fold_left apply ops empty_graph) h.
Proof.
  intros ops.
  assert (forall s h, R s h -> exists h', R (fold_left apply ops s) h') as K.
  { induction ops as [|o ops IH]; intros s h V; cbn [fold_left]; [eauto|].
    destruct (apply_R _ _ o V) as [h1 V1]. eapply IH; eauto. }
  eapply K. apply empty_R.
Qed.

(** Every artifact has at most one builder. *)
Theorem C37_single_builder : forall ops a n,
  nth_error (arts (fold_left apply ops empty_graph)) a = Some n -> length (an_children n) <= 1.
Proof.
  intros ops a n H. destruct (reach_R ops) as [h V]. destruct (r_arts _ _ V a n H) as [-> _]. apply V.
Qed.

Lemma count_flat : forall {A B} (dec : forall x y : B, {x = y} + {x <> y}) (f : A -> list B) l x,
  count_occ dec (flat_map f l) x = sum (fun e => count_occ dec (f e) x) l.
Proof.
  intros A B dec f l x. induction l as [|a l IH]; cbn [flat_map sum]; [reflexivity|].
  now rewrite count_occ_app, IH.
Qed.

Lemma count_one : forall b x y, count_occ Nat.eq_dec (one b x) y = if b && (Nat.eqb x y) then 1 else 0.
Proof.
  intros [|] x y; cbn; [|reflexivity]. destruct (Nat.eq_dec x y), (Nat.eqb_spec x y); congruence.
Qed.

(** Links exist in both directions: an action is a builder (consumer) of an
    artifact as often as the artifact is an output (input) of the action. *)
Theorem C37_linked_both_ways : forall ops a n c m,
  nth_error (arts (fold_left apply ops empty_graph)) a = Some n ->
  nth_error (acts (fold_left apply ops empty_graph)) c = Some m ->
  count_occ Nat.eq_dec (an_children n) c = count_occ Nat.eq_dec (cn_parents m) a /\
  count_occ Nat.eq_dec (an_parents n) c = count_occ Nat.eq_dec (cn_children m) a /\
  (forall x, In x (cn_parents m) <-> In x (map snd (cn_files m ++ cn_dirs m))) /\
  cn_children m = map snd (cn_deps m).
Proof.
  intros ops a n c m Ha Hc. destruct (reach_R ops) as [h V].
  destruct (r_arts _ _ V a n Ha) as [-> ->]. destruct (r_acts _ _ V c m Hc) as [-> [-> [-> [-> ->]]]].
  repeat split.
  - unfold builders_at, outs_at. rewrite !count_flat. apply sum_ext. intros e _.
    destruct e as [f c' p a'|]; [|reflexivity]. rewrite !count_one. now rewrite andb_comm.
  - unfold consumers_at, ins_at. rewrite !count_flat. apply sum_ext. intros e _.
    destruct e as [f c' p a'|]; [reflexivity|]. rewrite !count_one. now rewrite andb_comm.
  - unfold outs_at, files_at, dirs_at. rewrite map_app, in_app_iff, !in_map_iff. intros J.
    apply in_flat_map in J. destruct J as [e [J1 J2]]. destruct e as [[|] c' p a'|]; [left|right|destruct J2];
      exists (p, x); (split; [reflexivity|]); apply in_flat_map; eexists;
      (split; [exact J1|]); apply in_one in J2; destruct J2 as [J3 <-]; apply in_one; auto.
  - unfold outs_at, files_at, dirs_at. rewrite map_app, in_app_iff, !in_map_iff.
    intros [[[p y] [E J]]|[[p y] [E J]]]; cbn in E; subst y; apply in_flat_map in J; destruct J as [e [J1 J2]];
      apply in_flat_map; exists e; (split; [exact J1|]); destruct e as [[|] c' q a'|]; try (destruct J2; fail);
      apply in_one in J2; destruct J2 as [J3 J2]; injection J2 as -> ->; apply in_one; auto.
  - unfold ins_at, deps_at. clear V. induction h as [|e h IH]; cbn [flat_map]; [reflexivity|].
    rewrite map_app, IH. destruct e as [|c' p a']; [reflexivity|]. now destruct (Nat.eqb c' c).
Qed.

(** Links lead to nodes of the graph, and identifiers identify nodes. *)
Theorem C37_consistent : forall ops, let s := fold_left apply ops empty_graph in
  (forall a n c, nth_error (arts s) a = Some n -> In c (an_children n ++ an_parents n) -> c < length (acts s)) /\
  (forall c m a, nth_error (acts s) c = Some m -> In a (cn_parents m ++ cn_children m) -> a < length (arts s)) /\
  (forall id n, artifact_node s id = Some n -> an_id n = id) /\
  (forall id n, action_node s id = Some n -> cn_id n = id) /\
  NoDup (map an_id (arts s)) /\ NoDup (map cn_id (acts s)).
Proof.
  intros ops s. subst s. destruct (reach_R ops) as [h V]. set (s := fold_left apply ops empty_graph) in *.
  repeat split.
  - intros a n c Ha J. destruct (r_arts _ _ V a n Ha) as [E1 E2]. rewrite E1, E2 in J.
    apply in_app_iff in J. destruct J as [J|J]; apply in_flat_map in J; destruct J as [e [J1 J2]];
      apply (r_bound _ _ V) in J1; destruct e as [f c' p a'|c' p a']; try (destruct J2; fail);
      apply in_one in J2; destruct J2 as [J3 <-]; apply J1.
  - intros c m a Hc J. destruct (r_acts _ _ V c m Hc) as [_ [_ [E1 [_ E2]]]]. rewrite E1, E2 in J.
    apply in_app_iff in J. destruct J as [J|J]; apply in_flat_map in J; destruct J as [e [J1 J2]];
      apply (r_bound _ _ V) in J1; destruct e as [f c' p a'|c' p a']; try (destruct J2; fail);
      apply in_one in J2; destruct J2 as [J3 <-]; apply J1.
  - intros id n H. unfold artifact_node in H. destruct (assoc aid_dec (art_ids s) id) as [k|] eqn:E; [|discriminate].
    apply (r_aids _ _ V) in E. destruct E as [nd [E1 E2]]. congruence.
  - intros id n H. unfold action_node in H. destruct (assoc Nat.eq_dec (act_ids s) id) as [k|] eqn:E; [|discriminate].
    apply (r_cids _ _ V) in E. destruct E as [nd [E1 E2]]. congruence.
  - apply NoDup_nth_error. intros i j L E. rewrite !nth_error_map in E. rewrite map_length in L.
    destruct (nth_error (arts s) i) as [x|] eqn:Ei; [|apply nth_error_None in Ei; lia].
    destruct (nth_error (arts s) j) as [y|] eqn:Ej; [|discriminate]. cbn in E. injection E as E.
    assert (assoc aid_dec (art_ids s) (an_id x) = Some i) as A by (apply (r_aids _ _ V); eauto).
    assert (assoc aid_dec (art_ids s) (an_id x) = Some j) as B by (apply (r_aids _ _ V); eauto). congruence.
  - apply NoDup_nth_error. intros i j L E. rewrite !nth_error_map in E. rewrite map_length in L.
    destruct (nth_error (acts s) i) as [x|] eqn:Ei; [|apply nth_error_None in Ei; lia].
    destruct (nth_error (acts s) j) as [y|] eqn:Ej; [|discriminate]. cbn in E. injection E as E.
    assert (assoc Nat.eq_dec (act_ids s) (cn_id x) = Some i) as A by (apply (r_cids _ _ V); eauto).
    assert (assoc Nat.eq_dec (act_ids s) (cn_id x) = Some j) as B by (apply (r_cids _ _ V); eauto). congruence.
Qed.

(** ** Successful addition *)

(** Actions are accepted exactly if each has something to run and an output,
    and no artifact is an output twice. *)
Theorem C37_accepted : forall ds, snd (add empty_graph ds) = true <->
  (forall d, In d ds -> runnable d /\ outputs d <> []) /\ NoDup (flat_map outputs ds).
Proof.
  intros ds. destruct (add empty_graph ds) as [s ok] eqn:E.
  destruct (add_full _ _ _ _ _ _ full_empty E) as [_ I]. exact I.
Qed.

Lemma node_of : forall s h id, R s h -> c_known s id -> exists n,
  nth_error (acts s) (cidx s id) = Some n /\ action_node s id = Some n /\ cn_id n = id.
Proof.
  intros s h id V [k K]. unfold action_node. rewrite K, (cidx_some _ _ _ K).
  apply (r_cids _ _ V) in K. destruct K as [n [K1 K2]]. eauto.
Qed.

Lemma art_node_of : forall s h x, R s h -> a_known s x -> exists n,
  nth_error (arts s) (aidx s x) = Some n /\ artifact_node s x = Some n /\ an_id n = x.
Proof.
  intros s h x V [k K]. unfold artifact_node. rewrite K, (aidx_some _ _ _ K).
  apply (r_aids _ _ V) in K. destruct K as [n [K1 K2]]. eauto.
Qed.

Lemma named_place : forall s h l, R s h -> (forall x, In x l -> a_known s (snd x)) ->
  named s (map (place s) l) = some_snd l.
Proof.
  intros s h l V K. unfold named, some_snd. rewrite map_map. apply map_ext_in. intros x J. cbn. f_equal.
  unfold art_id. destruct (art_node_of _ _ _ V (K x J)) as [n [-> [_ E]]]. cbn. now rewrite E.
Qed.

Lemma flat_map_flat_map : forall {A B C} (f : A -> list B) (g : B -> list C) l,
  flat_map g (flat_map f l) = flat_map (fun x => flat_map g (f x)) l.
Proof.
  intros A B C f g l. induction l as [|a l IH]; cbn [flat_map]; [reflexivity|]. now rewrite flat_map_app, IH.
Qed.

Lemma flat_if : forall {A B} (f : A -> list B) (b : A -> bool) l,
  flat_map (fun x => if b x then f x else []) l = flat_map f (filter b l).
Proof.
  intros A B f b l. induction l as [|a l IH]; cbn [flat_map filter]; [reflexivity|].
  destruct (b a); cbn [flat_map]; now rewrite IH.
Qed.

Lemma map_flat_map : forall {A B C} (f : A -> list B) (g : B -> C) l,
  map g (flat_map f l) = flat_map (fun x => map g (f x)) l.
Proof.
  intros A B C f g l. induction l as [|a l IH]; cbn [flat_map]; [reflexivity|]. now rewrite map_app, IH.
Qed.

Lemma flat_map_ext_in : forall {A B} (f g : A -> list B) l, (forall x, In x l -> f x = g x) ->
  flat_map f l = flat_map g l.
Proof.
  intros A B f g l H. induction l as [|a l IH]; cbn [flat_map]; [reflexivity|].
  rewrite IH, (H a); auto; [now left|]. intros. apply H. now right.
Qed.

Lemma at_lout : forall b c l c', 
  files_at (map (lout b c) l) c' = (if b && (Nat.eqb c c') then l else []) /\
  dirs_at (map (lout b c) l) c' = (if negb b && (Nat.eqb c c') then l else []) /\
  deps_at (map (lout b c) l) c' = [].
Proof.
  intros b c l c'. unfold files_at, dirs_at, deps_at.
  induction l as [|[p a] l [I1 [I2 I3]]]; cbn [map flat_map]; [destruct b, (Nat.eqb c c'); auto|].
  rewrite I1, I2, I3. unfold lout. cbn [fst snd]. destruct b; cbn; destruct (Nat.eqb c c'); auto.
Qed.

Lemma at_lin : forall c l c', 
  files_at (map (lin c) l) c' = [] /\ dirs_at (map (lin c) l) c' = [] /\
  deps_at (map (lin c) l) c' = (if Nat.eqb c c' then l else []).
Proof.
  intros c l c'. unfold files_at, dirs_at, deps_at.
  induction l as [|[p a] l [I1 [I2 I3]]]; cbn [map flat_map]; [destruct (Nat.eqb c c'); auto|].
  rewrite I1, I2, I3. unfold lin. cbn [fst snd]. destruct (Nat.eqb c c'); auto.
Qed.

Lemma at_ev : forall s d c,
  files_at (ev s d) c = (if Nat.eqb (cidx s (d_id d)) c then map (place s) (out_files d) else []) /\
  dirs_at (ev s d) c = (if Nat.eqb (cidx s (d_id d)) c then map (place s) (out_dirs d) else []) /\
  deps_at (ev s d) c = (if Nat.eqb (cidx s (d_id d)) c then map (place s) (d_inputs d) else []).
Proof.
  intros s d c.
  assert (forall h1 h2 h3, files_at (h1 ++ h2 ++ h3) c = files_at h1 c ++ files_at h2 c ++ files_at h3 c) as A1
    by (intros; unfold files_at; now rewrite !flat_map_app).
  assert (forall h1 h2 h3, dirs_at (h1 ++ h2 ++ h3) c = dirs_at h1 c ++ dirs_at h2 c ++ dirs_at h3 c) as A2
    by (intros; unfold dirs_at; now rewrite !flat_map_app).
  assert (forall h1 h2 h3, deps_at (h1 ++ h2 ++ h3) c = deps_at h1 c ++ deps_at h2 c ++ deps_at h3 c) as A3
    by (intros; unfold deps_at; now rewrite !flat_map_app).
  unfold ev. rewrite A1, A2, A3.
  repeat match goal with |- context [map (lout ?b ?c1) ?l] =>
    let H1 := fresh in let H2 := fresh in let H3 := fresh in
    destruct (at_lout b c1 l c) as [H1 [H2 H3]]; rewrite H1, H2, H3; clear H1 H2 H3;
    generalize (map (lout b c1) l) end.
  intros _ _. destruct (at_lin (cidx s (d_id d)) (map (place s) (d_inputs d)) c) as [-> [-> ->]].
  destruct (Nat.eqb _ c); cbn; rewrite ?app_nil_r; auto.
Qed.

(** After a successful addition every action described has a node, with exactly
    the outputs and inputs described (for an identifier described several
    times, all of them), and all its inputs counted as missing; there are no
    other nodes. *)
Theorem C37_nodes : forall ds s, add empty_graph ds = (s, true) ->
  (forall id, action_node s id <> None <-> In id (map d_id ds)) /\
  (forall x, artifact_node s x <> None <->
     exists d, In d ds /\ (In x (outputs d) \/ In x (map snd (d_inputs d)))) /\
  (forall id n, action_node s id = Some n ->
    named s (cn_files n) = some_snd (flat_map out_files (with_id id ds)) /\
    named s (cn_dirs n) = some_snd (flat_map out_dirs (with_id id ds)) /\
    named s (cn_deps n) = some_snd (flat_map d_inputs (with_id id ds)) /\
    cn_unav n = Z.of_nat (length (flat_map d_inputs (with_id id ds)))).
Proof.
  intros ds s E. destruct (add_full _ _ _ _ _ _ full_empty E) as [F _]. specialize (F eq_refl). cbn [app] in F.
  pose proof (f_R _ _ F) as V. split; [|split].
  - intros id. split.
    + intros N. apply (f_acts _ _ F). unfold action_node in N.
      destruct (assoc Nat.eq_dec (act_ids s) id) as [k|] eqn:Q; [|congruence]. now exists k.
    + intros J. apply in_map_iff in J. destruct J as [d [<- J]]. destruct (f_known _ _ F d J) as [K _].
      destruct (node_of _ _ _ V K) as [n [_ [-> _]]]. discriminate.
  - intros x. split.
    + intros N. destruct (f_arts _ _ F x) as [[]|J]; [|exact J]. unfold artifact_node in N.
      destruct (assoc aid_dec (art_ids s) x) as [k|] eqn:Q; [|congruence]. now exists k.
    + intros [d [J Q]]. assert (a_known s x) as K.
      { destruct (f_known _ _ F d J) as [_ [K1 K2]]. destruct Q as [Q|Q]; [auto|].
        apply in_map_iff in Q. destruct Q as [y [<- Q]]. auto. }
      destruct (art_node_of _ _ _ V K) as [n [_ [-> _]]]. discriminate.
  - intros id n H.
    assert (c_known s id) as K.
    { unfold action_node in H. destruct (assoc Nat.eq_dec (act_ids s) id) as [k|] eqn:Q; [|discriminate]. now exists k. }
    destruct (node_of _ _ _ V K) as [n' [N1 [N2 _]]]. rewrite H in N2. injection N2 as <-.
    destruct (r_acts _ _ V _ _ N1) as [E1 [E2 [_ [E3 E4]]]].
    assert (forall d, In d ds -> Nat.eqb (cidx s (d_id d)) (cidx s id) = Nat.eqb (d_id d) id) as EQ.
    { intros d J. destruct (f_known _ _ F d J) as [Kd _].
      destruct (Nat.eqb_spec (d_id d) id) as [->|N]; [apply Nat.eqb_refl|]. apply Nat.eqb_neq. intros X.
      apply N. eapply cidx_inj; eauto. }
    assert (forall P : lev -> list (nat * nat), forall O : desc -> list (nat * aid),
      (forall d, In d ds -> flat_map P (ev s d) = if Nat.eqb (cidx s (d_id d)) (cidx s id) then map (place s) (O d) else []) ->
      (forall d, In d ds -> forall x, In x (O d) -> a_known s (snd x)) ->
      named s (flat_map P (flat_map (ev s) ds)) = some_snd (flat_map O (with_id id ds))) as Q.
    { intros P O HP HO. rewrite flat_map_flat_map.
      rewrite (flat_map_ext_in _ (fun d => if Nat.eqb (d_id d) id then map (place s) (O d) else []))
        by (intros d J; rewrite HP, EQ; auto).
      rewrite (flat_if (fun d => map (place s) (O d)) (fun d => Nat.eqb (d_id d) id)).
      rewrite <- map_flat_map. apply named_place with (h := flat_map (ev s) ds); [exact V|].
      intros x J. apply in_flat_map in J. destruct J as [d [J1 J2]]. unfold with_id in J1. apply filter_In in J1.
      now apply (HO d). }
    assert (named s (cn_deps n) = some_snd (flat_map d_inputs (with_id id ds))) as QD.
    { rewrite E3. unfold deps_at. apply Q.
      - intros d J. apply (proj2 (proj2 (at_ev s d (cidx s id)))).
      - intros d J x Jx. now apply (f_known _ _ F d J). }
    split; [|split; [|split]].
    + rewrite E1. unfold files_at. apply Q.
      * intros d J. apply (proj1 (at_ev s d (cidx s id))).
      * intros d J x Jx. apply (proj1 (proj2 (f_known _ _ F d J))). apply in_outputs. auto.
    + rewrite E2. unfold dirs_at. apply Q.
      * intros d J. apply (proj1 (proj2 (at_ev s d (cidx s id)))).
      * intros d J x Jx. apply (proj1 (proj2 (f_known _ _ F d J))). apply in_outputs. auto.
    + exact QD.
    + rewrite (f_counted _ _ F _ _ N1). f_equal.
      apply (f_equal (@length _)) in QD. unfold named, some_snd in QD. rewrite !map_length in QD.
      rewrite <- QD, E3. unfold ins_at, deps_at. clear.
      induction (flat_map (ev s) ds) as [|e h IH]; cbn [flat_map]; [reflexivity|]. rewrite !app_length, IH.
      f_equal. destruct e as [|c p a]; [reflexivity|]. now destruct (Nat.eqb c (cidx s id)).
Qed.

Lemma builders_in : forall s ds a c, In c (builders_at (flat_map (ev s) ds) a) <->
  exists d x, In d ds /\ In x (outputs d) /\ a = aidx s x /\ c = cidx s (d_id d).
Proof.
  intros s ds a c. unfold builders_at. rewrite in_flat_map. split.
  - intros [e [J1 J2]]. destruct e as [f c' p a'|]; [|destruct J2].
    apply in_one in J2. destruct J2 as [J3 ->]. apply Nat.eqb_eq in J3. subst a'.
    apply in_flat_map in J1. destruct J1 as [d [Jd Je]]. unfold ev in Je. rewrite !in_app_iff, !in_map_iff in Je.
    destruct Je as [[x [Ex Jx]]|[[x [Ex Jx]]|[x [Ex Jx]]]]; [| |discriminate];
      injection Ex as <- <- <- <-; apply in_map_iff in Jx; destruct Jx as [y [<- Jy]];
      exists d, (snd y); (split; [exact Jd|]); (split; [apply in_outputs; auto|]); auto.
  - intros [d [x [Jd [Jx [-> ->]]]]]. unfold outputs in Jx. apply in_map_iff in Jx. destruct Jx as [y [<- Jy]].
    apply in_app_iff in Jy. destruct Jy as [Jy|Jy].
    + exists (LOut true (cidx s (d_id d)) (fst y) (aidx s (snd y))). split.
      * apply in_flat_map. exists d. split; [exact Jd|]. unfold ev. rewrite !in_app_iff. left.
        apply in_map_iff. exists (place s y). split; [reflexivity|]. now apply in_map.
      * rewrite Nat.eqb_refl. now left.
    + exists (LOut false (cidx s (d_id d)) (fst y) (aidx s (snd y))). split.
      * apply in_flat_map. exists d. split; [exact Jd|]. unfold ev. rewrite !in_app_iff. right. left.
        apply in_map_iff. exists (place s y). split; [reflexivity|]. now apply in_map.
      * rewrite Nat.eqb_refl. now left.
Qed.

(** An artifact is built by the action that has it as output, by none if there
    is no such action, and consumed by the actions that have it as input, as
    often as they have it. *)
Theorem C37_links : forall ds s x, add empty_graph ds = (s, true) ->
  (forall id, builder_of s x = Some id <-> exists d, In d ds /\ d_id d = id /\ In x (outputs d)) /\
  consumers_of s x =
    flat_map (fun d => flat_map (fun i => if aid_dec (snd i) x then [Some (d_id d)] else []) (d_inputs d)) ds.
Proof.
  intros ds s x E. destruct (add_full _ _ _ _ _ _ full_empty E) as [F _]. specialize (F eq_refl). cbn [app] in F.
  pose proof (f_R _ _ F) as V. split.
  - intros id. unfold builder_of. split.
    + intros H. destruct (artifact_node s x) as [n|] eqn:N; [|discriminate].
      assert (a_known s x) as K.
      { unfold artifact_node in N. destruct (assoc aid_dec (art_ids s) x) as [k|] eqn:Q; [|discriminate]. now exists k. }
      destruct (art_node_of _ _ _ V K) as [n' [N1 [N2 _]]]. rewrite N in N2. injection N2 as <-.
      destruct (r_arts _ _ V _ _ N1) as [E1 _]. destruct (an_children n) as [|c cs]; [discriminate|].
      assert (In c (builders_at (flat_map (ev s) ds) (aidx s x))) as J by (rewrite <- E1; now left).
      apply builders_in in J. destruct J as [d [y [Jd [Jy [Ey ->]]]]]. exists d. split; [exact Jd|].
      destruct (f_known _ _ F d Jd) as [Kd [Ko _]]. destruct (node_of _ _ _ V Kd) as [m [M1 [_ M2]]].
      unfold act_id in H. rewrite M1 in H. cbn in H. injection H as <-. split; [now symmetry|].
      enough (x = y) by congruence. eapply aidx_inj; eauto.
    + intros [d [Jd [<- Jx]]]. destruct (f_known _ _ F d Jd) as [Kd [Ko _]].
      destruct (art_node_of _ _ _ V (Ko x Jx)) as [n [N1 [-> _]]]. destruct (r_arts _ _ V _ _ N1) as [E1 _].
      assert (In (cidx s (d_id d)) (an_children n)) as J.
      { rewrite E1. apply builders_in. exists d, x. auto. }
      pose proof (r_single _ _ V (aidx s x)) as L. rewrite <- E1 in L.
      destruct (an_children n) as [|c [|c' cs]]; [destruct J| |cbn in L; lia].
      destruct J as [->|[]]. destruct (node_of _ _ _ V Kd) as [m [M1 [_ M2]]]. unfold act_id. rewrite M1. cbn.
      now rewrite M2.
  - unfold consumers_of. destruct (artifact_node s x) as [n|] eqn:N.
    + assert (a_known s x) as K.
      { unfold artifact_node in N. destruct (assoc aid_dec (art_ids s) x) as [k|] eqn:Q; [|discriminate]. now exists k. }
      destruct (art_node_of _ _ _ V K) as [n' [N1 [N2 _]]]. rewrite N in N2. injection N2 as <-.
      destruct (r_arts _ _ V _ _ N1) as [_ ->]. unfold consumers_at. rewrite flat_map_flat_map, map_flat_map.
      apply flat_map_ext_in. intros d J. destruct (f_known _ _ F d J) as [Kd [Ko Ki]].
      unfold ev. rewrite !flat_map_app.
      assert (forall b c l, flat_map (fun e => match e with LIn c _ a' => one (Nat.eqb a' (aidx s x)) c | _ => [] end)
         (map (lout b c) l) = []) as Z by (intros b c l; induction l; cbn; auto).
      rewrite !Z. cbn [app]. clear Z. destruct (node_of _ _ _ V Kd) as [m [M1 [_ M2]]].
      induction (d_inputs d) as [|i l IH]; cbn [map flat_map]; [reflexivity|].
      rewrite map_app, IH by (intros y Jy; apply Ki; now right). f_equal. unfold lin. cbn [place fst snd].
      destruct (aid_dec (snd i) x) as [->|NE].
      * rewrite Nat.eqb_refl. cbn [one map]. unfold act_id. rewrite M1. cbn. now rewrite M2.
      * destruct (Nat.eqb_spec (aidx s (snd i)) (aidx s x)) as [Q|]; [|reflexivity].
        exfalso. apply NE. eapply aidx_inj; eauto. apply Ki. now left.
    + symmetry. rewrite (flat_map_ext_in _ (fun _ => [])).
      * clear. induction ds; cbn; auto.
      * intros d J. destruct (f_known _ _ F d J) as [Kd [Ko Ki]].
        induction (d_inputs d) as [|i l IH]; cbn [flat_map]; [reflexivity|].
        rewrite IH by (intros y Jy; apply Ki; now right).
        destruct (aid_dec (snd i) x) as [<-|NE]; [|reflexivity]. exfalso.
        destruct (art_node_of _ _ _ V (Ki i (or_introl eq_refl))) as [n [_ [N2 _]]]. congruence.
Qed.

(** ** The graph the traverser sees *)

Definition to_graph (s : gstate) : Traverse.graph :=
  Traverse.mkG (fun a => Nat.ltb a (length (arts s)))
    (fun a => match nth_error (arts s) a with Some n => hd_error (an_children n) | None => None end)
    (fun a => match nth_error (arts s) a with Some n => an_parents n | None => [] end)
    (fun c => match nth_error (acts s) c with Some n => cn_children n | None => [] end)
    (fun c => match nth_error (acts s) c with Some n => cn_parents n | None => [] end).

Lemma at_nodes : forall s h, R s h ->
  (forall a, match nth_error (arts s) a with Some n => an_children n | None => [] end = builders_at h a) /\
  (forall a, Traverse.consumers (to_graph s) a = consumers_at h a) /\
  (forall c, Traverse.deps (to_graph s) c = ins_at h c) /\
  (forall c, Traverse.outs (to_graph s) c = outs_at h c).
Proof.
  intros s h V. destruct (out_of_range _ _ V) as [OA OC].
  repeat split; intros k; cbn.
  - destruct (nth_error (arts s) k) as [n|] eqn:N; [now apply V|]. apply nth_error_None in N.
    destruct (OA k N) as [-> _]. reflexivity.
  - destruct (nth_error (arts s) k) as [n|] eqn:N; [now apply V|]. apply nth_error_None in N.
    destruct (OA k N) as [_ ->]. reflexivity.
  - destruct (nth_error (acts s) k) as [n|] eqn:N; [now apply V|]. apply nth_error_None in N.
    destruct (OC k N) as [_ [_ [_ [_ ->]]]]. reflexivity.
  - destruct (nth_error (acts s) k) as [n|] eqn:N; [now apply V|]. apply nth_error_None in N.
    destruct (OC k N) as [_ [_ [-> _]]]. reflexivity.
Qed.

Lemma count_dup : forall h a c, count_occ Nat.eq_dec (outs_at h c) a = count_occ Nat.eq_dec (builders_at h a) c.
Proof.
  intros h a c. unfold builders_at, outs_at. rewrite !count_flat. apply sum_ext. intros e _.
  destruct e as [f c' p a'|]; [|reflexivity]. rewrite !count_one. now rewrite andb_comm.
Qed.

Lemma count_length : forall l c, count_occ Nat.eq_dec l c <= length l.
Proof. intros l c. induction l as [|x l IH]; cbn; [lia|]. destruct (Nat.eq_dec x c); lia. Qed.

Lemma to_graph_wf : forall s h, R s h -> TraverseInv.wf (to_graph s).
Proof.
  intros s h V. destruct (at_nodes _ _ V) as [B [C [D O]]]. constructor.
  - intros a c. rewrite C, D. unfold consumers_at, ins_at. rewrite !count_flat. apply sum_ext. intros e _.
    destruct e as [f c' p a'|]; [reflexivity|]. rewrite !count_one. now rewrite andb_comm.
  - intros a c. rewrite O.
    assert (Traverse.builder (to_graph s) a = hd_error (builders_at h a)) as ->.
    { rewrite <- B. cbn. now destruct (nth_error (arts s) a). }
    rewrite (count_occ_In Nat.eq_dec), count_dup. pose proof (r_single _ _ V a) as L.
    destruct (builders_at h a) as [|x [|y l]]; cbn in *; [| |lia].
    + split; [lia|discriminate].
    + destruct (Nat.eq_dec x c) as [->|N]; split; auto; try lia. intros Q. injection Q as ->. congruence.
  - intros c. rewrite O. apply (NoDup_count_occ Nat.eq_dec). intros a. rewrite count_dup.
    pose proof (r_single _ _ V a) as L. pose proof (count_length (builders_at h a) c). lia.
Qed.

(** What the traversal theorems need holds for every graph that can be
    constructed; after a successful addition the counters of missing inputs
    start as the traversal has them. *)
Theorem C37_traversable : forall ops, TraverseInv.wf (to_graph (fold_left apply ops empty_graph)).
Proof. intros ops. destruct (reach_R ops) as [h V]. eapply to_graph_wf; eauto. Qed.

Theorem C37_counters : forall ds s c n, add empty_graph ds = (s, true) -> nth_error (acts s) c = Some n ->
  forall targets, cn_unav n = Traverse.unav (Traverse.init (to_graph s) targets) c.
Proof.
  intros ds s c n E N targets. destruct (add_full _ _ _ _ _ _ full_empty E) as [F _]. specialize (F eq_refl).
  cbn [app] in F. rewrite (f_counted _ _ F _ _ N). cbn. rewrite N.
  destruct (r_acts _ _ (f_R _ _ F) c n N) as [_ [_ [_ [_ ->]]]]. reflexivity.
Qed.

(** Descriptions without cyclic dependencies give a graph without. *)
Definition acyclic_descs (ds : list desc) : Prop :=
  exists rank : nat -> nat, forall d d' x, In d ds -> In d' ds ->
    In x (map snd (d_inputs d)) -> In x (outputs d') -> rank (d_id d') < rank (d_id d).

Lemma acyclic_graph : forall ds s, add empty_graph ds = (s, true) -> acyclic_descs ds ->
  TraverseProps.acyclic (to_graph s).
Proof.
  intros ds s E [rank RK]. destruct (add_full _ _ _ _ _ _ full_empty E) as [F _]. specialize (F eq_refl).
  cbn [app] in F. pose proof (f_R _ _ F) as V. destruct (at_nodes _ _ V) as [B [_ [D _]]].
  exists (fun c => match nth_error (acts s) c with Some n => rank (cn_id n) | None => 0 end).
  intros c a c' J Q. rewrite D in J. unfold ins_at in J. apply in_flat_map in J. destruct J as [e [J1 J2]].
  destruct e as [|c0 p a0]; [destruct J2|]. apply in_one in J2. destruct J2 as [J3 ->]. apply Nat.eqb_eq in J3. subst c0.
  apply in_flat_map in J1. destruct J1 as [d [Jd Je]]. unfold ev in Je. rewrite !in_app_iff, !in_map_iff in Je.
  destruct Je as [[x [Ex _]]|[[x [Ex _]]|[x [Ex Jx]]]]; try discriminate. injection Ex as Ex1 Ex2 Ex3.
  apply in_map_iff in Jx. destruct Jx as [y [<- Jy]]. cbn in Ex3.
  assert (In c' (builders_at (flat_map (ev s) ds) a)) as Jb.
  { rewrite <- B. cbn in Q. destruct (nth_error (arts s) a) as [na|]; [|discriminate].
    destruct (an_children na); [discriminate|]. injection Q as ->. now left. }
  apply builders_in in Jb. destruct Jb as [d' [z [Jd' [Jz [Ez Ec']]]]].
  destruct (f_known _ _ F d Jd) as [Kd [_ Ki]]. destruct (f_known _ _ F d' Jd') as [Kd' [Ko' _]].
  assert (z = snd y) as ->.
  { eapply aidx_inj; eauto. congruence. }
  destruct (node_of _ _ _ V Kd) as [m [M1 [_ M2]]]. destruct (node_of _ _ _ V Kd') as [m' [M1' [_ M2']]].
  rewrite <- Ex1, Ec', M1, M1', M2, M2'. apply (RK d d' (snd y)); auto. now apply in_map.
Qed.

Lemma needed_nodes : forall s h targets n, R s h -> (forall a, In a targets -> a < length (arts s)) ->
  TraverseInv.needed (to_graph s) targets n ->
  In n (map Traverse.Art (seq 0 (length (arts s))) ++ map Traverse.Act (seq 0 (length (acts s)))).
Proof.
  intros s h targets n V T H. rewrite in_app_iff, !in_map_iff.
  induction H as [a J|a c _ _ Q|c d _ _ J].
  - left. exists a. split; [reflexivity|]. apply in_seq. specialize (T a J). lia.
  - right. exists c. split; [reflexivity|]. apply in_seq. cbn in Q.
    destruct (nth_error (arts s) a) as [na|] eqn:N; [|discriminate]. destruct (r_arts _ _ V a na N) as [E _].
    destruct (an_children na) as [|c' l] eqn:AC; [discriminate|]. injection Q as ->.
    assert (In c (builders_at h a)) as J by (rewrite <- E; now left).
    apply in_flat_map in J. destruct J as [e [J1 J2]]. apply (r_bound _ _ V) in J1.
    destruct e as [f c1 p a1|]; [|destruct J2]. apply in_one in J2; destruct J2 as [J3 <-]. cbn in J1. lia.
  - left. exists d. split; [reflexivity|]. apply in_seq. destruct (at_nodes _ _ V) as [_ [_ [D _]]]. rewrite D in J.
    apply in_flat_map in J. destruct J as [e [J1 J2]]. apply (r_bound _ _ V) in J1.
    destruct e as [|c1 p a1]; [destruct J2|]. apply in_one in J2; destruct J2 as [J3 <-]. cbn in J1. lia.
Qed.

(** Building: for actions accepted and without cyclic dependencies, and
    requested artifacts of the graph, every traversal ends; it either reports a
    failure of some processing, or the requested artifacts and all they depend
    on were built. *)
Theorem C36_build : forall ds s targets, add empty_graph ds = (s, true) -> acyclic_descs ds ->
  (forall a, In a targets -> a < length (arts s)) ->
  exists bound, forall l t, Traverse.run (to_graph s) (Traverse.init (to_graph s) targets) l = Some t ->
    length l <= bound /\
    (Traverse.finished t ->
      (TraverseProps.success t <-> forall n, ~ In (Traverse.EEnd n false) (Traverse.log t)) /\
      (TraverseProps.success t -> forall c, TraverseInv.needed (to_graph s) targets (Traverse.Act c) ->
          In (Traverse.EEnd (Traverse.Act c) true) (Traverse.log t)) /\
      (TraverseProps.success t -> forall a, In a targets -> Traverse.avail t a = true)).
Proof.
  intros ds s targets E AC T. destruct (add_full _ _ _ _ _ _ full_empty E) as [F _]. specialize (F eq_refl).
  cbn [app] in F. pose proof (f_R _ _ F) as V. pose proof (to_graph_wf _ _ V) as W.
  destruct (TraverseProps.C36_ends (to_graph s) targets _ W (fun n => needed_nodes _ _ _ n V T)) as [b B].
  exists b. intros l t R. split; [exact (proj1 (B l t R))|]. intros FI. split; [|split].
  - pose proof (TraverseProps.C36_result _ _ _ _ W R FI) as Q. split.
    + intros S. now apply Q.
    + intros N. apply Q. split; [exact N|]. intros a J. cbn. apply Nat.ltb_lt. auto.
  - intros S. exact (proj2 (proj2 (TraverseProps.C36_all_built _ _ _ _ W (acyclic_graph _ _ E AC) R FI S))).
  - intros S. exact (proj1 (TraverseProps.C36_all_built _ _ _ _ W (acyclic_graph _ _ E AC) R FI S)).
Qed.

(** ** Examples *)

(** Action 7 makes file 1 and directory 2 from two sources; tree action 8
    collects file 1 and a source; action 9 uses the tree and the directory. *)
Definition ex_descs : list desc :=
  [mkD 7 (KCommand false) [1] [2] [(10, ALeaf 100); (11, ALeaf 101)];
   mkD 8 KTree [] [] [(1, AOut 7 1); (12, ALeaf 100)];
   mkD 9 (KCommand false) [3] [] [(5, ATree 8); (6, AOut 7 2)]].

Example C37_nonvacuous : exists s, add empty_graph ex_descs = (s, true) /\
  acyclic_descs ex_descs /\ builder_of s (ATree 8) = Some 8 /\
  consumers_of s (ALeaf 100) = [Some 7; Some 8] /\ length (arts s) = 6.
Proof.
  eexists. split; [vm_compute; reflexivity|]. split.
  - exists (fun c => c). intros d d' x J J' I O.
    repeat (destruct J as [<-|J]; [|]); try destruct J;
    repeat (destruct J' as [<-|J']; [|]); try destruct J'; cbn in *;
      repeat match goal with H : _ \/ _ |- _ => destruct H | H : False |- _ => destruct H end; subst; try discriminate; lia.
  - repeat split.
Qed.

(** Added twice, an action is refused. *)
Example C37_twice_refused :
  snd (add empty_graph (ex_descs ++ [mkD 7 (KCommand false) [1] [2] []])) = false.
Proof. vm_compute. reflexivity. Qed.

Print Assumptions C37_single_builder.
Print Assumptions C37_linked_both_ways.
Print Assumptions C37_consistent.
Print Assumptions C37_accepted.
Print Assumptions C37_nodes.
Print Assumptions C37_links.
Print Assumptions C37_traversable.
Print Assumptions C37_counters.
Print Assumptions C36_build.
