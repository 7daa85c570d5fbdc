(** * C38, C39, C45: minimisation of repositories, and repository keys *)
From Coq Require Import List Arith Bool Lia Permutation Sorted.
From Verif.Repo Require Import Minimizer Bisim BisimProofs MinimizerProofs MinimizerEnd
  Keys KeysSpec KeysProofs KeyCache KeyCacheProofs.
Import ListNotations.

(** ** C38 *)

(** Whatever the order of enumeration, the minimiser accepts every automaton
    with unique names and ordered transitions, and returns normally: no missing
    table entry, no dereferenced null pointer, no endless recursion. *)
Theorem C38_returns A :
  well_formed A ->
  (exists o, minimized A o) /\ forall o, minimized A o -> exists out, o = Some out.
Proof.
  intros WF. split; [now apply minimized_exists|].
  intros o M. destruct (minimized_spec A o WF M) as (out & -> & _). eauto.
Qed.

(** Two names get the same representative iff they are bisimilar. *)
Theorem C38_exact A out :
  well_formed A -> minimized A (Some out) ->
  forall x y, rep out x = rep out y <-> bisimilar A x y.
Proof.
  intros WF M. destruct (minimized_spec A _ WF M) as (o & [= <-] & _ & _ & _ & E). exact E.
Qed.

(** The representative of a state is a state, and bisimilar to it; a name
    that is no state is its own representative. *)
Theorem C38_representative A out :
  well_formed A -> minimized A (Some out) ->
  forall x, bisimilar A x (rep out x) /\
    (In x (names A) -> In (rep out x) (names A)) /\
    (~ In x (names A) -> rep out x = x).
Proof.
  intros WF M. destruct (minimized_spec A _ WF M) as (o & [= <-] & H0 & H1 & H2 & _). auto.
Qed.

(** If no transition dangles, this is bisimilarity in the usual sense. *)
Theorem C38_complete A out :
  well_formed A -> complete A -> minimized A (Some out) ->
  forall x y, In x (names A) -> In y (names A) ->
    (rep out x = rep out y <-> strictly_bisimilar A x y).
Proof.
  intros WF C M x y Hx Hy. rewrite (C38_exact A out WF M).
  now apply strictly_bisimilar_iff.
Qed.

(** Two runs with different orders of enumeration identify the same states. *)
Theorem C38_order_irrelevant A out out' :
  well_formed A -> minimized A (Some out) -> minimized A (Some out') ->
  forall x y, rep out x = rep out y <-> rep out' x = rep out' y.
Proof.
  intros WF M M' x y. rewrite (C38_exact A out WF M), (C38_exact A out' WF M'). tauto.
Qed.

Print Assumptions C38_returns.
Print Assumptions C38_exact.
Print Assumptions C38_representative.
Print Assumptions C38_complete.
Print Assumptions C38_order_irrelevant.

(** One possible run. *)
Lemma minimized_run A m :
  add_states empty_minimizer A = Some m ->
  minimized A (compute_bisimulation (m_buckets m) (m_by_state m) (create_pairs (m_buckets m))).
Proof.
  intros E. exists m, (m_buckets m), (create_pairs (m_buckets m)). split; auto.
  split; [|split; reflexivity].
  exists (m_buckets m). split; [reflexivity|].
  assert (G : forall l, Forall2 same_bucket l l).
  { induction l; constructor; auto. split; [|split]; auto. }
  apply G.
Qed.

(** Two cycles of different length with the same behaviour (1, 2 and 3, 4, 5,
    6), a state that leaves a cycle (7), and two with dangling transitions. *)
Definition ex_automaton : automaton :=
  [(1, [(0, 2)], 10); (2, [(0, 1)], 11);
   (3, [(0, 4)], 10); (4, [(0, 5)], 11); (5, [(0, 6)], 10); (6, [(0, 3)], 11);
   (7, [(0, 4); (1, 7)], 10);
   (8, [(0, 100)], 10); (9, [(0, 101)], 10); (12, [(0, 100)], 10)].

Example C38_nonvacuous :
  well_formed ex_automaton /\
  exists out, minimized ex_automaton (Some out) /\
    rep out 1 = rep out 5 /\ rep out 2 = rep out 6 /\ rep out 1 <> rep out 2 /\
    rep out 7 <> rep out 1 /\ rep out 8 <> rep out 9 /\ rep out 8 = rep out 12.
Proof.
  split.
  - split.
    + cbn. repeat (constructor; [cbn; intuition lia|]). constructor.
    + intros n t c Hi. cbn in Hi.
      repeat (destruct Hi as [Hi|Hi]; [injection Hi as <- <- <-; cbn; repeat constructor|]).
      destruct Hi.
  - destruct (add_states empty_minimizer ex_automaton) as [m|] eqn:E; [|discriminate].
    pose proof (minimized_run _ _ E) as M. vm_compute in E. injection E as <-.
    vm_compute in M. eexists. split; [exact M|]. cbn. repeat split; discriminate.
Qed.

(** ** C39 *)

(** The graph of a repository, whose text is hashed. *)
Definition graph_of (H : nat -> nat) (K : config) (r : nat) (g : graph) : Prop :=
  exists d s, minimized (automaton_of H K) (Some d) /\
    build_graph (S (length K)) K d (dedup d r) = Done s g.

(** A key is computed iff the repository and everything it is bound to,
    directly or not, exists and is content-fixed. *)
Theorem C39_exists {T} H (digest : graph -> T) K r k :
  config_ok K -> bases_ok H K -> key_of H digest K r k ->
  (k <> None <-> fixed K r).
Proof.
  intros OK BO (d & M & ->). split.
  - destruct (repository_key digest K d r) eqn:E; [|congruence]. intros _.
    eapply (key_some H digest); eauto.
  - intros F. destruct (key_fixed H digest K d r OK BO M F) as (k & ->). discriminate.
Qed.

(** Equivalent repositories, also of different configurations, have the same
    key, whatever the names and the order of enumeration. *)
Theorem C39_equivalent_same_key {T} H (digest : graph -> T) K1 K2 r1 r2 k1 k2 :
  config_ok K1 -> config_ok K2 -> bases_ok H K1 -> bases_ok H K2 ->
  key_of H digest K1 r1 k1 -> key_of H digest K2 r2 k2 ->
  equivalent K1 K2 r1 r2 -> k1 = k2 /\ k1 <> None.
Proof.
  intros OK1 OK2 BO1 BO2 (d1 & M1 & ->) (d2 & M2 & ->) E.
  destruct (key_equivalent H digest K1 K2 d1 d2 r1 r2) as (k & -> & ->); auto.
  split; congruence.
Qed.

(** Repositories with the same key are equivalent, unless the texts of their
    two graphs are a collision of the hash function. *)
Theorem C39_same_key_equivalent {T} H (dump : graph -> nat) (hash : nat -> T) K1 K2 r1 r2 k :
  (forall g g', dump g = dump g' -> same_graph g g') ->
  config_ok K1 -> config_ok K2 -> bases_ok H K1 -> bases_ok H K2 ->
  key_of H (fun g => hash (dump g)) K1 r1 (Some k) ->
  key_of H (fun g => hash (dump g)) K2 r2 (Some k) ->
  equivalent K1 K2 r1 r2 \/
  exists g1 g2, graph_of H K1 r1 g1 /\ graph_of H K2 r2 g2 /\
    dump g1 <> dump g2 /\ hash (dump g1) = hash (dump g2).
Proof.
  intros DI OK1 OK2 BO1 BO2 (d1 & M1 & E1) (d2 & M2 & E2).
  unfold repository_key in E1, E2.
  destruct (assoc (dedup d1 r1) K1) eqn:A1; [|discriminate].
  destruct (assoc (dedup d2 r2) K2) eqn:A2; [|discriminate].
  destruct (build_graph (S (length K1)) K1 d1 (dedup d1 r1)) as [| |s1 g1] eqn:B1; try discriminate.
  destruct (build_graph (S (length K2)) K2 d2 (dedup d2 r2)) as [| |s2 g2] eqn:B2; try discriminate.
  injection E1 as E1. injection E2 as E2.
  destruct (Nat.eq_dec (dump g1) (dump g2)) as [Eg|N].
  - left. pose proof (same_graph_equivalent H K1 K2 OK1 OK2 BO1 BO2 d1 d2 M1 M2
                        _ _ _ _ _ _ _ _ B1 B2 (DI _ _ Eg)) as Q.
    destruct (equivalent_fixed _ _ _ _ Q) as [F1 F2].
    apply (fixed_u H K1 OK1 BO1 d1 M1) in F1. apply (fixed_u H K2 OK2 BO2 d2 M2) in F2.
    apply equivalent_trans with K1 (dedup d1 r1); [now apply (u_equivalent H)|].
    apply equivalent_trans with K2 (dedup d2 r2); auto.
    apply equivalent_sym. now apply (u_equivalent H).
  - right. exists g1, g2. split; [exists d1, s1; auto|]. split; [exists d2, s2; auto|].
    split; auto. congruence.
Qed.

(** In one configuration, the key is a function of the configuration. *)
Theorem C39_deterministic {T} H (digest : graph -> T) K r k k' :
  config_ok K -> bases_ok H K -> key_of H digest K r k -> key_of H digest K r k' -> k = k'.
Proof.
  intros OK BO (d & M & ->) (d' & M' & ->). now apply (key_unique H digest).
Qed.

Print Assumptions C39_exists.
Print Assumptions C39_equivalent_same_key.
Print Assumptions C39_same_key_equivalent.
Print Assumptions C39_deterministic.

(** Repositories 1 and 2 bound to each other; in the other configuration under
    other names, with a copy of one of them. *)
Definition ex_K1 : config := [(1, (Some 10, [(0, 2)])); (2, (Some 11, [(0, 1)]))].
Definition ex_K2 : config :=
  [(5, (Some 11, [(0, 7)])); (6, (Some 10, [(0, 5)])); (7, (Some 10, [(0, 5)]));
   (8, (Some 10, [(0, 9)])); (9, (None, []))].

Lemma ex_ok1 : config_ok ex_K1.
Proof.
  split; [cbn; repeat (constructor; [cbn; intuition lia|]); constructor|].
  intros n b m Hi. cbn in Hi. repeat (destruct Hi as [[= <- <- <-]|Hi]; [cbn; repeat constructor|]).
  destruct Hi.
Qed.

Lemma ex_ok2 : config_ok ex_K2.
Proof.
  split; [cbn; repeat (constructor; [cbn; intuition lia|]); constructor|].
  intros n b m Hi. cbn in Hi. repeat (destruct Hi as [[= <- <- <-]|Hi]; [cbn; repeat constructor|]).
  destruct Hi.
Qed.

Lemma bases_id K : bases_ok (fun b => b) K.
Proof. intros n m b n' m' b' _ _ E. exact E. Qed.

Lemma key_of_run {T} (digest : graph -> T) K r m d k :
  add_states empty_minimizer (automaton_of (fun b => b) K) = Some m ->
  compute_bisimulation (m_buckets m) (m_by_state m) (create_pairs (m_buckets m)) = Some d ->
  repository_key digest K d r = k -> key_of (fun b => b) digest K r k.
Proof.
  intros E Ed <-. exists d. split; auto. rewrite <- Ed. now apply minimized_run.
Qed.

Example C39_nonvacuous :
  config_ok ex_K1 /\ config_ok ex_K2 /\
  equivalent ex_K1 ex_K2 1 6 /\ fixed ex_K2 6 /\ ~ fixed ex_K2 8 /\
  (exists k, key_of (fun b => b) (fun g => g) ex_K1 1 (Some k) /\
             key_of (fun b => b) (fun g => g) ex_K2 6 (Some k)) /\
  key_of (fun b => b) (fun g => g) ex_K2 8 None.
Proof.
  split; [exact ex_ok1|]. split; [exact ex_ok2|].
  assert (E : equivalent ex_K1 ex_K2 1 6).
  { exists (fun x y => (x = 1 /\ (y = 6 \/ y = 7)) \/ (x = 2 /\ y = 5)). split; [auto|].
    intros x y [[-> [->| ->]]|[-> ->]]; cbn.
    - exists 10, [(0, 2)], [(0, 5)]. repeat split; auto. intros [|l]; cbn; auto.
    - exists 10, [(0, 2)], [(0, 5)]. repeat split; auto. intros [|l]; cbn; auto.
    - exists 11, [(0, 1)], [(0, 7)]. repeat split; auto. intros [|l]; cbn; auto. }
  split; auto. split; [now apply equivalent_fixed in E|]. split.
  { intros (P & P8 & HP). destruct (HP 8 P8) as (b & m & E8 & L). injection E8 as <- <-.
    assert (P9 : P 9) by (apply (L 0); reflexivity).
    destruct (HP 9 P9) as (b' & m' & E9 & _). discriminate. }
  split.
  - eexists. split; eapply key_of_run; vm_compute; reflexivity.
  - eapply key_of_run; vm_compute; reflexivity.
Qed.

(** ** C45 *)

(** The full claim: every answer is the key of the configuration at that time.
    It is false. *)
Definition answers_current : Prop :=
  forall (H : nat -> nat) (digest : graph -> graph) h s r a,
    (forall b b', H b = H b' -> b = b') ->
    run H digest (h ++ [Query r a]) s -> Forall op_ok h ->
    right H digest (rc_repos s) r a.

Lemma run_two {T} (digest : graph -> T) e1 e2 :
  run (fun b => b) digest [SetInfo 1 e1; SetInfo 2 e2]
      (set_info (set_info rc_empty 1 e1) 2 e2).
Proof.
  apply (run_snoc _ _ [SetInfo 1 e1] (set_info rc_empty 1 e1)); [|constructor].
  apply (run_snoc _ _ [] rc_empty); constructor.
Qed.

Lemma step_query {T} (digest : graph -> T) s m d r s' a :
  rc_dups s = None ->
  add_states empty_minimizer (automaton_of (fun b => b) (rc_repos s)) = Some m ->
  compute_bisimulation (m_buckets m) (m_by_state m) (create_pairs (m_buckets m)) = Some d ->
  lookup_key digest s d r = (s', a) ->
  step (fun b => b) digest s (Query r a) s'.
Proof.
  intros E0 E1 E2 E3. apply (st_query _ _ _ d); auto. unfold dups_of. rewrite E0, <- E2.
  now apply minimized_run.
Qed.

(** A run in which repository 2 is set anew between two queries of 1. *)
Lemma stale_run e1 e2 e3 :
  let s := set_info (set_info (@rc_empty graph) 1 e1) 2 e2 in
  forall m d s1 a m' d' s3 a',
  add_states empty_minimizer (automaton_of (fun b => b) (rc_repos s)) = Some m ->
  compute_bisimulation (m_buckets m) (m_by_state m) (create_pairs (m_buckets m)) = Some d ->
  lookup_key (fun g => g) s d 1 = (s1, a) ->
  add_states empty_minimizer (automaton_of (fun b => b) (rc_repos (set_info s1 2 e3))) = Some m' ->
  compute_bisimulation (m_buckets m') (m_by_state m') (create_pairs (m_buckets m')) = Some d' ->
  lookup_key (fun g => g) (set_info s1 2 e3) d' 1 = (s3, a') ->
  run (fun b => b) (fun g => g)
      ([SetInfo 1 e1; SetInfo 2 e2; Query 1 a; SetInfo 2 e3] ++ [Query 1 a']) s3.
Proof.
  intros s m d s1 a m' d' s3 a' E1 E2 E3 E4 E5 E6.
  eapply run_snoc; [|eapply step_query; [|exact E4|exact E5|exact E6]; reflexivity].
  apply (run_snoc _ _ [SetInfo 1 e1; SetInfo 2 e2; Query 1 a] s1); [|constructor].
  apply (run_snoc _ _ [SetInfo 1 e1; SetInfo 2 e2] s); [apply run_two|].
  eapply step_query; [reflexivity|exact E1|exact E2|exact E3].
Qed.

(** If a bound repository is replaced after a key was asked for, the answer is
    still the key of the old configuration. *)
Theorem C45_stale_key_refuted :
  exists h s k k',
    run (fun b => b) (fun g => g) (h ++ [Query 1 (Some k)]) s /\ Forall op_ok h /\
    right (fun b => b) (fun g => g) (rc_repos s) 1 (Some k') /\ k <> k'.
Proof.
  eexists. eexists. eexists. eexists. split; [|split; [|split]].
  - eapply (stale_run (Some 10, [(0, 2)]) (Some 11, []) (Some 12, [])); vm_compute; reflexivity.
  - repeat constructor.
  - intros d M.
    set (K := rc_repos _) in *.
    assert (OK : config_ok K).
    { split; [cbn; repeat (constructor; [cbn; intuition lia|]); constructor|].
      intros n b m Hi. cbn in Hi.
      repeat (destruct Hi as [[= <- <- <-]|Hi]; [cbn; repeat constructor|]). destruct Hi. }
    destruct (add_states empty_minimizer (automaton_of (fun b => b) K)) as [m|] eqn:E; [|discriminate].
    pose proof (minimized_run _ _ E) as M0. vm_compute in E. injection E as <-. vm_compute in M0.
    rewrite (key_unique (fun b => b) (fun g => g) K d _ 1 OK (bases_id K) M M0).
    vm_compute. reflexivity.
  - discriminate.
Qed.

(** If a repository becomes content-fixed after a key was asked for, the answer
    is still that there is no key. *)
Theorem C45_missing_key_refuted :
  exists h s,
    run (fun b => b) (fun g : graph => g) (h ++ [Query 1 None]) s /\ Forall op_ok h /\
    fixed (rc_repos s) 1.
Proof.
  eexists. eexists. split; [|split].
  - eapply (stale_run (Some 10, [(0, 2)]) (None, []) (Some 12, [])); vm_compute; reflexivity.
  - repeat constructor.
  - exists (fun x => x = 1 \/ x = 2). split; auto.
    intros x [->| ->]; cbn.
    + exists 10, [(0, 2)]. split; auto. intros [|l] y; cbn; [intros [= <-]; auto|discriminate].
    + exists 12, []. split; auto. discriminate.
Qed.

Theorem C45_answers_current_refuted : ~ answers_current.
Proof.
  intros A. destruct C45_stale_key_refuted as (h & s & k & k' & R & F & Rk & N).
  specialize (A (fun b => b) (fun g => g) h s 1 (Some k) (fun _ _ E => E) R F).
  destruct (run_ok _ _ _ _ R) as [OK _].
  { apply Forall_app. split; auto. constructor; [exact I|constructor]. }
  destruct (minimized_exists (automaton_of (fun b => b) (rc_repos s))) as (o & M).
  { now apply automaton_wf. }
  destruct (minimized_spec _ _ (automaton_wf _ _ OK) M) as (d & -> & _).
  specialize (A d M). specialize (Rk d M). congruence.
Qed.

(** While repositories are only added, or replaced as long as they are not
    content-fixed (as for computed roots), a returned key is the key of the
    configuration at that time. *)
Theorem C45_filling_partial {T} H (digest : graph -> T) h s r k :
  filling H digest (h ++ [Query r (Some k)]) s -> bases_ok H (rc_repos s) ->
  right H digest (rc_repos s) r (Some k).
Proof.
  intros F BO. inversion F as [E|h' s0 o s' F0 Fi Oo St E]; [now destruct h|].
  apply app_inj_tail in E as [-> ->]. subst s'.
  inversion St as [|? d ? ? ? HD HL]; subst.
  destruct (lookup_repos _ _ _ _ _ _ HL) as [E1 _].
  destruct (filling_run _ _ _ _ F0) as [R Fo]. destruct (run_ok _ _ _ _ R Fo) as [OK D].
  rewrite E1 in *.
  eapply keys_right_query; eauto.
  - unfold dups_of in HD. destruct (rc_dups s0); [subst; auto|auto].
  - now apply (filling_keys H digest h).
Qed.

(** If everything is set before the first key is asked for, every answer is
    right, also that there is no key. *)
Theorem C45_set_then_ask_partial {T} H (digest : graph -> T) h0 s0 h s r a :
  run H digest h0 s0 -> Forall op_ok h0 -> (forall r a, ~ In (Query r a) h0) ->
  bases_ok H (rc_repos s0) ->
  queries H digest s0 h s -> In (Query r a) h ->
  right H digest (rc_repos s) r a.
Proof.
  intros R F N BO Q Hi. destruct (run_ok _ _ _ _ R F) as [OK D].
  destruct (queries_right H digest s0 h s OK BO D) as (E & _ & _ & An); auto.
  - intros x b E. rewrite (sets_keys _ _ _ _ R N) in E. discriminate.
  - rewrite E. now apply An.
Qed.

(** Repository 2 becomes content-fixed before the key of 1 is asked for, after
    the one of 3 was. *)
Example C45_nonvacuous :
  exists s k3 k1,
    filling (fun b => b) (fun g : graph => g)
      ([SetInfo 3 (Some 9, []); SetInfo 1 (Some 10, [(0, 2)]); SetInfo 2 (None, []);
        Query 3 (Some k3); SetInfo 2 (Some 12, [(0, 1)])] ++ [Query 1 (Some k1)]) s /\
    bases_ok (fun b => b) (rc_repos s) /\ k3 <> k1.
Proof.
  eexists. eexists. eexists. split; [|split].
  - pose (s0 := set_info (set_info (set_info (@rc_empty graph) 3 (Some 9, [])) 1
                 (Some 10, [(0, 2)])) 2 (None, [])).
    assert (F0 : filling (fun b => b) (fun g => g)
      [SetInfo 3 (Some 9, []); SetInfo 1 (Some 10, [(0, 2)]); SetInfo 2 (None, [])] s0).
    { eapply (f_snoc _ _ [_; _]); [| | |constructor]; [|intros ? ?; discriminate|repeat constructor].
      eapply (f_snoc _ _ [_]); [| | |constructor]; [|intros ? ?; discriminate|repeat constructor].
      eapply (f_snoc _ _ []); [| | |constructor]; [constructor|intros ? ?; discriminate|repeat constructor]. }
    eapply f_snoc; [|exact I|exact I|].
    + eapply (f_snoc _ _ [_; _; _; _]).
      * eapply (f_snoc _ _ [_; _; _]); [exact F0|exact I|exact I|].
        eapply (step_query _ s0); [reflexivity| | | ]; vm_compute; reflexivity.
      * intros ? ?; discriminate.
      * repeat constructor.
      * constructor.
    + eapply step_query; [reflexivity| | | ]; vm_compute; reflexivity.
  - apply bases_id.
  - discriminate.
Qed.

Print Assumptions C45_stale_key_refuted.
Print Assumptions C45_missing_key_refuted.
Print Assumptions C45_answers_current_refuted.
Print Assumptions C45_filling_partial.
Print Assumptions C45_set_then_ask_partial.
