(** Configurations in order are set up, circles of computed roots are not (for C113). *)
From Coq Require Import String Ascii List Bool Arith Lia.
From Verif Require Import Common.Strs Expr.Json Setup.Model Setup.Spec Setup.Chains Setup.Fill Setup.Just.
Import ListNotations.
Local Open Scope string_scope.
Local Open Scope list_scope.
Local Open Scope nat_scope.

Lemma via_trans repos a b c : computed_via repos a b -> computed_via repos b c -> computed_via repos a c.
Proof. induction 1; intros; eapply via_more; eauto. Qed.

Lemma keys_length (repos : fields) : length (keys repos) = length repos.
Proof. unfold keys. apply map_length. Qed.

Lemma alookup_keys {V} r (l : list (string * V)) v : alookup r l = Some v -> In r (keys l).
Proof. intros A. destruct (in_dec string_dec r (keys l)) as [I|N]; [exact I|]. apply alookup_None in N. congruence. Qed.

Section S.
Variable fetch : fields -> option json.
Variable repos : fields.
Variable main : option string.
Variable interactive : bool.

(** *** Circles *)
Lemma setup_repo_next n r f r' : setup_repo fetch (S n) repos main interactive r = Done f -> left_out main interactive r = false ->
  computed_in repos r r' -> exists f', setup_repo fetch n repos main interactive r' = Done f'.
Proof.
  intros E L (d & D & Rf). cbn [setup_repo] in E. rewrite L in E.
  destruct (alookup r repos) as [v|] eqn:A; [|discriminate]. destruct v; try discriminate.
  destruct (alookup "repository" m) as [d0|] eqn:B; [|discriminate]. destruct (resolve_repo repos d0) as [v|] eqn:R; [|discriminate].
  destruct v; try discriminate. apply resolve_iff in R. assert (described repos r (JObj m0)) as D' by (econstructor; eauto).
  rewrite (leads_fun _ _ _ _ D D') in Rf. apply parse_precomputed_refers in Rf as (p & P & <-).
  destruct (type_of_precomputed _ _ P) as (ty & T & M1 & M2). rewrite T, M2, M1, P in E.
  destruct (setup_repo fetch n repos main interactive (referenced p)); try discriminate. eauto.
Qed.
Lemma setup_repo_no_circle n : forall r f x, setup_repo fetch n repos main interactive r = Done f ->
  (forall y, y = r \/ computed_via repos r y -> left_out main interactive y = false) ->
  (x = r \/ computed_via repos r x) -> ~ computed_via repos x x.
Proof.
  induction n as [|n IH]; intros r f x E L X C; [discriminate|].
  assert (computed_via repos r x) as V by (destruct X as [->|X]; auto).
  inversion V as [? ? I|? r' ? I V']; subst.
  - destruct (setup_repo_next _ _ _ _ E (L r (or_introl eq_refl)) I) as [f' E']. eapply (IH x f' x); eauto. intros y [->|Y]; apply L; right; [exact V|eapply via_trans; eauto].
  - destruct (setup_repo_next _ _ _ _ E (L r (or_introl eq_refl)) I) as [f' E']. eapply (IH r' f' x); eauto.
    intros y [->|Y]; apply L; right; [now apply via_one|]. eapply via_more; eauto.
Qed.

(** *** Success *)
Hypothesis Io : in_order fetch repos.

Lemma root_parsed d root : root_for fetch d root -> (exists d' ty, d = JObj d' /\ alookup "type" d' = Some (JStr ty) /\ mem ty fetched_types = true /\ fetch d' = Some root) \/
  exists p, parse_precomputed d = Done p.
Proof.
  intros [d' ty root' T I F|d' r m n c a C|d' r a C].
  - left. exists d', ty. repeat split; auto. now apply mem_In.
  - right. eexists. now apply (parse_precomputed_computed d' r m n c a).
  - right. eexists. now apply (parse_precomputed_structure d' r a).
Qed.
Lemma described_step r d : described repos r d -> exists e d0, has_entry repos r e /\ alookup "repository" e = Some d0 /\ leads repos d0 d.
Proof. intros D. inversion D as [? X|? e d0 ? A B C]; subst; [destruct (X r eq_refl)|eauto]. Qed.

Lemma setup_repo_succeeds n : forall seen r, In r (keys repos) -> NoDup seen -> incl seen (keys repos) ->
  (forall y, In y seen -> computed_via repos y r) -> length repos < length seen + n ->
  exists f, setup_repo fetch n repos main interactive r = Done f.
Proof.
  induction n as [|n IH]; intros seen r Ir Nd Ic V Ln.
  - exfalso. pose proof (NoDup_incl_length Nd Ic) as Q. rewrite keys_length in Q. lia.
  - cbn [setup_repo]. destruct (io_described _ _ Io r Ir) as (e & d & root & He & D & Rf).
    destruct (described_step _ _ D) as (e' & d0 & He' & Hd & Ld). assert (e' = e) as -> by (unfold has_entry in *; congruence).
    destruct (left_out main interactive r). { rewrite (get_some _ _ _ He). eauto. }
    unfold has_entry in He. rewrite He, Hd, (proj2 (resolve_iff _ _ _) Ld).
    destruct (root_parsed _ _ Rf) as [(d' & ty & -> & T & M & F)|[p P]].
    + rewrite T, M, F. eauto.
    + destruct d as [| | | | | |d']; try discriminate. destruct (type_of_precomputed _ _ P) as (ty & T & M1 & M2). rewrite T, M2, M1, P.
      assert (computed_in repos r (referenced p)) as Ci by (exists (JObj d'); split; [exact D|]; apply parse_precomputed_refers; eauto).
      destruct (IH (r :: seen) (referenced p)) as [f ->]; [exact (io_computed _ _ Io _ _ Ir Ci)| | | |cbn; lia|eauto].
      * constructor; [|exact Nd]. intros X. exact (io_circles _ _ Io r (V r X)).
      * intros y [<-|Y]; auto.
      * intros y [<-|Y]; [now apply via_one|]. eapply via_trans; [exact (V y Y)|now apply via_one].
Qed.
Lemma setup_all_succeeds ks : incl ks (keys repos) -> exists vs, setup_all fetch (S (S (length repos))) repos main interactive ks = Done vs.
Proof.
  induction ks as [|k ks IH]; intros I; cbn [setup_all]; [eauto|].
  destruct (setup_repo_succeeds (S (S (length repos))) [] k) as [f ->]; [apply I; now left|constructor|intros ? []|intros ? []|cbn; lia|].
  destruct IH as [vs ->]; [intros x X; apply I; now right|]. eauto.
Qed.

Lemma entry_named r : In r (keys repos) -> exists e, has_entry repos r e.
Proof. intros I. destruct (io_described _ _ Io r I) as (e & _ & _ & He & _). eauto. Qed.
Lemma fill_layers_succeeds r e ks : has_entry repos r e -> incl ks layers -> forall mr, exists mr', fill_layers main interactive r e ks mr = Some mr'.
Proof.
  intros He. induction ks as [|k ks IH]; intros I mr; cbn [fill_layers]; [eauto|].
  assert (exists m1, fill_layer main interactive r e k mr = Some m1) as [m1 ->].
  { unfold fill_layer. destruct (io_layers _ _ Io r e k He) as [N|(l & El & _)]; [apply I; now left|rewrite (proj2 (get_null _ _) N); eauto|].
    rewrite (get_some _ _ _ El). destruct (left_out main interactive l); [eauto|]. destruct (read_root mr l). eauto. }
  apply IH. intros x X. apply I. now right.
Qed.
Lemma fill_repos_succeeds include : incl include (keys repos) -> forall mr, exists mr', fill_repos repos main interactive include mr = Some mr'.
Proof.
  induction include as [|r rest IH]; intros I mr; cbn [fill_repos]; [eauto|].
  destruct (entry_named r) as [e He]; [apply I; now left|]. rewrite (get_some _ _ _ He).
  assert (incl rest (keys repos)) as I' by (intros x X; apply I; now right).
  destruct (left_out main interactive r); [now apply IH|]. destruct (fill_layers_succeeds r e alt_dirs He) with (mr := mr) as [m1 ->]; [apply incl_refl|]. now apply IH.
Qed.
End S.

Section T.
Variable fetch : fields -> option json.
Variable repos : fields.
Hypothesis Io : in_order fetch repos.

Lemma in_order_ends r : chain_ends repos (JStr r).
Proof.
  destruct (in_dec string_dec r (keys repos)) as [I|N].
  - destruct (io_described _ _ Io r I) as (e & d & root & _ & D & _). unfold described in D. revert D. generalize (JStr r). intros j D.
    induction D as [x X|x e' y z He Hy D IH]; [now apply ce_end|eapply ce_on; eauto].
  - apply ce_break. intros e He. apply N. unfold has_entry in He. eapply alookup_keys; eauto.
Qed.
Lemma target_succeeds r : exists o, target_repo_if_precomputed repos r = Done o.
Proof.
  unfold target_repo_if_precomputed. destruct (target_repo (S (S (length repos))) repos (JStr r)) as [o| | |] eqn:E; [eauto| | |].
  - exfalso. revert E. generalize (JStr r). generalize (S (S (length repos))). induction n as [|n IH]; intros j; cbn [target_repo]; [discriminate|].
    destruct j; try (destruct (parse_precomputed _); discriminate). destruct (get repos s); try discriminate. apply IH.
  - exfalso. assert (forall n j, (exists d root, leads repos j d /\ root_for fetch d root) -> target_repo n repos j <> Thrown) as W.
    { induction n as [|n IH]; intros j (d & root & Ld & Rf); cbn [target_repo]; [discriminate|]. inversion Ld as [x X|x e d0 d1 He Hd L']; subst.
      - destruct (root_parsed _ _ _ Rf) as [(d' & ty & -> & T & M & F)|[p P]].
        + cbn [parse_precomputed]. rewrite (get_some _ _ _ T). destruct (String.eqb_spec ty "computed") as [->|]; [discriminate M|].
          destruct (String.eqb_spec ty "tree structure") as [->|]; [discriminate M|]. discriminate.
        + rewrite P. destruct d; discriminate.
      - rewrite (get_some _ _ _ He), (get_some _ _ _ Hd). apply IH. eauto. }
    destruct (in_dec string_dec r (keys repos)) as [I|N].
    + destruct (io_described _ _ Io r I) as (e & d & root & _ & D & Rf). apply (W _ (JStr r)) in E; [exact E|eauto].
    + apply alookup_None in N. cbn [target_repo] in E. unfold get in E. rewrite N in E. discriminate.
  - exfalso. apply (target_repo_ends repos (JStr r)); [apply in_order_ends|exact E].
Qed.
Lemma layer_targets_succeed ls : exists t, layer_targets repos ls = Done t.
Proof.
  induction ls as [|l ls [t IH]]; cbn [layer_targets]; [eauto|]. destruct (target_succeeds l) as [o ->]. rewrite IH. eauto.
Qed.
Lemma process_succeeds r : exists x, process repos r = Done x.
Proof.
  unfold process. destruct (target_succeeds r) as [o T]. destruct (in_dec string_dec r (keys repos)) as [I|N].
  - destruct (io_described _ _ Io r I) as (e & _ & _ & He & _). rewrite (get_some _ _ _ He), T.
    destruct (layer_targets_succeed (layer_names e)) as [t ->]. eauto.
  - apply alookup_None in N. unfold get. rewrite N. eauto.
Qed.
Lemma reach_loop_succeeds n : forall queue include setup, reach_loop n repos queue include setup <> Failed /\ reach_loop n repos queue include setup <> Thrown.
Proof.
  induction n as [|n IH]; intros [|q queue] include setup; cbn [reach_loop]; try (split; discriminate).
  destruct (mem q include); [apply IH|]. destruct (process_succeeds q) as [[push ls] ->]. apply IH.
Qed.
Lemma reachable_succeeds m : exists x, reachable_repositories repos m = Done x.
Proof.
  pose proof (reach_rounds repos m in_order_ends) as E. unfold reachable_repositories in *.
  destruct (reach_loop_succeeds (reach_bound repos) [m] [] []) as [A B]. destruct (reach_loop (reach_bound repos) repos [m] [] []) as [[i s]| | |]; [eauto|congruence..].
Qed.
Lemma reaches_key m r : In m (keys repos) -> reaches repos m r -> In r (keys repos).
Proof.
  intros I. induction 1 as [|r r' X IH N]; [exact I|]. inversion N; subst.
  - eapply io_bound; eauto.
  - eapply io_computed; eauto. exists d. auto.
  - match goal with H : has_layer _ _ |- _ => destruct H as (k & J & El) end.
    match goal with H : has_entry _ r _ |- _ => destruct (io_layers _ _ Io _ _ _ H J) as [[Z|Z]|(l' & Z & Il)]; [congruence|congruence|] end.
    assert (l' = l) as -> by congruence. eapply io_computed; eauto. exists d. auto.
Qed.
Lemma layer_key r e l : has_entry repos r e -> has_layer e l -> In l (keys repos).
Proof.
  intros He (k & J & El). destruct (io_layers _ _ Io _ _ _ He J) as [[Z|Z]|(l' & Z & Il)]; [congruence|congruence|]. assert (l' = l) as -> by congruence. exact Il.
Qed.

Lemma setup_succeeds order_setup order_include args conf m : enumerates order_setup -> enumerates order_include ->
  alookup "repositories" conf = Some (JObj repos) -> is_main args conf repos m -> (a_main args = None -> not_given conf "main" \/ exists s, alookup "main" conf = Some (JStr s)) ->
  In m (keys repos) -> exists c, mr_setup fetch order_setup order_include args conf = Done c.
Proof.
  intros Hs Hi R M Wm Im. unfold mr_setup. rewrite (get_some _ _ _ R).
  assert (exists given, explicit_main args conf = Done given) as [given G].
  { unfold explicit_main. destruct (a_main args); [eauto|]. destruct (Wm eq_refl) as [N|[s N]]; [rewrite (proj2 (get_null _ _) N)|rewrite (get_some _ _ _ N)]; eauto. }
  rewrite G, (proj2 (main_chosen _ _ repos _ m G) M).
  assert (exists include setup, (if a_all args then Done (keys repos, keys repos) else match reachable_repositories repos m with Done (i, s) => Done (order_include i, order_setup s)
           | Failed => Failed | Thrown => Thrown | Endless => Endless end) = Done (include, setup)
     /\ incl include (keys repos) /\ incl setup (keys repos)) as (include & setup & E & I1 & I2).
  { destruct (a_all args); [exists (keys repos), (keys repos); repeat split; apply incl_refl|].
    destruct (reachable_succeeds m) as [[i s] Q]. rewrite Q. exists (order_include i), (order_setup s).
    destruct (reachable_spec _ _ _ _ Q) as [A B]. repeat split; intros x X.
    - apply (Hi i x) in X. apply A in X. eapply reaches_key; eauto.
    - apply (Hs s x) in X. apply B in X as [X|(y & e & Y & He & X)]; [eapply reaches_key; eauto|eapply layer_key; eauto]. }
  rewrite E. destruct (setup_all_succeeds fetch repos (Some m) (a_interactive args) Io setup I2) as [vs ->].
  unfold assemble. destruct (fill_repos_succeeds fetch repos (Some m) (a_interactive args) Io include I1 (fold_left (fun acc p => ainsert (fst p) (snd p) acc) vs [])) as [mr ->]. eauto.
Qed.
End T.
