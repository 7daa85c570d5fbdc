(** Propagation of taints and of implied export targets; exports; absence of undefined behaviour. *)
From Coq Require Import String Ascii List Bool Arith Lia.
From Verif Require Import Common.Strs LinkedMap.Model LinkedMap.Spec LinkedMap.Proofs Path.Model.
From Verif Require Import Expr.Json Expr.Model Expr.OpsProofs Describe.Model.
From Verif Require Import Analysis.Stage Analysis.Model Analysis.Spec Analysis.Proofs.
Import ListNotations.
Local Open Scope string_scope.
Local Open Scope list_scope.
Local Open Scope nat_scope.

Lemma aemplace_keys {V} k (v : V) m x : In x (map fst (aemplace k v m)) <-> x = k \/ In x (map fst m).
Proof.
  induction m as [|[k' v'] r IH]; cbn. { intuition. }
  destruct (str_cmp_spec k k') as [E|E|E]; cbn; [subst|..]; rewrite ?IH; intuition.
Qed.
Lemma sorted_set_fold l : forall m x, In x (map fst (fold_left (fun m k => aemplace k tt m) l m)) <-> In x (map fst m) \/ In x l.
Proof.
  induction l as [|y r IH]; intros m x; cbn [fold_left]. { cbn. tauto. }
  rewrite IH, aemplace_keys. cbn [In]. intuition.
Qed.
Lemma In_sorted_set x l : In x (sorted_set l) <-> In x l.
Proof. unfold sorted_set. rewrite sorted_set_fold. cbn. tauto. Qed.
Lemma mem_In x l : mem x l = true <-> In x l.
Proof.
  unfold mem. rewrite existsb_exists. split.
  - intros [y [Hy E]]. apply String.eqb_eq in E as ->. auto.
  - intros H. exists x. split; auto. apply String.eqb_refl.
Qed.
Lemma taint_ok_incl tainted vs v : taint_ok tainted vs = true -> In v vs -> incl (an_tainted v) tainted.
Proof.
  unfold taint_ok. rewrite forallb_forall. intros H Hv x Hx. specialize (H v Hv). rewrite forallb_forall in H.
  apply mem_In. auto.
Qed.
Lemma implied_incl vs v : In v vs -> incl (an_implied v) (implied_of vs).
Proof. intros Hv x Hx. unfold implied_of. apply In_sorted_set. apply in_flat_map. eauto. Qed.

Section Deps.
Variable W : world.
Local Notation P := (analyses W).

Lemma both_bind {A} (x : option A) f a d v :
  runsP P (pbind x f) a -> requested W (pbind x f) d v -> exists y, x = Some y /\ runsP P (f y) a /\ requested W (f y) d v.
Proof. destruct x; cbn; intros H Q; [eauto|inversion H]. Qed.
Lemma both_if (b : bool) p q a d v : runsP P (if b then p else q) a -> requested W (if b then p else q) d v ->
  (b = true /\ runsP P p a /\ requested W p d v) \/ (b = false /\ runsP P q a /\ requested W q d v).
Proof. destruct b; auto. Qed.
Lemma both_req ks k a d v : runsP P (PRequest ks k) a -> requested W (PRequest ks k) d v ->
  exists vs, Forall2 P ks vs /\ runsP P (k vs) a /\ (In (d, v) (combine ks vs) \/ requested W (k vs) d v).
Proof.
  intros H Q. apply rp_req in H as (vs & Hv & H). exists vs. split; [auto|split; [auto|]].
  assert (Hu : forall vs', all_analyse W ks vs' -> vs' = vs).
  { intros vs' Hv'. apply all_Forall2 in Hv'. clear -Hv Hv'. revert vs Hv. induction Hv'; intros vs Hv; inversion Hv; subst; auto.
    f_equal; [eapply analyses_det; eauto|auto]. }
  inversion Q as [ks0 k0 vs0 d0 v0 Hall Hin|ks0 k0 vs0 d0 v0 Hall Hin]; subst; rewrite <- (Hu _ Hall); auto.
Qed.
Lemma done_req a d v : ~ requested W (PDone a) d v. Proof. inversion 1. Qed.

(** Sources. *)
Lemma source_plain t c a : is_source (w_definition W t) -> analyses W (t, c) a ->
  an_tainted a = [] /\ an_implied a = [] /\ an_actions a = [].
Proof.
  intros Hs H. apply analyses_inv in H. unfold program_of in H. destruct (w_definition W t) eqn:Ed; try contradiction.
  - now apply rp_pdone in H as ->.
  - now apply rp_pdone in H as ->.
  - unfold source_tree in H. apply rp_req in H as (vs & _ & H). destruct (tree_entries vs []); [|inversion H].
    now apply rp_pdone in H as ->.
Qed.

Hypothesis SC : source_children W.

(** What holds of a direct dependency: tainted at most as the dependent, and its implied export targets are
    implied, unless the dependent is an export target that is not eligible for caching. *)
Definition passed (k : key) (a v : analysed) : Prop :=
  incl (an_tainted v) (an_tainted a) /\ (ineligible W k \/ incl (an_implied v) (an_implied a)).

Ltac bind_both H Q y := apply both_bind with (1 := H) in Q; clear H; destruct Q as (y & _ & H & Q).
Ltac no_req Q := exfalso; revert Q; apply done_req.

Lemma in_vals {ks : list key} {vs : list analysed} {d v} : In (d, v) (combine ks vs) -> In v vs.
Proof. apply in_combine_r. Qed.

Lemma rule_passed t c r dd a d v :
  runsP P (withRuleDefinition W t c r dd) a -> requested W (withRuleDefinition W t c r dd) d v ->
  incl (an_tainted v) (an_tainted a) /\ incl (an_implied v) (an_implied a).
Proof.
  unfold withRuleDefinition. cbv zeta. intros H Q.
  bind_both H Q p0. bind_both H Q ts. bind_both H Q pd. destruct pd as [p1 declared].
  apply both_req with (1 := H) in Q as (vals & Hv & H0 & Q). clear H. rename H0 into H.
  assert (Hall : exists avals p3 n1 n2 tk, runsP P (withDependencies W t c r dd tk (vals ++ avals) n1 n2 p3) a /\ In v (vals ++ avals)).
  { destruct Q as [Q|Q].
    - apply rp_bind in H as ([p3 ak] & _ & H). apply rp_req in H as (avals & _ & H).
      exists avals. do 4 eexists. split; [exact H|]. apply in_or_app. left. now apply in_vals in Q.
    - bind_both H Q pk. destruct pk as [p3 ak]. apply both_req with (1 := H) in Q as (avals & _ & H0 & Q).
      exists avals. do 4 eexists. split; [exact H0|]. apply in_or_app. right.
      destruct Q as [Q|Q]; [now apply in_vals in Q|].
      unfold withDependencies in Q, H0. cbv zeta in Q, H0. bind_both H0 Q tn.
      apply both_if with (1 := H0) in Q as [[_ [H1 Q]]|[_ [H1 Q]]]; [|inversion Q].
      bind_both H1 Q q1. bind_both H1 Q ve. destruct ve as [vv ee].
      destruct vv; try (now inversion Q). destruct vv1; try (now inversion Q). destruct vv2; try (now inversion Q).
      destruct vv3; now inversion Q. }
  destruct Hall as (avals & p3 & n1 & n2 & tk & Hw & Hin). clear H Q.
  unfold withDependencies in Hw. cbv zeta in Hw. apply rp_bind in Hw as (tn & _ & Hw).
  apply rp_if in Hw as [[T Hw]|[_ Hw]]; [|inversion Hw].
  apply rp_bind in Hw as (? & _ & Hw). apply rp_bind in Hw as ([vv ee] & _ & Hw).
  assert (E : an_tainted a = sorted_set (tn ++ r_tainted r) /\ an_implied a = implied_of (vals ++ avals)).
  { destruct vv; try (now inversion Hw). destruct vv1; try (now inversion Hw). destruct vv2; try (now inversion Hw).
    destruct vv3; now inversion Hw. }
  destruct E as [-> ->]. split; [|now apply implied_incl].
  eapply taint_ok_incl; eauto.
Qed.

Lemma by_taint tainted a vals v :
  taint_ok tainted vals = true -> In v vals -> an_tainted a = sorted_set tainted -> an_implied a = implied_of vals ->
  incl (an_tainted v) (an_tainted a) /\ incl (an_implied v) (an_implied a).
Proof.
  intros T Hv -> ->. split; [|now apply implied_incl]. intros x Hx. apply In_sorted_set. eapply taint_ok_incl; eauto.
Qed.

Theorem passes k a d v : analyses W k a -> depends W k d v -> passed k a v.
Proof.
  intros H Q. apply analyses_inv in H. unfold depends in Q. destruct k as [t c].
  assert (Hx : incl (an_tainted v) (an_tainted a) /\ incl (an_implied v) (an_implied a) -> passed (t, c) a v).
  { intros [H1 H2]. split; auto. }
  unfold program_of in H, Q.
  destruct (w_definition W t) as [|st|sts|nm tr|nm ch|r|r dd|ty vars deps nm data tn|dj vars deps nm tn|vars deps files dirs tn
    |vars deps outs od cmds cwd env_e sh tmo props tn|vars te ce tn|fl te fx|fl] eqn:Ed; try (now inversion Q).
  - apply Hx. unfold source_tree in H, Q. apply both_req with (1 := H) in Q as (vs & Hv & H0 & Q).
    destruct (tree_entries vs []); [|inversion H0]. apply rp_pdone in H0. subst a.
    destruct Q as [Q|Q]; [|inversion Q]. cbn.
    assert (Hs : is_source (w_definition W (fst d)) /\ analyses W d v).
    { clear -SC Hv Q Ed. revert vs Hv Q.
      assert (Hc : forall ch0, In ch0 ch -> is_source (w_definition W ch0)) by eauto. clear Ed.
      induction ch as [|t0 r0 IH]; intros vs Hv Q; inversion Hv; subst; cbn in Q; [contradiction|].
      destruct Q as [E|Q]; [injection E as <- <-; cbn; split; auto; apply Hc; now left|].
      eapply IH; eauto. intros; apply Hc; now right. }
    destruct Hs as [Hs Hd]. destruct d as [dt dc]. destruct (source_plain dt dc v Hs Hd) as (-> & -> & _). split; apply incl_refl.
  - apply Hx. eapply rule_passed; eauto.
  - apply Hx. unfold blob_gen in H, Q. bind_both H Q v0. bind_both H Q nms. apply both_req with (1 := H) in Q as (vs & Hv & H2 & Q).
    unfold blob_gen_with_deps in H2, Q. cbv zeta in H2, Q.
    assert (Hin : In v vs).
    { destruct Q as [Q|Q]; [now apply in_vals in Q|]. exfalso. bind_both H2 Q tt0.
      apply both_if with (1 := H2) in Q as [[_ [H4 Q]]|[_ [H4 Q]]]; [|inversion Q].
      bind_both H4 Q x1. destruct x1; try (now inversion Q). bind_both H4 Q x2. destruct x2; try (now inversion Q).
      destruct ty; try (now inversion Q). destruct (PathIsNonUpwards s0); now inversion Q. }
    apply rp_bind in H2 as (tt0 & _ & H2). apply rp_if in H2 as [[T H2]|[_ H2]]; [|inversion H2].
    apply rp_bind in H2 as (x1 & _ & H2). destruct x1; try (now inversion H2). apply rp_bind in H2 as (x2 & _ & H2).
    destruct x2; try (now inversion H2). apply rp_if in H2 as [[_ H2]|[_ H2]]; [|inversion H2]. apply rp_pdone in H2.
    eapply by_taint; eauto; now rewrite H2.
  - apply Hx. unfold tree_rule in H, Q. bind_both H Q v0. bind_both H Q nms. bind_both H Q nv. destruct nv; try (now inversion H).
    apply both_req with (1 := H) in Q as (vs & Hv & H3 & Q). unfold tree_with_deps in H3, Q. cbv zeta in H3, Q.
    assert (Hin : In v vs).
    { destruct Q as [Q|Q]; [now apply in_vals in Q|]. exfalso. bind_both H3 Q tt0.
      apply both_if with (1 := H3) in Q as [[_ [H5 Q]]|[_ [H5 Q]]]; [|inversion Q].
      destruct dj; [now inversion Q|]. bind_both H5 Q x1. destruct (tree_conflict x1); now inversion Q. }
    apply rp_bind in H3 as (tt0 & _ & H3). apply rp_if in H3 as [[T H3]|[_ H3]]; [|inversion H3].
    destruct dj; [apply rp_pdone in H3; eapply by_taint; eauto; now rewrite H3|].
    apply rp_bind in H3 as (x1 & _ & H3). destruct (tree_conflict x1); [inversion H3|]. apply rp_pdone in H3.
    eapply by_taint; eauto; now rewrite H3.
  - apply Hx. unfold install_rule in H, Q. cbv zeta in H, Q. bind_both H Q v0. bind_both H Q nms. destruct files; try (now inversion H).
    bind_both H Q fl. bind_both H Q dv. destruct dv; try (now inversion H). bind_both H Q dl.
    apply both_req with (1 := H) in Q as (vs & Hv & H5 & Q). unfold install_with_deps in H5, Q. cbv zeta in H5, Q.
    assert (Hin : In v vs).
    { destruct Q as [Q|Q]; [now apply in_vals in Q|]. exfalso. bind_both H5 Q tt0.
      apply both_if with (1 := H5) in Q as [[_ [H7 Q]]|[_ [H7 Q]]]; [|inversion Q].
      bind_both H7 Q x1. bind_both H7 Q x2. bind_both H7 Q x3. bind_both H7 Q x4. bind_both H7 Q x5.
      destruct (tree_conflict x5); now inversion Q. }
    apply rp_bind in H5 as (tt0 & _ & H5). apply rp_if in H5 as [[T H5]|[_ H5]]; [|inversion H5].
    do 4 apply rp_bind in H5 as (? & _ & H5). apply rp_bind in H5 as (x5 & _ & H5). destruct (tree_conflict x5); [inversion H5|].
    apply rp_pdone in H5. eapply by_taint; eauto; now rewrite H5.
  - apply Hx. unfold generic_rule in H, Q. destruct (evaluate W deps (Prune c vars)); [|inversion H]. bind_both H Q nms.
    apply both_req with (1 := H) in Q as (vs & Hv & H1 & Q). unfold generic_with_deps in H1, Q. cbv zeta in H1, Q.
    assert (Hin : In v vs).
    { destruct Q as [Q|Q]; [now apply in_vals in Q|]. exfalso. bind_both H1 Q tt0.
      apply both_if with (1 := H1) in Q as [[_ [H3 Q]]|[_ [H3 Q]]]; [|inversion Q].
      bind_both H3 Q x1. bind_both H3 Q x2. bind_both H3 Q x3. bind_both H3 Q x4. bind_both H3 Q x5. bind_both H3 Q x6.
      destruct x6; try (now inversion Q).
      bind_both H3 Q x7. bind_both H3 Q x8. bind_both H3 Q x9. bind_both H3 Q x10. bind_both H3 Q x11.
      match type of Q with requested _ (match ?x with Some _ => _ | None => _ end) _ _ => destruct x end; [now inversion Q|].
      match type of Q with requested _ (let '(_, _) := ?x in _) _ _ => destruct x end.
      match type of Q with requested _ (match ?x with Some _ => _ | None => _ end) _ _ => destruct x end; now inversion Q. }
    apply rp_bind in H1 as (tt0 & _ & H1). apply rp_if in H1 as [[T H1]|[_ H1]]; [|inversion H1].
    do 5 apply rp_bind in H1 as (? & _ & H1). apply rp_bind in H1 as (wd & _ & H1). destruct wd; try (now inversion H1).
    do 5 apply rp_bind in H1 as (? & _ & H1).
    match type of H1 with runsP _ (match ?x with Some _ => _ | None => _ end) _ => destruct x end; [now inversion H1|].
    match type of H1 with runsP _ (let '(_, _) := ?x in _) _ => destruct x end.
    match type of H1 with runsP _ (match ?x with Some _ => _ | None => _ end) _ => destruct x end; [now inversion H1|].
    apply rp_pdone in H1. eapply by_taint; eauto; now rewrite H1.
  - apply Hx. unfold configure_rule in H, Q. cbv zeta in H, Q. bind_both H Q ct. bind_both H Q tt0. destruct ce; try (now inversion H).
    bind_both H Q tr. destruct tr; try (now inversion H). apply both_req with (1 := H) in Q as (vs & Hv & H3 & Q).
    destruct vs as [|v1 [|]]; try (now inversion H3).
    assert (v = v1) as ->.
    { destruct Q as [[E|[]]|Q]; [now injection E|]. exfalso. destruct (taint_ok tt0 [v1]); now inversion Q. }
    apply rp_if in H3 as [[T H3]|[_ H3]]; [|inversion H3]. apply rp_pdone in H3. rewrite H3. cbn. split; [|apply incl_refl].
    intros x Hi. apply In_sorted_set. eapply taint_ok_incl; eauto. now left.
  - assert (Hr : forall fl0, runsP P (PRequest [(t, Prune c fl0)] first_value) a -> requested W (PRequest [(t, Prune c fl0)] first_value) d v ->
      v = a).
    { intros fl0 H0 Q0. apply both_req with (1 := H0) in Q0 as (vs & _ & H1 & Q0). destruct vs as [|v1 [|]]; try (now inversion H1).
      apply rp_pdone in H1. subst. destruct Q0 as [[E|[]]|Q0]; [now injection E|inversion Q0]. }
    unfold export_rule in H, Q. cbv zeta in H, Q. destruct (w_same_config W c (Prune c fl)).
    2: { apply Hx. rewrite (Hr _ H Q). split; apply incl_refl. }
    assert (Hu : forall ck, runsP P (export_uncached W fl te fx t (Prune c fl) ck) a ->
       requested W (export_uncached W fl te fx t (Prune c fl) ck) d v ->
       an_tainted v = [] /\ (ck = None \/ incl (an_implied v) (an_implied a))).
    { clear H Q. intros ck H Q. unfold export_uncached in H, Q. bind_both H Q et. destruct fx; try (now inversion H).
      apply both_if with (1 := H) in Q as [[_ [H1 Q]]|[_ [H1 Q]]]; [inversion H1|].
      apply both_req with (1 := H1) in Q as (vs & _ & H2 & Q). destruct vs as [|v1 [|]]; try (now inversion H2).
      unfold finalize_export in H2, Q. destruct (an_tainted v1) eqn:Et; cbn [is_nil negb] in H2, Q; [|now inversion H2].
      destruct (IsCacheable _); cbn [negb] in H2, Q; [|now inversion H2]. 
      assert (v = v1) as ->. { destruct Q as [[E|[]]|Q]; [now injection E|inversion Q]. }
      split; auto. apply rp_pdone in H2. rewrite H2. cbn. destruct ck; [right|now left]. intros x Hi. apply In_sorted_set.
      apply in_or_app. now left. }
    assert (Hf : forall ck : option string, (ck = None -> w_cache_key W t (Prune c fl) = None) -> an_tainted v = [] /\ (ck = None \/ incl (an_implied v) (an_implied a)) -> passed (t, c) a v).
    { intros ck Hck [E1 E2]. split. { rewrite E1. intros x []. } destruct E2 as [->|E2]; [left|now right].
      exists fl, te, fx. cbn. split; auto. }
    destruct (w_cache_key W t (Prune c fl)) as [s|] eqn:Ek; [|apply (Hf None); auto].
    destruct (w_served W s) as [| |[[r im]|]]; try (now inversion Q); apply (Hf (Some s)); auto; discriminate.
  - assert (Hr : forall fl0, runsP P (PRequest [(t, Prune c fl0)] first_value) a -> requested W (PRequest [(t, Prune c fl0)] first_value) d v ->
      v = a).
    { intros fl0 H0 Q0. apply both_req with (1 := H0) in Q0 as (vs & _ & H1 & Q0). destruct vs as [|v1 [|]]; try (now inversion H1).
      apply rp_pdone in H1. subst. destruct Q0 as [[E|[]]|Q0]; [now injection E|inversion Q0]. }
    unfold absent_target in H, Q. cbv zeta in H, Q. destruct (w_same_config W c (Prune c fl)).
    2: { apply Hx. rewrite (Hr _ H Q). split; apply incl_refl. }
    destruct (w_cache_key W t (Prune c fl)); [|now inversion H]. destruct (w_served_absent W s) as [| |[[r im]|]]; now inversion Q.
Qed.

Lemma requested_analysed p d v : requested W p d v -> analyses W d v.
Proof.
  induction 1; auto. apply all_Forall2 in H. clear -H H0. revert vs H H0.
  induction ks as [|k0 r IH]; intros vs Hf Hi; inversion Hf; subst; cbn in Hi; [contradiction|].
  destruct Hi as [E|Hi]; [injection E as -> ->; auto|eauto].
Qed.

Theorem taint_reaches k d v : reaches W k d v -> forall a, analyses W k a -> incl (an_tainted v) (an_tainted a).
Proof.
  induction 1 as [k d v Hd|k d v d' v' Hd Hr IH]; intros a Ha.
  - exact (proj1 (passes k a d v Ha Hd)).
  - eapply incl_tran; [apply IH; eapply requested_analysed; exact Hd|]. exact (proj1 (passes k a d v Ha Hd)).
Qed.

Theorem implied_reaches k d v : (forall k', ~ ineligible W k') -> reaches W k d v ->
  forall a, analyses W k a -> incl (an_implied v) (an_implied a).
Proof.
  intros Hn. induction 1 as [k d v Hd|k d v d' v' Hd Hr IH]; intros a Ha.
  - destruct (passes k a d v Ha Hd) as [_ [Hi|Hi]]; auto. now apply Hn in Hi.
  - eapply incl_tran; [apply IH; eapply requested_analysed; exact Hd|].
    destruct (passes k a d v Ha Hd) as [_ [Hi|Hi]]; auto. now apply Hn in Hi.
Qed.

(** Actions. *)
Lemma do_action_tainted rt g e x e' : do_action W rt g e = Some (x, e') ->
  exists a, e_actions e' = e_actions e ++ [a] /\ (unreliable a -> exists s, In s rt).
Proof.
  unfold do_action. intros H.
  destruct (checked_stage W (g_inputs g)); cbn [bind] in H; [|discriminate].
  destruct (strings (g_outs g)); cbn [bind] in H; [|discriminate].
  destruct (strings (g_out_dirs g)); cbn [bind] in H; [|discriminate].
  destruct (guard _); cbn [bind] in H; [|discriminate]. cbv zeta in H.
  destruct (guard _); cbn [bind] in H; [|discriminate].
  destruct (strings (g_cmd g)); cbn [bind] in H; [|discriminate].
  destruct (guard _); cbn [bind] in H; [|discriminate].
  destruct (g_cwd g); try discriminate.
  destruct (guard _); cbn [bind] in H; [|discriminate].
  destruct (add_dir_for _ _ _ _).
  destruct (string_map (g_env g)); cbn [bind] in H; [|discriminate].
  destruct (strings (g_may_fail g)) as [mf|]; cbn [bind] in H; [|discriminate].
  destruct (guard (forallb (fun x => mem x rt) mf)) as [[]|] eqn:G1; cbn [bind] in H; [|discriminate].
  match type of H with match bind ?m _ with _ => _ end = _ => destruct m as [mfm|] eqn:G2 | bind ?m _ = _ => destruct m as [mfm|] eqn:G2 end; cbn [bind] in H; [|discriminate].
  destruct (strings (g_no_cache g)) as [nc|]; cbn [bind] in H; [|discriminate].
  destruct (guard (forallb (fun x => mem x rt) nc)) as [[]|] eqn:G3; cbn [bind] in H; [|discriminate].
  match type of H with bind ?m _ = _ => destruct m as [tmo|] end; cbn [bind] in H; [|discriminate].
  match type of H with bind ?m _ = _ => destruct m as [pr|] end; cbn [bind] in H; [|discriminate].
  injection H as _ <-. eexists. split; [reflexivity|]. unfold unreliable, createAction. cbn [ra_may_fail ra_no_cache].
  intros [Hu|Hu].
  - destruct mf as [|s0 mf]; cbn in G2; [injection G2 as <-; now destruct Hu|]. unfold guard in G1.
    destruct (forallb _ (s0 :: mf)) eqn:G; [|discriminate]. cbn in G. apply andb_prop in G as [G _]. apply mem_In in G. eauto.
  - destruct nc as [|s0 nc]; [discriminate|]. unfold guard in G3.
    destruct (forallb _ (s0 :: nc)) eqn:G; [|discriminate]. cbn in G. apply andb_prop in G as [G _]. apply mem_In in G. eauto.
Qed.

Lemma handler_actions rt params deps cl e x e' : main_functions W rt params deps cl e = Some (x, e') ->
  forall a, In a (e_actions e') -> In a (e_actions e) \/ (unreliable a -> exists s, In s rt).
Proof.
  intros H a Ha.
  destruct cl; cbn [main_functions] in H; try discriminate;
    try (match type of H with bind ?m _ = _ => destruct m end; cbn [bind] in H; [|discriminate];
         first [injection H as _ <-; auto | destruct provider; try discriminate; injection H as _ <-; auto]).
  - apply do_action_tainted in H as (a' & E & Hu). rewrite E in Ha. apply in_app_or in Ha as [Ha|[<-|[]]]; auto.
  - unfold do_blob in H. destruct data; try discriminate. cbn in H. injection H as _ <-. auto.
  - unfold do_blob in H. destruct data; try discriminate. destruct (guard _); cbn [bind] in H; [|discriminate]. injection H as _ <-. auto.
  - unfold do_tree in H. destruct (ExprToTree v); cbn [bind] in H; [|discriminate]. injection H as _ <-. auto.
  - unfold do_overlay in H. destruct v; try discriminate. destruct (expr_trees l); cbn [bind] in H; [|discriminate]. injection H as _ <-. auto.
Qed.
Lemma run_actions rt params deps s : forall e v e', run (main_functions W rt params deps) s e = Some (v, e') ->
  forall a, In a (e_actions e') -> In a (e_actions e) \/ (unreliable a -> exists s, In s rt).
Proof.
  induction s as [v0| |cl k IH]; intros e v e' H a Ha; cbn [run] in H; try discriminate.
  - injection H as _ <-. auto.
  - destruct (main_functions W rt params deps cl e) as [[x e1]|] eqn:E; [|discriminate].
    destruct (IH x e1 v e' H a Ha) as [Ha'|Ha']; auto. eapply handler_actions; eauto.
Qed.

Theorem unreliable_tainted k a x : analyses W k a -> In x (an_actions a) -> unreliable x -> exists s, In s (an_tainted a).
Proof.
  intros H. revert x. revert H. revert k a.
  apply (analyses_ind' W (fun k a => forall x, In x (an_actions a) -> unreliable x -> exists s, In s (an_tainted a))).
  intros [t c] a H x Hx Hu. unfold program_of in H.
  match type of H with runsP ?R _ _ => set (R0 := R) in H end.
  destruct (w_definition W t) as [|st|sts|nm tr|nm ch|r|r dd|ty vars deps nm data tn|dj vars deps nm tn|vars deps files dirs tn
    |vars deps outs od cmds cwd env_e sh tmo props tn|vars te ce tn|fl te fx|fl] eqn:Ed;
    try (now inversion H); try (apply rp_pdone in H; subst a; destruct Hx).
  - unfold source_tree in H. apply rp_req in H as (vs & _ & H). destruct (tree_entries vs []); [|inversion H].
    apply rp_pdone in H. subst a. destruct Hx.
  - unfold withRuleDefinition in H. cbv zeta in H.
    apply rp_bind in H as (? & _ & H). apply rp_bind in H as (? & _ & H). apply rp_bind in H as ([? ?] & _ & H).
    apply rp_req in H as (? & _ & H). apply rp_bind in H as ([? ?] & _ & H). apply rp_req in H as (? & _ & H).
    unfold withDependencies in H. cbv zeta in H. apply rp_bind in H as (tn & _ & H). apply rp_if in H as [[_ H]|[_ H]]; [|now inversion H].
    apply rp_bind in H as (? & _ & H). apply rp_bind in H as ([v e] & E & H).
    assert (Ha : an_actions a = e_actions e /\ an_tainted a = sorted_set (tn ++ r_tainted r)).
    { destruct v; try (now inversion H). destruct v1; try (now inversion H). destruct v2; try (now inversion H).
      destruct v3; now inversion H. }
    destruct Ha as [Ha ->]. rewrite Ha in Hx.
    destruct (run_actions _ _ _ _ _ _ _ E _ Hx) as [[]|Hs]. destruct (Hs Hu) as [s Hin].
    exists s. apply In_sorted_set. apply in_or_app. auto.
  - exfalso. unfold blob_gen in H. apply rp_bind in H as (? & _ & H). apply rp_bind in H as (? & _ & H). apply rp_req in H as (? & _ & H).
    unfold blob_gen_with_deps in H. cbv zeta in H. apply rp_bind in H as (? & _ & H). apply rp_if in H as [[_ H]|[_ H]]; [|now inversion H].
    apply rp_bind in H as (nv & _ & H). destruct nv; try (now inversion H). apply rp_bind in H as (dv & _ & H). destruct dv; try (now inversion H).
    apply rp_if in H as [[_ H]|[_ H]]; [|now inversion H]. apply rp_pdone in H. subst a. destruct Hx.
  - exfalso. unfold tree_rule in H. apply rp_bind in H as (? & _ & H). apply rp_bind in H as (? & _ & H). apply rp_bind in H as (nv & _ & H).
    destruct nv; try (now inversion H). apply rp_req in H as (? & _ & H).
    unfold tree_with_deps in H. cbv zeta in H. apply rp_bind in H as (? & _ & H). apply rp_if in H as [[_ H]|[_ H]]; [|now inversion H].
    destruct dj; [apply rp_pdone in H; subst a; destruct Hx|]. apply rp_bind in H as (st & _ & H). destruct (tree_conflict st); [now inversion H|].
    apply rp_pdone in H. subst a. destruct Hx.
  - exfalso. unfold install_rule in H. cbv zeta in H. apply rp_bind in H as (? & _ & H). apply rp_bind in H as (? & _ & H).
    destruct files; try (now inversion H). apply rp_bind in H as (? & _ & H). apply rp_bind in H as (dv & _ & H). destruct dv; try (now inversion H).
    apply rp_bind in H as (? & _ & H). apply rp_req in H as (? & _ & H). unfold install_with_deps in H. cbv zeta in H.
    apply rp_bind in H as (? & _ & H). apply rp_if in H as [[_ H]|[_ H]]; [|now inversion H].
    do 4 apply rp_bind in H as (? & _ & H). apply rp_bind in H as (fin & _ & H). destruct (tree_conflict fin); [now inversion H|].
    apply rp_pdone in H. subst a. destruct Hx.
  - exfalso. unfold generic_rule in H. destruct (evaluate W deps (Prune c vars)); [|now inversion H].
    apply rp_bind in H as (? & _ & H). apply rp_req in H as (? & _ & H). unfold generic_with_deps in H. cbv zeta in H.
    apply rp_bind in H as (? & _ & H). apply rp_if in H as [[_ H]|[_ H]]; [|now inversion H].
    do 5 apply rp_bind in H as (? & _ & H). apply rp_bind in H as (wd & _ & H). destruct wd; try (now inversion H).
    do 5 apply rp_bind in H as (? & _ & H).
    match type of H with runsP _ (match ?x with Some _ => _ | None => _ end) _ => destruct x end; [now inversion H|].
    match type of H with runsP _ (let '(_, _) := ?x in _) _ => destruct x end.
    match type of H with runsP _ (match ?x with Some _ => _ | None => _ end) _ => destruct x end; [now inversion H|].
    apply rp_pdone in H. subst a. destruct Hx as [<-|[]]. unfold unreliable, createAction in Hu. cbn in Hu.
    destruct Hu as [Hu|Hu]; [now apply Hu|discriminate].
  - exfalso. unfold configure_rule in H. cbv zeta in H. apply rp_bind in H as (? & _ & H). apply rp_bind in H as (? & _ & H).
    destruct ce; try (now inversion H). apply rp_bind in H as (tr & _ & H). destruct tr; try (now inversion H).
    apply rp_req in H as (vs & _ & H). destruct vs as [|v [|]]; try (now inversion H). apply rp_if in H as [[_ H]|[_ H]]; [|now inversion H].
    apply rp_pdone in H. subst a. destruct Hx.
  - assert (Hu' : forall ck, runsP R0 (export_uncached W fl te fx t (Prune c fl) ck) a -> False).
    { clear H. intros ck H. unfold export_uncached in H. apply rp_bind in H as (et & _ & H). destruct fx; try (now inversion H).
      apply rp_if in H as [[_ H]|[_ H]]; [now inversion H|]. apply rp_req in H as (vs & _ & H).
      destruct vs as [|v [|]]; try (now inversion H). unfold finalize_export in H.
      destruct (negb _); [now inversion H|]. destruct (negb _); [now inversion H|]. apply rp_pdone in H. subst a. destruct Hx. }
    unfold export_rule in H. cbv zeta in H. destruct (w_same_config W c (Prune c fl)).
    + destruct (w_cache_key W t (Prune c fl)); [|exfalso; eauto].
      destruct (w_served W s) as [| |[[r im]|]]; try (exfalso; eauto; fail); try (now inversion H). apply rp_pdone in H. subst a. destruct Hx.
    + apply rp_req in H as (vs & Hv & H). destruct vs as [|v [|]]; try (now inversion H). apply rp_pdone in H. subst a.
      inversion Hv; subst. apply (proj2 H2 x); auto.
  - unfold absent_target in H. cbv zeta in H. destruct (w_same_config W c (Prune c fl)).
    + destruct (w_cache_key W t (Prune c fl)); [|now inversion H].
      destruct (w_served_absent W s) as [| |[[r im]|]]; try (now inversion H). apply rp_pdone in H. subst a. destruct Hx.
    + apply rp_req in H as (vs & Hv & H). destruct vs as [|v [|]]; try (now inversion H). apply rp_pdone in H. subst a.
      inversion Hv; subst. apply (proj2 H2 x); auto.
Qed.

(** ** Export and configure targets *)
Hypothesis FE : faithful_equality W.

Theorem export_result t c a fl te fx :
  w_definition W t = DExport fl te fx -> analyses W (t, c) a ->
  an_tainted a = [] /\ an_vars a = fl /\ an_actions a = [] /\
  (not_served W (t, c) ->
   exists et m v, w_parse W t te = Some et /\ fx = EMap m /\
     (forall x, In x (map fst m) -> ~ In x fl) /\
     analyses W (et, update (Prune c fl) fx) v /\
     an_result a = an_result v /\ an_tainted v = [] /\ IsCacheable (EMap (t_provides (an_result v))) = true /\
     (forall s, export_key W (t, c) = Some s -> In s (an_implied a))).
Proof.
  intros Ed H. apply (export_restrict W FE t c fl a) in H; [|eauto].
  apply analyses_inv in H. unfold program_of in H. rewrite Ed in H. unfold export_rule in H. cbv zeta in H.
  rewrite !prune_prune in H by auto. rewrite (fe_config W FE) in H.
  unfold not_served, export_key. cbn [fst snd]. rewrite Ed.
  assert (Hu : forall ck, runsP P (export_uncached W fl te fx t (Prune c fl) ck) a -> an_tainted a = [] /\ an_vars a = fl /\ an_actions a = [] /\
    (exists et m v, w_parse W t te = Some et /\ fx = EMap m /\
     (forall x, In x (map fst m) -> ~ In x fl) /\
     analyses W (et, update (Prune c fl) fx) v /\
     an_result a = an_result v /\ an_tainted v = [] /\ IsCacheable (EMap (t_provides (an_result v))) = true /\
     (forall s, ck = Some s -> In s (an_implied a)))).
  { clear H. intros ck H. unfold export_uncached in H. apply rp_bind in H as (et & Et & H). destruct fx; try (now inversion H).
    apply rp_if in H as [[_ H]|[Ex H]]; [now inversion H|]. apply rp_req in H as (vs & Hv & H).
    destruct vs as [|v [|]]; try (now inversion H). unfold finalize_export in H.
    destruct (an_tainted v) eqn:Etn; cbn [is_nil negb] in H; [|now inversion H].
    destruct (IsCacheable _) eqn:Ec; cbn [negb] in H; [|now inversion H]. apply rp_pdone in H. subst a. cbn.
    split; auto. split; auto. split; auto. exists et, m, v. inversion Hv; subst.
    split; auto. split; auto. split; [|split; [auto|split; [auto|split; [auto|split; [auto|]]]]].
    - intros x Hx Hf. apply Bool.not_true_iff_false in Ex. apply Ex. apply existsb_exists.
      apply in_map_iff in Hx as [p [<- Hp]]. exists p. split; auto. unfold VariableFixed. rewrite prune_lookup.
      destruct (in_dec string_dec (fst p) fl); auto.
    - intros s ->. apply In_sorted_set. apply in_or_app. right. now left. }
  destruct (w_cache_key W t (Prune c fl)) as [s|] eqn:Ek.
  - destruct (w_served W s) as [| |[[r im]|]] eqn:Es.
    + destruct (Hu _ H) as (H1 & H2 & H3 & H4). auto.
    + inversion H.
    + apply rp_pdone in H. subst a. cbn. split; auto. split; auto. split; auto. contradiction.
    + destruct (Hu _ H) as (H1 & H2 & H3 & H4). auto.
  - destruct (Hu _ H) as (H1 & H2 & H3 & H4). auto.
Qed.

Theorem export_served t c a fl te fx s r im :
  w_definition W t = DExport fl te fx -> analyses W (t, c) a ->
  export_key W (t, c) = Some s -> w_served W s = SEntry (Some (r, im)) -> an_result a = r /\ an_implied a = im.
Proof.
  intros Ed H Ek Es. apply (export_restrict W FE t c fl a) in H; [|eauto].
  apply analyses_inv in H. unfold program_of in H. rewrite Ed in H. unfold export_rule in H. cbv zeta in H.
  rewrite !prune_prune in H by auto. rewrite (fe_config W FE) in H.
  unfold export_key in Ek. cbn [fst snd] in Ek. rewrite Ed in Ek. rewrite Ek, Es in H. now apply rp_pdone in H as ->.
Qed.

Theorem configure_result t c a vars te ce tn :
  w_definition W t = DConfigure vars te ce tn -> analyses W (t, c) a ->
  exists ct m v, (exists e, evaluate W te (Prune c vars) = Some e /\ w_parse W t e = Some ct) /\
    evaluate W ce (Prune c vars) = Some (EMap m) /\
    analyses W (ct, update c (EMap m)) v /\ an_result a = an_result v.
Proof.
  intros Ed H. apply analyses_inv in H. unfold program_of in H. rewrite Ed in H. unfold configure_rule in H. cbv zeta in H.
  apply rp_bind in H as (ct & E0 & H). apply rp_bind in H as (tt0 & _ & H).
  destruct ce; try (now inversion H). apply rp_bind in H as (tr & E1 & H). destruct tr; try (now inversion H).
  apply rp_req in H as (vs & Hv & H). destruct vs as [|v [|]]; try (now inversion H). apply rp_if in H as [[_ H]|[_ H]]; [|now inversion H].
  apply rp_pdone in H. subst a. cbn. exists ct, m0, v. inversion Hv; subst. split; [|auto].
  destruct (evaluate W te (Prune c vars)) as [e|]; cbn in E0; [eauto|discriminate].
Qed.

(** Nothing an export target was computed from can be unreliable. *)
Theorem export_reliable t c a fl te fx d v x :
  w_definition W t = DExport fl te fx -> analyses W (t, c) a -> reaches W (t, c) d v -> In x (an_actions v) -> ~ unreliable x.
Proof.
  intros Ed Ha Hr Hx Hu. destruct (export_result t c a fl te fx Ed Ha) as (E & _).
  assert (Hd : analyses W d v).
  { clear -Hr. induction Hr; auto. eapply requested_analysed; eauto. }
  destruct (unreliable_tainted d v x Hd Hx Hu) as [s Hs]. apply (taint_reaches _ _ _ Hr a Ha) in Hs. rewrite E in Hs. destruct Hs.
Qed.

Theorem export_keys_implied k a d v s : (forall k', ~ ineligible W k') -> (forall k', not_served W k') ->
  analyses W k a -> reaches W k d v -> export_key W d = Some s -> In s (an_implied a).
Proof.
  intros Hn Hs Ha Hr Hk. apply (implied_reaches k d v Hn Hr a Ha).
  assert (Hd : analyses W d v).
  { clear -Hr. induction Hr; auto. eapply requested_analysed; eauto. }
  destruct d as [t c]. unfold export_key in Hk. cbn [fst snd] in Hk. destruct (w_definition W t) eqn:Ed; try discriminate.
  destruct (export_result t c v _ _ _ Ed Hd) as (_ & _ & _ & He). destruct (He (Hs _)) as (et & m & w & _ & _ & _ & _ & _ & _ & _ & Hi).
  apply Hi. unfold export_key. cbn. now rewrite Ed.
Qed.
End Deps.
