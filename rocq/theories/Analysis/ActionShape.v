(** The actions of analysed targets have a command and outputs, each once. *)
From Coq Require Import String Ascii List Bool Arith Lia.
From Verif Require Import Common.Strs LinkedMap.Model LinkedMap.Spec LinkedMap.Proofs Path.Model.
From Verif Require Import Expr.Json Expr.Model Expr.OpsProofs Describe.Model.
From Verif Require Import Analysis.Stage Analysis.Model Analysis.Spec Analysis.Proofs Analysis.Taint.
Import ListNotations.
Local Open Scope string_scope.
Local Open Scope list_scope.
Local Open Scope nat_scope.

Definition shaped (x : raction) : Prop :=
  ra_command x <> [] /\ ra_outs x ++ ra_out_dirs x <> [] /\ NoDup (ra_outs x ++ ra_out_dirs x).

Lemma sorted_set_sorted l : sorted_keys (fold_left (fun m k => aemplace k tt m) l []).
Proof.
  assert (G : forall m : list (string * unit), sorted_keys m -> sorted_keys (fold_left (fun m k => aemplace k tt m) l m)).
  { induction l as [|x r IH]; intros m Hm; cbn [fold_left]; auto. apply IH. now apply aemplace_sorted. }
  apply G. constructor.
Qed.
Lemma sorted_set_nodup l : NoDup (sorted_set l).
Proof. unfold sorted_set. apply sorted_NoDup. apply sorted_set_sorted. Qed.
Lemma sorted_set_nil l : sorted_set l = [] -> l = [].
Proof. destruct l as [|x r]; auto. intros E. assert (H : In x (sorted_set (x :: r))) by (apply In_sorted_set; now left). rewrite E in H. destruct H. Qed.

Section World.
Variable W : world.
Lemma shaped_created ol odl cmd cwd ev mf nc tmo props m (u v : unit) : guard (negb (is_nil ol && is_nil odl)) = Some u ->
  guard (disjoint (sorted_set (map ToNormalPath ol)) (sorted_set (map ToNormalPath odl))) = Some v -> cmd <> [] ->
  shaped (createAction (w_ndump W) (w_hash W) (w_ftext W) (sorted_set (map ToNormalPath ol)) (sorted_set (map ToNormalPath odl)) cmd cwd ev mf nc tmo props m).
Proof.
  intros G1 G2 Hc. unfold shaped, createAction. cbn [ra_command ra_outs ra_out_dirs]. split; [exact Hc|]. split.
  - intros E. apply app_eq_nil in E as [E1 E2]. apply sorted_set_nil, map_eq_nil in E1. apply sorted_set_nil, map_eq_nil in E2. subst. discriminate.
  - unfold guard in G2. destruct (disjoint _ _) eqn:D; [|discriminate].
    assert (HD : forall x, In x (sorted_set (map ToNormalPath ol)) -> ~ In x (sorted_set (map ToNormalPath odl))).
    { intros x Hx Hy. unfold disjoint in D. rewrite forallb_forall in D. specialize (D x Hx). apply mem_In in Hy. now rewrite Hy in D. }
    revert HD. generalize (sorted_set_nodup (map ToNormalPath ol)) (sorted_set_nodup (map ToNormalPath odl)).
    generalize (sorted_set (map ToNormalPath ol)) (sorted_set (map ToNormalPath odl)). intros l l' Hl Hl' HD.
    induction l as [|x r IH]; cbn; auto. inversion Hl; subst. constructor.
    + intros H. apply in_app_or in H as [H|H]; [auto|]. apply (HD x); [now left|exact H].
    + apply IH; auto. intros y Hy. apply HD. now right.
Qed.

Lemma do_action_shaped rt g e x e' : do_action W rt g e = Some (x, e') ->
  exists a, e_actions e' = e_actions e ++ [a] /\ shaped a.
Proof.
  unfold do_action. intros H.
  destruct (checked_stage W (g_inputs g)); cbn [bind] in H; [|discriminate].
  destruct (strings (g_outs g)); cbn [bind] in H; [|discriminate].
  destruct (strings (g_out_dirs g)); cbn [bind] in H; [|discriminate].
  destruct (guard _) as [u1|] eqn:G1; cbn [bind] in H; [|discriminate]. cbv zeta in H.
  destruct (guard _) as [u2|] eqn:G2 in H; cbn [bind] in H; [|discriminate].
  destruct (strings (g_cmd g)) as [cmd|]; cbn [bind] in H; [|discriminate].
  destruct (guard (negb (is_nil cmd))) eqn:G3; cbn [bind] in H; [|discriminate].
  destruct (g_cwd g); try discriminate.
  destruct (guard _) in H; cbn [bind] in H; [|discriminate].
  destruct (add_dir_for _ _ _ _).
  destruct (string_map (g_env g)); cbn [bind] in H; [|discriminate].
  destruct (strings (g_may_fail g)) as [mf|]; cbn [bind] in H; [|discriminate].
  destruct (guard _) in H; cbn [bind] in H; [|discriminate].
  match type of H with match bind ?m _ with _ => _ end = _ => destruct m as [mfm|] | bind ?m _ = _ => destruct m as [mfm|] end; cbn [bind] in H; [|discriminate].
  destruct (strings (g_no_cache g)) as [nc|]; cbn [bind] in H; [|discriminate].
  destruct (guard _) in H; cbn [bind] in H; [|discriminate].
  match type of H with bind ?m _ = _ => destruct m as [tmo|] end; cbn [bind] in H; [|discriminate].
  match type of H with bind ?m _ = _ => destruct m as [pr|] end; cbn [bind] in H; [|discriminate].
  injection H as _ <-. eexists. split; [reflexivity|]. eapply shaped_created; eauto. intros ->. discriminate.
Qed.
Lemma handler_shaped rt params deps cl e x e' : main_functions W rt params deps cl e = Some (x, e') ->
  forall a, In a (e_actions e') -> In a (e_actions e) \/ shaped a.
Proof.
  intros H a Ha.
  destruct cl; cbn [main_functions] in H; try discriminate;
    try (match type of H with bind ?m _ = _ => destruct m end; cbn [bind] in H; [|discriminate];
         first [injection H as _ <-; auto | destruct provider; try discriminate; injection H as _ <-; auto]).
  - apply do_action_shaped in H as (a' & E & Hu). rewrite E in Ha. apply in_app_or in Ha as [Ha|[<-|[]]]; auto.
  - unfold do_blob in H. destruct data; try discriminate. cbn in H. injection H as _ <-. auto.
  - unfold do_blob in H. destruct data; try discriminate. destruct (guard _); cbn [bind] in H; [|discriminate]. injection H as _ <-. auto.
  - unfold do_tree in H. destruct (ExprToTree v); cbn [bind] in H; [|discriminate]. injection H as _ <-. auto.
  - unfold do_overlay in H. destruct v; try discriminate. destruct (expr_trees l); cbn [bind] in H; [|discriminate]. injection H as _ <-. auto.
Qed.
Lemma run_shaped rt params deps s : forall e v e', run (main_functions W rt params deps) s e = Some (v, e') ->
  forall a, In a (e_actions e') -> In a (e_actions e) \/ shaped a.
Proof.
  induction s as [v0| |cl k IH]; intros e v e' H a Ha; cbn [run] in H; try discriminate.
  - injection H as _ <-. auto.
  - destruct (main_functions W rt params deps cl e) as [[x e1]|] eqn:E; [|discriminate].
    destruct (IH x e1 v e' H a Ha) as [Ha'|Ha']; auto. eapply handler_shaped; eauto.
Qed.

Theorem all_shaped k a x : analyses W k a -> In x (an_actions a) -> shaped x.
Proof.
  intros H. revert x. revert H. revert k a.
  apply (analyses_ind' W (fun k a => forall x, In x (an_actions a) -> shaped x)).
  intros [t c] a H x Hx. unfold program_of in H.
  match type of H with runsP ?R _ _ => set (R0 := R) in H end.
  destruct (w_definition W t) as [|st|sts|nm tr|nm ch|r|r dd|ty vars deps nm data tn|dj vars deps nm tn|vars deps files dirs tn
    |vars deps outs od cmds cwd env_e sh tmo props tn|vars te ce tn|fl te fx|fl] eqn:Ed;
    try (now inversion H); try (apply rp_pdone in H; subst a; destruct Hx).
  - unfold source_tree in H. apply rp_req in H as (vs & _ & H). destruct (tree_entries vs []); [|inversion H].
    apply rp_pdone in H. subst a. destruct Hx.
  - unfold withRuleDefinition in H. cbv zeta in H.
    apply rp_bind in H as (? & _ & H). apply rp_bind in H as (? & _ & H). apply rp_bind in H as ([? ?] & _ & H).
    apply rp_req in H as (? & _ & H). apply rp_bind in H as ([? ?] & _ & H). apply rp_req in H as (? & _ & H).
    unfold withDependencies in H. cbv zeta in H. apply rp_bind in H as (tn & _ & H). apply rp_if in H as [[_ H]|[_ H]]; [|now inversion H].
    apply rp_bind in H as (? & _ & H). apply rp_bind in H as ([v e] & E & H).
    assert (Ha : an_actions a = e_actions e).
    { destruct v; try (now inversion H). destruct v1; try (now inversion H). destruct v2; try (now inversion H).
      destruct v3; now inversion H. }
    rewrite Ha in Hx.
    destruct (run_shaped _ _ _ _ _ _ _ E _ Hx) as [[]|Hs]. exact Hs.
  - exfalso. unfold blob_gen in H. apply rp_bind in H as (? & _ & H). apply rp_bind in H as (? & _ & H). apply rp_req in H as (? & _ & H).
    unfold blob_gen_with_deps in H. cbv zeta in H. apply rp_bind in H as (? & _ & H). apply rp_if in H as [[_ H]|[_ H]]; [|now inversion H].
    apply rp_bind in H as (nv & _ & H). destruct nv; try (now inversion H). apply rp_bind in H as (dv & _ & H). destruct dv; try (now inversion H).
    apply rp_if in H as [[_ H]|[_ H]]; [|now inversion H]. apply rp_pdone in H. subst a. destruct Hx.
  - exfalso. unfold tree_rule in H. apply rp_bind in H as (? & _ & H). apply rp_bind in H as (? & _ & H). apply rp_bind in H as (nv & _ & H).
    destruct nv; try (now inversion H). apply rp_req in H as (? & _ & H).
    unfold tree_with_deps in H. cbv zeta in H. apply rp_bind in H as (? & _ & H). apply rp_if in H as [[_ H]|[_ H]]; [|now inversion H].
    destruct dj; [apply rp_pdone in H; subst a; destruct Hx|]. apply rp_bind in H as (st & _ & H). destruct (tree_conflict st); [now inversion H|].
    apply rp_pdone in H. subst a. destruct Hx.
  - exfalso. unfold install_rule in H. cbv zeta in H. apply rp_bind in H as (? & _ & H). apply rp_bind in H as (? & _ & H).
    destruct files; try (now inversion H). apply rp_bind in H as (? & _ & H). apply rp_bind in H as (dv & _ & H). destruct dv; try (now inversion H).
    apply rp_bind in H as (? & _ & H). apply rp_req in H as (? & _ & H). unfold install_with_deps in H. cbv zeta in H.
    apply rp_bind in H as (? & _ & H). apply rp_if in H as [[_ H]|[_ H]]; [|now inversion H].
    do 4 apply rp_bind in H as (? & _ & H). apply rp_bind in H as (fin & _ & H). destruct (tree_conflict fin); [now inversion H|].
    apply rp_pdone in H. subst a. destruct Hx.
  - unfold generic_rule in H. destruct (evaluate W deps (Prune c vars)); [|now inversion H].
    apply rp_bind in H as (? & _ & H). apply rp_req in H as (? & _ & H). unfold generic_with_deps in H. cbv zeta in H.
    apply rp_bind in H as (? & _ & H). apply rp_if in H as [[_ H]|[_ H]]; [|now inversion H].
    apply rp_bind in H as (ol & _ & H). apply rp_bind in H as (odl & _ & H). apply rp_bind in H as (? & G1 & H). apply rp_bind in H as (? & G2 & H).
    apply rp_bind in H as (? & _ & H). apply rp_bind in H as (wd & _ & H). destruct wd; try (now inversion H).
    do 5 apply rp_bind in H as (? & _ & H).
    match type of H with runsP _ (match ?x with Some _ => _ | None => _ end) _ => destruct x end; [now inversion H|].
    match type of H with runsP _ (let '(_, _) := ?x in _) _ => destruct x end.
    match type of H with runsP _ (match ?x with Some _ => _ | None => _ end) _ => destruct x end; [now inversion H|].
    apply rp_pdone in H. subst a. destruct Hx as [<-|[]]. eapply shaped_created; [exact G1|exact G2|]. intros E. destruct (app_cons_not_nil _ _ _ (eq_sym E)).
  - exfalso. unfold configure_rule in H. cbv zeta in H. apply rp_bind in H as (? & _ & H). apply rp_bind in H as (? & _ & H).
    destruct ce; try (now inversion H). apply rp_bind in H as (tr & _ & H). destruct tr; try (now inversion H).
    apply rp_req in H as (vs & _ & H). destruct vs as [|v [|]]; try (now inversion H). apply rp_if in H as [[_ H]|[_ H]]; [|now inversion H].
    apply rp_pdone in H. subst a. destruct Hx.
  - assert (Hu' : forall ck, runsP R0 (export_uncached W fl te fx t (Prune c fl) ck) a -> False).
    { clear H. intros ck H. unfold export_uncached in H. apply rp_bind in H as (et & _ & H). destruct fx; try (now inversion H).
      apply rp_if in H as [[_ H]|[_ H]]; [now inversion H|]. apply rp_req in H as (vs & _ & H).
      destruct vs as [|v [|]]; try (now inversion H). unfold finalize_export in H.
      destruct (negb _); [now inversion H|]. destruct (negb _); [now inversion H|]. apply rp_pdone in H. subst a. destruct Hx. }
    unfold export_rule in H. cbv zeta in H. destruct (w_same_config W c (Prune c fl)).
    + destruct (w_cache_key W t (Prune c fl)); [|exfalso; eauto].
      destruct (w_served W s) as [| |[[r im]|]]; try (exfalso; eauto; fail); try (now inversion H). apply rp_pdone in H. subst a. destruct Hx.
    + apply rp_req in H as (vs & Hv & H). destruct vs as [|v [|]]; try (now inversion H). apply rp_pdone in H. subst a.
      inversion Hv; subst. apply (proj2 H2 x); auto.
  - unfold absent_target in H. cbv zeta in H. destruct (w_same_config W c (Prune c fl)).
    + destruct (w_cache_key W t (Prune c fl)); [|now inversion H].
      destruct (w_served_absent W s) as [| |[[r im]|]]; try (now inversion H). apply rp_pdone in H. subst a. destruct Hx.
    + apply rp_req in H as (vs & Hv & H). destruct vs as [|v [|]]; try (now inversion H). apply rp_pdone in H. subst a.
      inversion Hv; subst. apply (proj2 H2 x); auto.
Qed.

End World.
