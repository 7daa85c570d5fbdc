(** The identifiers of the actions of analysed targets are computed from all they consist of. *)
From Coq Require Import String Ascii List Bool Arith Lia.
From Verif Require Import Common.Strs LinkedMap.Model Path.Model Expr.Json Expr.Model Describe.Model.
From Verif Require Import Analysis.Stage Analysis.Model Analysis.Spec Analysis.HonestSpec Analysis.Honest Analysis.Proofs Analysis.Taint Analysis.ActionIdProps Analysis.Buildable.
Import ListNotations.
Local Open Scope string_scope.
Local Open Scope list_scope.
Local Open Scope nat_scope.

Section World.
Variable W : world.
Definition created (x : raction) : Prop := exists d, x = create (w_ndump W) (w_hash W) (w_ftext W) d.

Lemma string_map_texts v m : string_map v = Some m -> texts (string_entries m) = m.
Proof.
  unfold string_map. destruct v as [| | | | | | | | |n]; try discriminate. destruct (forallb _ n) eqn:F; [|discriminate]. intros X. injection X as <-.
  rewrite forallb_forall in F. unfold texts, string_entries. rewrite map_map. rewrite <- (map_id n) at 2. apply map_ext_in.
  intros [k e] H. specialize (F _ H). cbn in F |- *. destruct e; try discriminate. reflexivity.
Qed.
Lemma artifacts_arts m : artifacts_only m -> arts (map (fun p => (fst p, artifact_of (snd p))) m) = m.
Proof.
  intros A. unfold arts. rewrite map_map. rewrite <- (map_id m) at 2. apply map_ext_in. intros [k e] H. destruct (A _ H) as [j E].
  cbn in E |- *. now subst e.
Qed.
Lemma created_by outs ods cmd cwd ev mf nc tmo props m v v' : string_map v = Some ev -> string_map v' = Some props -> artifacts_only m ->
  created (createAction (w_ndump W) (w_hash W) (w_ftext W) outs ods cmd cwd ev mf nc tmo props m).
Proof.
  intros E P A. exists (mkDescribed outs ods cmd cwd (string_entries ev) mf nc tmo (string_entries props) (map (fun p => (fst p, artifact_of (snd p))) m)).
  unfold create. cbn [d_outs d_dirs d_command d_cwd d_env d_may_fail d_no_cache d_timeout d_props d_inputs].
  now rewrite (string_map_texts _ _ E), (string_map_texts _ _ P), (artifacts_arts _ A).
Qed.

Lemma add_dir_only cwd m f nt : artifacts_only m -> add_dir_for (w_ndump W) (w_hash W) cwd m = (f, nt) -> artifacts_only f.
Proof.
  intros A. unfold add_dir_for. destruct (_ || _); [intros X; now injection X as <- _|]. destruct (existsb _ m); [intros X; now injection X as <- _|].
  intros X. injection X as <- _. intros e H. apply In_ainsert in H as [->|H]; [eexists; reflexivity|auto].
Qed.
Lemma checked_only v n : checked_stage W v = Some n -> artifacts_only n.
Proof.
  intros H. unfold checked_stage in H. destruct v as [| | | | | | | | |m]; try discriminate. destruct (all_artifacts m) eqn:Ea; [|discriminate].
  destruct (artifacts_tree (eqe W) m) as [|n'] eqn:Et; [discriminate|]. destruct (tree_conflict n'); [discriminate|]. injection H as <-.
  apply all_artifacts_only in Ea. intros e He. destruct (artifacts_tree_from _ _ _ _ Et e He) as [[]|(e' & Hin & E)]. rewrite E. auto.
Qed.

Lemma do_action_created rt g e x e' : do_action W rt g e = Some (x, e') ->
  exists a, e_actions e' = e_actions e ++ [a] /\ created a.
Proof.
  unfold do_action. intros X. apply bind_some in X as (inputs & Ei & X). apply checked_only in Ei.
  apply bind_some in X as (outs & _ & X). apply bind_some in X as (ods & _ & X). apply bind_some in X as (? & _ & X). cbv zeta in X.
  apply bind_some in X as (? & _ & X). apply bind_some in X as (cmd & _ & X). apply bind_some in X as (? & _ & X).
  destruct (g_cwd g) as [| | |cwd| | | | | |]; try discriminate.
  apply bind_some in X as (? & _ & X).
  destruct (add_dir_for (w_ndump W) (w_hash W) cwd inputs) as [fi nt] eqn:Ed. apply (add_dir_only _ _ _ _ Ei) in Ed.
  apply bind_some in X as (env_m & Ee & X). apply bind_some in X as (mfl & _ & X). apply bind_some in X as (? & _ & X).
  apply bind_some in X as (mf & _ & X). apply bind_some in X as (ncl & _ & X). apply bind_some in X as (? & _ & X).
  apply bind_some in X as (tmo & _ & X). apply bind_some in X as (props & Ep & X).
  injection X as _ <-. eexists. split; [reflexivity|]. eapply created_by; eauto.
Qed.
Lemma handler_created rt params deps cl e x e' : main_functions W rt params deps cl e = Some (x, e') ->
  forall a, In a (e_actions e') -> In a (e_actions e) \/ created a.
Proof.
  intros H a Ha.
  destruct cl; cbn [main_functions] in H; try discriminate;
    try (match type of H with bind ?m _ = _ => destruct m end; cbn [bind] in H; [|discriminate];
         first [injection H as _ <-; auto | destruct provider; try discriminate; injection H as _ <-; auto]).
  - apply do_action_created in H as (a' & E & Hu). rewrite E in Ha. apply in_app_or in Ha as [Ha|[<-|[]]]; auto.
  - unfold do_blob in H. destruct data; try discriminate. cbn in H. injection H as _ <-. auto.
  - unfold do_blob in H. destruct data; try discriminate. destruct (guard _); cbn [bind] in H; [|discriminate]. injection H as _ <-. auto.
  - unfold do_tree in H. destruct (ExprToTree v); cbn [bind] in H; [|discriminate]. injection H as _ <-. auto.
  - unfold do_overlay in H. destruct v; try discriminate. destruct (expr_trees l); cbn [bind] in H; [|discriminate]. injection H as _ <-. auto.
Qed.
Lemma run_created rt params deps s : forall e v e', run (main_functions W rt params deps) s e = Some (v, e') ->
  forall a, In a (e_actions e') -> In a (e_actions e) \/ created a.
Proof.
  induction s as [v0| |cl k IH]; intros e v e' H a Ha; cbn [run] in H; try discriminate.
  - injection H as _ <-. auto.
  - destruct (main_functions W rt params deps cl e) as [[x e1]|] eqn:E; [|discriminate].
    destruct (IH x e1 v e' H a Ha) as [Ha'|Ha']; auto. eapply handler_created; eauto.
Qed.

Hypothesis HE : honest_evaluator W.
Hypothesis PD : plain_definitions W.
Hypothesis TW : typed_world W.

Theorem all_created k a x : analyses W k a -> plain_env (snd k) -> In x (an_actions a) -> created x.
Proof.
  intros H C. revert x. revert H C. revert k a.
  apply (clean_ind W HE PD (fun k a => forall x, In x (an_actions a) -> created x)).
  intros [t c] a CL _ H x Hx. unfold program_of in H.
  match type of H with runsP ?R _ _ => set (R0 := R) in H end.
  destruct (w_definition W t) as [|st|sts|nm tr|nm ch|r|r dd|ty vars deps nm data tn|dj vars deps nm tn|vars deps files dirs tn
    |vars deps outs od cmds cwd env_e sh tmo props tn|vars te ce tn|fl te fx|fl] eqn:Ed;
    try (now inversion H); try (apply rp_pdone in H; subst a; destruct Hx).
  - unfold source_tree in H. apply rp_req in H as (vs & _ & H). destruct (tree_entries vs []); [|inversion H].
    apply rp_pdone in H. subst a. destruct Hx.
  - unfold withRuleDefinition in H. cbv zeta in H.
    apply rp_bind in H as (? & _ & H). apply rp_bind in H as (? & _ & H). apply rp_bind in H as ([? ?] & _ & H).
    apply rp_req in H as (? & _ & H). apply rp_bind in H as ([? ?] & _ & H). apply rp_req in H as (? & _ & H).
    unfold withDependencies in H. cbv zeta in H. apply rp_bind in H as (tn & _ & H). apply rp_if in H as [[_ H]|[_ H]]; [|now inversion H].
    apply rp_bind in H as (? & _ & H). apply rp_bind in H as ([v e] & E & H).
    assert (Ha : an_actions a = e_actions e).
    { destruct v; try (now inversion H). destruct v1; try (now inversion H). destruct v2; try (now inversion H).
      destruct v3; now inversion H. }
    rewrite Ha in Hx.
    destruct (run_created _ _ _ _ _ _ _ E _ Hx) as [[]|Hs]. exact Hs.
  - exfalso. unfold blob_gen in H. apply rp_bind in H as (? & _ & H). apply rp_bind in H as (? & _ & H). apply rp_req in H as (? & _ & H).
    unfold blob_gen_with_deps in H. cbv zeta in H. apply rp_bind in H as (? & _ & H). apply rp_if in H as [[_ H]|[_ H]]; [|now inversion H].
    apply rp_bind in H as (nv & _ & H). destruct nv; try (now inversion H). apply rp_bind in H as (dv & _ & H). destruct dv; try (now inversion H).
    apply rp_if in H as [[_ H]|[_ H]]; [|now inversion H]. apply rp_pdone in H. subst a. destruct Hx.
  - exfalso. unfold tree_rule in H. apply rp_bind in H as (? & _ & H). apply rp_bind in H as (? & _ & H). apply rp_bind in H as (nv & _ & H).
    destruct nv; try (now inversion H). apply rp_req in H as (? & _ & H).
    unfold tree_with_deps in H. cbv zeta in H. apply rp_bind in H as (? & _ & H). apply rp_if in H as [[_ H]|[_ H]]; [|now inversion H].
    destruct dj; [apply rp_pdone in H; subst a; destruct Hx|]. apply rp_bind in H as (st & _ & H). destruct (tree_conflict st); [now inversion H|].
    apply rp_pdone in H. subst a. destruct Hx.
  - exfalso. unfold install_rule in H. cbv zeta in H. apply rp_bind in H as (? & _ & H). apply rp_bind in H as (? & _ & H).
    destruct files; try (now inversion H). apply rp_bind in H as (? & _ & H). apply rp_bind in H as (dv & _ & H). destruct dv; try (now inversion H).
    apply rp_bind in H as (? & _ & H). apply rp_req in H as (? & _ & H). unfold install_with_deps in H. cbv zeta in H.
    apply rp_bind in H as (? & _ & H). apply rp_if in H as [[_ H]|[_ H]]; [|now inversion H].
    do 4 apply rp_bind in H as (? & _ & H). apply rp_bind in H as (fin & _ & H). destruct (tree_conflict fin); [now inversion H|].
    apply rp_pdone in H. subst a. destruct Hx.
  - unfold generic_rule in H. destruct (evaluate W deps (Prune c vars)); [|now inversion H].
    apply rp_bind in H as (nms & _ & H). apply rp_req in H as (vs & Hv & H). unfold generic_with_deps in H. cbv zeta in H.
    apply rp_bind in H as (? & _ & H). apply rp_if in H as [[_ H]|[_ H]]; [|now inversion H].
    apply rp_bind in H as (ol & _ & H). apply rp_bind in H as (odl & _ & H). apply rp_bind in H as (? & _ & H). apply rp_bind in H as (? & _ & H).
    apply rp_bind in H as (? & _ & H). apply rp_bind in H as (wd & _ & H). destruct wd as [| | |wd| | | | | |]; try (now inversion H).
    apply rp_bind in H as (? & _ & H). apply rp_bind in H as (em & Ee & H). apply bind_some in Ee as (ev0 & _ & Ee).
    apply rp_bind in H as (shl & _ & H). apply rp_bind in H as (sc & _ & H). apply rp_bind in H as (pm & Ep & H). apply bind_some in Ep as (pv & _ & Ep).
    set (inputs := fold_left (fun m a => overwrite m (t_stage (an_result a))) vs _) in H.
    destruct (tree_conflict inputs); [now inversion H|].
    destruct (add_dir_for (w_ndump W) (w_hash W) wd inputs) as [final trees] eqn:Ead.
    match type of H with context [tree_conflict ?s] => destruct (tree_conflict s); [now inversion H|] end.
    apply rp_pdone in H. subst a. destruct Hx as [<-|[]]. eapply created_by; [exact Ee|exact Ep|]. eapply add_dir_only; [|exact Ead].
    assert (TY : forall v, In v vs -> artifacts_only (t_stage (an_result v)) /\ artifacts_only (t_runfiles (an_result v))).
    { intros v Iv. assert (exists d, analyses W d v /\ depends W (t, c) d v) as (d & A & D).
      { clear -Hv Iv. induction Hv as [|d v' ds vs' (A & D & _) F IH]; [destruct Iv|]. destruct Iv as [<-|Iv]; eauto. }
      pose proof (all_good W HE PD TW d v A (requests_clean W HE PD _ _ _ CL D)) as [(G1 & G2 & _) _].
      split; eapply stage_typed; eauto. }
    assert (OV : forall (f : analysed -> items) l m, (forall v, In v l -> artifacts_only (f v)) -> artifacts_only m ->
      artifacts_only (fold_left (fun m a => overwrite m (f a)) l m)).
    { intros f l. induction l as [|v r IH]; intros m Hl Hm; cbn [fold_left]; auto. apply IH; [intros; apply Hl; now right|].
      intros e0 He. apply overwrite_from in He as [He|He]; [auto|]. exact (Hl v (or_introl eq_refl) e0 He). }
    subst inputs. apply OV; [intros v Iv; apply TY; exact Iv|]. apply OV; [intros v Iv; apply TY; exact Iv|]. intros e0 [].
  - exfalso. unfold configure_rule in H. cbv zeta in H. apply rp_bind in H as (? & _ & H). apply rp_bind in H as (? & _ & H).
    destruct ce; try (now inversion H). apply rp_bind in H as (tr & _ & H). destruct tr; try (now inversion H).
    apply rp_req in H as (vs & _ & H). destruct vs as [|v [|]]; try (now inversion H). apply rp_if in H as [[_ H]|[_ H]]; [|now inversion H].
    apply rp_pdone in H. subst a. destruct Hx.
  - assert (Hu' : forall ck, runsP R0 (export_uncached W fl te fx t (Prune c fl) ck) a -> False).
    { clear H. intros ck H. unfold export_uncached in H. apply rp_bind in H as (et & _ & H). destruct fx; try (now inversion H).
      apply rp_if in H as [[_ H]|[_ H]]; [now inversion H|]. apply rp_req in H as (vs & _ & H).
      destruct vs as [|v [|]]; try (now inversion H). unfold finalize_export in H.
      destruct (negb _); [now inversion H|]. destruct (negb _); [now inversion H|]. apply rp_pdone in H. subst a. destruct Hx. }
    unfold export_rule in H. cbv zeta in H. destruct (w_same_config W c (Prune c fl)).
    + destruct (w_cache_key W t (Prune c fl)); [|exfalso; eauto].
      destruct (w_served W s) as [| |[[r im]|]]; try (exfalso; eauto; fail); try (now inversion H). apply rp_pdone in H. subst a. destruct Hx.
    + apply rp_req in H as (vs & Hv & H). destruct vs as [|v [|]]; try (now inversion H). apply rp_pdone in H. subst a.
      inversion Hv as [|? ? ? ? (_ & _ & Q) _]; subst. exact (Q x Hx).
  - unfold absent_target in H. cbv zeta in H. destruct (w_same_config W c (Prune c fl)).
    + destruct (w_cache_key W t (Prune c fl)); [|now inversion H].
      destruct (w_served_absent W s) as [| |[[r im]|]]; try (now inversion H). apply rp_pdone in H. subst a. destruct Hx.
    + apply rp_req in H as (vs & Hv & H). destruct vs as [|v [|]]; try (now inversion H). apply rp_pdone in H. subst a.
      inversion Hv as [|? ? ? ? (_ & _ & Q) _]; subst. exact (Q x Hx).
Qed.

End World.
