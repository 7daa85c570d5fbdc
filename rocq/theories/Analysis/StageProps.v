(** C62: the stages of targets and the inputs of actions can be installed; no entry is lost.
    C64: the outputs of actions. *)
From Coq Require Import String Ascii List Bool Arith NArith Lia Sorted.
From Verif Require Import Common.Strs LinkedMap.Model Path.Model Path.Spec Path.Proofs Path.Proofs2 Expr.Json Expr.Model Describe.Model.
From Verif Require Import Analysis.Stage Analysis.Model Analysis.Spec Analysis.HonestSpec Analysis.Proofs Analysis.Taint Analysis.Crash Analysis.Examples.
From Verif Require Import Analysis.StageSpec Analysis.StageProofs Analysis.StageTargets Analysis.StageAll Analysis.StageExamples.
Import ListNotations.
Local Open Scope string_scope.
Local Open Scope list_scope.
Local Open Scope nat_scope.

(** ** C62 *)

(** RESULT: the stages of the result are tidy and say the same as those given ... *)
Theorem C62_result : forall W, faithful_equality W -> forall artifacts runfiles provides v,
  do_result W artifacts runfiles provides = Some v ->
  exists am rm pm a r c, artifacts = EMap am /\ runfiles = EMap rm /\ provides = EMap pm /\
    v = EResult (EMap a) (EMap pm) (EMap r) c /\ tidy a /\ tidy r /\ same_stage am a /\ same_stage rm r.
Proof.
  intros W FE ar rf pr v H. unfold do_result in H. apply bind_inv in H as (a & Ea & H). apply bind_inv in H as (r & Er & H).
  destruct pr as [| | | | | | | | |pm]; try discriminate. injection H as <-.
  apply checked_sound in Ea as (am & -> & _ & Ta & Sa); [|exact (fe_expr W FE)].
  apply checked_sound in Er as (rm & -> & _ & Tr & Sr); [|exact (fe_expr W FE)].
  exists am, rm, pm, a, r. eexists. repeat (split; [reflexivity|]). auto.
Qed.

(** ... and a result of maps of artifacts is refused only if they are contradictory or lead outside. *)
Theorem C62_result_complete : forall W, faithful_equality W -> (forall e, w_expr_eqb W e e = true) -> forall am rm pm,
  all_artifacts am = true -> all_artifacts rm = true -> consistent am -> consistent rm ->
  exists v, do_result W (EMap am) (EMap rm) (EMap pm) = Some v.
Proof.
  intros W FE R am rm pm Aa Ar Ca Cr. destruct (checked_complete W (fe_expr W FE) am R Aa Ca) as [a Ea].
  destruct (checked_complete W (fe_expr W FE) rm R Ar Cr) as [r Er].
  unfold do_result. rewrite Ea. cbn [bind]. rewrite Er. cbn [bind]. eauto.
Qed.

(** Conflicts are found exactly if there are any, for paths in normal form. *)
Theorem C62_conflict_detection : forall m, sorted_keys m -> (forall e, In e m -> ToNormalPath (fst e) = fst e) ->
  (tree_conflict m = None <-> installable m).
Proof. exact tree_conflict_spec. Qed.

(** All targets, if all names given in target files are in normal form and inside. *)
Theorem C62_all_targets_partial : forall W, faithful_equality W -> properly_named W -> forall k a, plain_env (snd k) -> analyses W k a ->
  installable (t_stage (an_result a)) /\ installable (t_runfiles (an_result a)) /\
  forall x, In x (an_actions a) -> ra_cwd x = "" \/ ToNormalPath (ra_cwd x) = ra_cwd x -> installable (ra_inputs x).
Proof.
  intros W FE PN k a Hc Ha. destruct (all_ok W FE PN k a Ha Hc) as [(T1 & T2 & _) A].
  split; [apply T1|]. split; [apply T2|]. intros x Hx. exact (A x Hx).
Qed.

(** Without this restriction it is false: the name of a generated file may lead outside, and "files" of an
    install target may name one place twice, with different contents. *)
Theorem C62_all_targets_refuted : exists W, faithful_equality W /\
  (exists k a, analyses W k a /\ exists e, In e (t_stage (an_result a)) /\ ~ inside (fst e)) /\
  (exists k a, analyses W k a /\ exists e e', In e (t_stage (an_result a)) /\ In e' (t_stage (an_result a)) /\
     place_of (fst e) = place_of (fst e') /\ snd e <> snd e').
Proof.
  exists odd_world. split; [apply with_definitions_faithful|]. split.
  - destruct (analyse odd_world 5 (JStr "up", Null)) as [a| | |] eqn:E; try (vm_compute in E; discriminate).
    exists (JStr "up", Null), a. split; [exact (analyse_sound _ _ _ _ E)|].
    assert (T : t_stage (an_result a) = [("../x", known odd_world File "")])
      by (vm_compute in E |- *; injection E as <-; reflexivity).
    rewrite T. eexists. split; [now left|]. intros [_ X]. vm_compute in X. discriminate.
  - destruct (analyse odd_world 5 (JStr "twice", Null)) as [a| | |] eqn:E; try (vm_compute in E; discriminate).
    exists (JStr "twice", Null), a. split; [exact (analyse_sound _ _ _ _ E)|].
    assert (T : t_stage (an_result a) = [("./x", known odd_world File "one"); ("x", known odd_world File "two")])
      by (vm_compute in E |- *; injection E as <-; reflexivity).
    rewrite T. do 2 eexists. split; [now left|]. split; [right; now left|]. split; [vm_compute; reflexivity|]. vm_compute. discriminate.
Qed.

(** TREE: for paths in normal form, a tree is made exactly if the entries can be installed, and then it has
    exactly these entries. *)
Lemma tree_content_lookup m : (forall e, In e m -> ToNormalPath (fst e) = fst e) -> forall acc, sorted_keys acc ->
  sorted_keys (fold_left (fun acc p => aemplace (ToNormalPath (fst p)) (artifact_of (snd p)) acc) m acc) /\
  forall k, alookup k (fold_left (fun acc p => aemplace (ToNormalPath (fst p)) (artifact_of (snd p)) acc) m acc) =
    match alookup k acc with Some x => Some x | None => alookup k (map (fun p => (fst p, artifact_of (snd p))) m) end.
Proof.
  induction m as [|[p x] r IH]; intros Hn acc Hs; cbn [fold_left map fst snd].
  - split; auto. intros k. cbn. now destruct (alookup k acc).
  - destruct (IH (fun e He => Hn e (or_intror He)) (aemplace (ToNormalPath p) (artifact_of x) acc)) as [A B]; [now apply aemplace_sorted|].
    split; [exact A|]. intros k. rewrite B, aemplace_lookup by auto. pose proof (Hn _ (or_introl eq_refl)) as Hp. cbn in Hp. rewrite Hp. cbn [alookup].
    destruct (alookup k acc); auto. destruct (String.eqb k p); auto.
Qed.
Lemma sorted_map {V X} (f : string * V -> X) (m : list (string * V)) : sorted_keys m -> sorted_keys (map (fun p => (fst p, f p)) m).
Proof.
  induction 1 as [|p r Hs IH Hf]; cbn; constructor; auto. apply Forall_forall. intros q Hq. apply in_map_iff in Hq as (z & <- & Hz).
  rewrite Forall_forall in Hf. exact (Hf z Hz).
Qed.
Theorem C62_tree_partial : forall m, sorted_keys m -> all_artifacts m = true -> (forall e, In e m -> ToNormalPath (fst e) = fst e) ->
  (installable m -> exists c, ExprToTree (EMap m) = Some c /\ forall p j, In (p, j) c <-> In (p, EArt j) m) /\
  (~ installable m -> ExprToTree (EMap m) = None).
Proof.
  intros m Hs Ha Hn. cbn [ExprToTree]. rewrite Ha. split.
  - intros Hi. apply tree_conflict_spec in Hi; auto. rewrite Hi. eexists. split; [reflexivity|].
    destruct (tree_content_lookup m Hn [] ltac:(constructor)) as [A B].
    assert (E : tree_content m = map (fun p => (fst p, artifact_of (snd p))) m)
      by (apply sorted_ext; [exact A|exact (sorted_map (fun p => artifact_of (snd p)) m Hs)|exact B]).
    rewrite E. intros p j. rewrite in_map_iff. split.
    + intros ([q x] & X & Hq). cbn in X. injection X as <- <-. assert (is_artifact x = true) by now apply (all_artifacts_In m _ Ha Hq).
      destruct x; try discriminate. exact Hq.
    + intros Hp. exists (p, EArt j). auto.
  - intros Hi. destruct (tree_conflict m) eqn:E; auto. destruct Hi. now apply tree_conflict_spec.
Qed.

(** TREE does not normalise paths before looking for conflicts, so in general one of two entries for the
    same place, spelt differently, is lost; there can be other entries beside one for the tree itself; and a path
    can lead outside. *)
Theorem C62_tree_refuted : forall x y, x <> y ->
  ExprToTree (EMap [("./a", EArt x); ("a", EArt y)]) = Some [("a", x)] /\
  ExprToTree (EMap [("", EArt x); ("a", EArt y)]) = Some [(".", x); ("a", y)] /\
  ExprToTree (EMap [("a/../../b", EArt x)]) = Some [("../b", x)].
Proof. intros x y N. repeat split; vm_compute; reflexivity. Qed.

(** The working directory of an action: the inputs as given, and if the directory (in normal form) is not
    there, an empty directory in its place. *)
Theorem C62_working_directory_partial : forall ndump H cwd m, tidy m -> cwd = "" \/ proper_path cwd ->
  let n := fst (add_dir_for ndump H cwd m) in
  tidy n /\ (forall e, In e m -> In e n) /\
  (forall e, In e n -> In e m \/
     (e = (cwd, EArt (art_ToJson (ATree (tree_id ndump H [])))) /\ forall e', In e' m -> unrelated (place_of cwd) (place_of (fst e')))) /\
  (place_of cwd = mkPlace 0 [] \/ exists e, In e n /\ ~ unrelated (place_of cwd) (place_of (fst e))).
Proof. intros ndump H cwd m Hm Hc n. destruct (add_dir_spec ndump H cwd m Hm Hc) as (n' & E & R). subst n. rewrite E. exact R. Qed.

(** For a working directory not in normal form, an empty directory can be added where there are inputs. *)
Theorem C62_working_directory_refuted : forall ndump H x, exists cwd m,
  PathIsNonUpwards cwd = true /\ tidy m /\ In ("b/c", EArt x) m /\
  exists e, In e (fst (add_dir_for ndump H cwd m)) /\ ~ In e m /\ at_or_below (place_of (fst e)) (place_of "b/c").
Proof.
  intros ndump H x. exists "b/", [("b/c", EArt x)]. split; [reflexivity|]. split; [apply tidy_one; [reflexivity|repeat split; reflexivity]|].
  split; [now left|]. exists ("b/", EArt (art_ToJson (ATree (tree_id ndump H [])))). split; [vm_compute; auto|].
  split; [intros [X|[]]; discriminate|]. vm_compute. split; [reflexivity|]. now exists ["c"].
Qed.

(** The hypotheses are met, and the conclusions are not empty. *)
Example C62_nonvacuous :
  faithful_equality stage_world /\ properly_named stage_world /\ plain_env on_x86 /\
  (exists a x, analyses stage_world (JStr "bin", on_x86) a /\ keys (t_stage (an_result a)) = ["out"] /\
     In x (an_actions a) /\ keys (ra_inputs x) = ["lib.c"; "work"] /\ ra_cwd x = "work") /\
  (forall x, consistent [("./a", EArt x); ("a", EArt x); ("b/c", EArt x)]) /\
  (forall x, tree_conflict [("a", EArt x); ("a/b", EArt x)] <> None).
Proof.
  split; [apply with_definitions_faithful|]. split; [exact stage_world_named|]. split; [now apply plain_flat|]. split; [|split].
  - destruct (analyse stage_world 5 (JStr "bin", on_x86)) as [a| | |] eqn:E; try (vm_compute in E; discriminate).
    assert (S : keys (t_stage (an_result a)) = ["out"] /\ map (fun x => (keys (ra_inputs x), ra_cwd x)) (an_actions a) = [(["lib.c"; "work"], "work")])
      by (vm_compute in E |- *; injection E as <-; vm_compute; auto).
    destruct S as [S1 S2]. destruct (an_actions a) as [|x [|]] eqn:Ex; try discriminate. exists a, x.
    split; [exact (analyse_sound _ _ _ _ E)|]. split; [exact S1|]. cbn in S2. injection S2 as -> ->. split; [rewrite Ex; now left|auto].
  - intros x. split.
    + intros e [<-|[<-|[<-|[]]]]; split; reflexivity.
    + assert (U : unrelated (place_of "a") (place_of "b/c")).
      { split; intros [_ [l E]]; cbn in E; destruct l as [|? [|? [|]]]; discriminate. }
      assert (U' : unrelated (place_of "b/c") (place_of "a")) by (destruct U; split; auto).
      intros e e' [<-|[<-|[<-|[]]]] [<-|[<-|[<-|[]]]]; first [left; split; reflexivity|right; exact U|right; exact U'].
  - intros x. vm_compute. discriminate.
Qed.

(** ** C64 *)

Definition declared (l : list string) (normal : list string) : Prop :=
  Sorted str_lt normal /\ forall p, In p normal <-> exists o, In o l /\ p = ToNormalPath o.

(** What the action is and what ACTION returns, by the arguments. *)
Record action_of (rt : list string) (g : action_args) (a : raction) (m : items) : Prop := {
  ao_lists : exists outs dirs, g_outs g = EList (map EStr outs) /\ g_out_dirs g = EList (map EStr dirs) /\
    (outs <> [] \/ dirs <> []) /\ declared outs (ra_outs a) /\ declared dirs (ra_out_dirs a) /\
    sorted_keys m /\ (forall o, In o (keys m) <-> In o outs \/ In o dirs);
  ao_inputs : exists im n, g_inputs g = EMap im /\ tidy n /\ same_stage im n /\
    forall p j, (In (p, EArt j) n -> In (p, j) (ra_inputs a)) /\ (In (p, j) (ra_inputs a) -> In (p, EArt j) n \/ p = ra_cwd a);
  ao_disjoint : forall p, In p (ra_outs a) -> In p (ra_out_dirs a) -> False;
  ao_artifacts : forall o v, In (o, v) m -> v = EArt (art_ToJson (AAction (ra_id a) (ToNormalPath o))) /\
    (In (ToNormalPath o) (ra_outs a) \/ In (ToNormalPath o) (ra_out_dirs a));
  ao_command : g_cmd g = EList (map EStr (ra_command a)) /\ ra_command a <> [];
  ao_cwd : g_cwd g = EStr (ra_cwd a) /\ PathIsNonUpwards (ra_cwd a) = true;
  ao_env : g_env g = EMap (map (fun p => (fst p, EStr (snd p))) (ra_env a));
  ao_may_fail : exists l, g_may_fail g = EList (map EStr l) /\ (forall x, In x l -> In x rt) /\
    match ra_may_fail a with None => l = [] | Some msg => l <> [] /\ g_fail_message g = EStr msg end;
  ao_no_cache : exists l, g_no_cache g = EList (map EStr l) /\ (forall x, In x l -> In x rt) /\ (ra_no_cache a = true <-> l <> []);
  ao_timeout : g_timeout g = ENum (ra_timeout a) \/ g_timeout g = ENone /\ ra_timeout a = one;
  ao_properties : g_properties g = EMap (map (fun p => (fst p, EStr (snd p))) (ra_properties a)) \/
    g_properties g = ENone /\ ra_properties a = []
}.

Lemma strings_spec v l : strings v = Some l -> v = EList (map EStr l).
Proof.
  unfold strings. destruct v as [| | | | | | | |vs|]; try discriminate. destruct (forallb _ vs) eqn:E; [|discriminate].
  intros X. injection X as <-. f_equal. rewrite map_map. rewrite <- (map_id vs) at 1. apply map_ext_in. intros x Hx.
  rewrite forallb_forall in E. specialize (E x Hx). now destruct x.
Qed.
Lemma string_map_spec v m : string_map v = Some m -> v = EMap (map (fun p => (fst p, EStr (snd p))) (string_entries m)).
Proof.
  unfold string_map. destruct v as [| | | | | | | | |vs]; try discriminate. destruct (forallb _ vs) eqn:E; [|discriminate].
  intros X. injection X as <-. f_equal. unfold string_entries. rewrite map_map. rewrite <- (map_id vs) at 1. apply map_ext_in. intros [k x] Hx.
  rewrite forallb_forall in E. specialize (E _ Hx). cbn in *. now destruct x.
Qed.
Lemma guard_inv b y : guard b = Some y -> b = true.
Proof. destruct b; [auto|discriminate]. Qed.

Lemma sorted_set_sorted l : Sorted str_lt (sorted_set l).
Proof.
  unfold sorted_set. assert (H : sorted_keys (fold_left (fun m k => aemplace k tt m) l [])).
  { assert (forall m, sorted_keys m -> sorted_keys (fold_left (fun m k => aemplace k tt m) l m)) as G.
    { induction l as [|x r IH]; intros m Hm; cbn; auto. apply IH. now apply aemplace_sorted. }
    apply G. constructor. }
  apply StronglySorted_Sorted. induction H as [|p r Hs IH Hf]; cbn; constructor; auto.
  apply Forall_forall. intros q Hq. apply in_map_iff in Hq as (z & <- & Hz). rewrite Forall_forall in Hf. exact (Hf z Hz).
Qed.
Lemma declared_set l : declared l (sorted_set (map ToNormalPath l)).
Proof.
  split; [apply sorted_set_sorted|]. intros p. rewrite In_sorted_set, in_map_iff. split; intros (o & A & B); exists o; auto.
Qed.
Lemma insert_all_spec names f : forall m, sorted_keys m ->
  sorted_keys (emap_insert_all names f m) /\
  (forall o, In o (keys (emap_insert_all names f m)) <-> In o (keys m) \/ In o names) /\
  (forall o v, In (o, v) (emap_insert_all names f m) -> In (o, v) m \/ (In o names /\ v = f o)).
Proof.
  unfold emap_insert_all. induction names as [|x r IH]; intros m Hs; cbn [fold_left].
  - split; [auto|]. split; [intros o; cbn; tauto|auto].
  - destruct (IH (aemplace x (f x) m)) as (A & B & C); [now apply aemplace_sorted|]. split; [exact A|]. split.
    + intros o. rewrite B.
      assert (K : In o (keys (aemplace x (f x) m)) <-> In o (keys m) \/ o = x).
      { pose proof (aemplace_lookup x (f x) m o Hs) as L. pose proof (alookup_None o (aemplace x (f x) m)) as N1.
        pose proof (alookup_None o m) as N2. destruct (alookup o m) as [w|] eqn:E.
        - rewrite L in N1. split; [|intros _].
          + intros _. left. apply alookup_In in E. apply in_map_iff. now exists (o, w).
          + apply alookup_In in L. apply in_map_iff. now exists (o, w).
        - destruct (String.eqb_spec o x) as [->|Nx].
          + split; auto. intros _. apply alookup_In in L. apply in_map_iff. now exists (x, f x).
          + rewrite L in N1. tauto. }
      rewrite K. cbn. intuition.
    + intros o v H. apply C in H as [H|[H ->]]; [|right; cbn; auto]. apply In_aemplace in H as [H|H]; auto.
      injection H as -> ->. right. cbn. auto.
Qed.

Lemma path_eqb_refl p : path_eqb p p = true.
Proof. unfold path_eqb. induction (elements p) as [|x r IH]; cbn; auto. now rewrite String.eqb_refl. Qed.
Lemma add_dir_entries nd H cwd m p v : sorted_keys m ->
  (In (p, v) m -> In (p, v) (fst (add_dir_for nd H cwd m))) /\ (In (p, v) (fst (add_dir_for nd H cwd m)) -> In (p, v) m \/ p = cwd).
Proof.
  intros Hs. unfold add_dir_for. destruct (String.eqb cwd "" || String.eqb cwd ".") eqn:E0; [cbn; auto|].
  destruct (existsb (add_dir_blocked cwd) m) eqn:E; [cbn; auto|]. cbn [fst]. split.
  - intros Hp. apply alookup_In. rewrite ainsert_lookup. destruct (String.eqb_spec p cwd) as [->|]; [|now apply sorted_alookup_In].
    exfalso. rewrite <- not_true_iff_false in E. apply E. apply existsb_exists. exists (cwd, v). split; [exact Hp|].
    unfold add_dir_blocked. cbn [fst]. assert (X : existsb (fun c => path_eqb c cwd) (self_and_parents cwd) = true).
    { unfold self_and_parents. cbn [ancestors]. destruct cwd; [discriminate|]. cbn [existsb]. now rewrite path_eqb_refl. }
    rewrite X. now rewrite !orb_true_r.
  - intros Hp. apply In_ainsert in Hp as [Hp|Hp]; [injection Hp as -> _|]; auto.
Qed.

(** ACTION adds one action, described by the arguments, and returns its outputs: for every declared output,
    under the name given, the artifact of its path. Failing and not caching are only allowed for taints of
    the rule. *)
Theorem C64_action : forall W, faithful_equality W -> forall rt g e r e', do_action W rt g e = Some (r, e') ->
  exists a m, r = Some (EMap m) /\ action_of rt g a m /\ e_actions e' = e_actions e ++ [a] /\
    e_blobs e' = e_blobs e /\ e_overlays e' = e_overlays e.
Proof.
  intros W FE rt g e r e' X. unfold do_action in X.
  apply bind_inv in X as (inputs & Ei & X). apply bind_inv in X as (outs & Eo & X). apply bind_inv in X as (ods & Ed & X).
  apply bind_inv in X as (? & En & X). apply guard_inv in En. cbv zeta in X.
  apply bind_inv in X as (? & Ej & X). apply guard_inv in Ej. apply bind_inv in X as (cmd & Ec & X).
  apply bind_inv in X as (? & Ec' & X). apply guard_inv in Ec'.
  destruct (g_cwd g) as [| | |cwd| | | | | |] eqn:Ew; try discriminate.
  apply bind_inv in X as (? & Eg & X). apply guard_inv in Eg.
  destruct (add_dir_for (w_ndump W) (w_hash W) cwd inputs) as [fi nt] eqn:Ead.
  apply bind_inv in X as (env_m & Ev & X). apply bind_inv in X as (mfl & Em & X). apply bind_inv in X as (? & Em' & X). apply guard_inv in Em'.
  apply bind_inv in X as (mf & Emf & X). apply bind_inv in X as (ncl & Enc & X). apply bind_inv in X as (? & Enc' & X). apply guard_inv in Enc'.
  apply bind_inv in X as (tmo & Et & X). apply bind_inv in X as (props & Ep & X).
  set (a := createAction _ _ _ _ _ _ _ _ _ _ _ _ _) in X. set (art := fun o => EArt (art_ToJson (AAction (ra_id a) (ToNormalPath o)))) in X.
  injection X as <- <-. exists a. eexists. split; [reflexivity|].
  assert (S0 : sorted_keys (@nil (string * expr))) by constructor.
  destruct (insert_all_spec outs art [] S0) as (S1 & K1 & V1). destruct (insert_all_spec ods art _ S1) as (S2 & K2 & V2).
  assert (MT : forall l, forallb (fun x => mem x rt) l = true -> forall x, In x l -> In x rt).
  { intros l Hl z Hz. rewrite forallb_forall in Hl. specialize (Hl z Hz). unfold mem in Hl. apply existsb_exists in Hl as (y & Hy & E).
    apply String.eqb_eq in E. now subst. }
  split; [|split; [reflexivity|split; reflexivity]]. constructor.
  - exists outs, ods. split; [now apply strings_spec|]. split; [now apply strings_spec|]. split.
    { destruct outs; [|left; discriminate]. destruct ods; [discriminate|right; discriminate]. }
    split; [apply declared_set|]. split; [apply declared_set|]. split; [exact S2|]. intros o. rewrite K2, K1. cbn. tauto.
  - apply checked_sound in Ei as (im & -> & _ & Ti & Si); [|exact (fe_expr W FE)]. exists im, inputs. split; [reflexivity|]. split; [exact Ti|].
    split; [exact Si|]. intros p j. cbn [a createAction ra_inputs ra_cwd].
    replace fi with (fst (add_dir_for (w_ndump W) (w_hash W) cwd inputs)) by now rewrite Ead.
    assert (Hs : sorted_keys inputs) by apply Ti. split.
    + intros Hp. apply in_map_iff. exists (p, EArt j). split; [reflexivity|]. now apply add_dir_entries.
    + intros Hp. apply in_map_iff in Hp as ([q v] & Eq & Hq). cbn in Eq. injection Eq as <- <-.
      apply add_dir_entries in Hq as [Hq|Hq]; auto. left. destruct Ti as (_ & Ta & _).
      pose proof (all_artifacts_In _ _ Ta Hq) as Hv. cbn in Hv. destruct v; try discriminate. exact Hq.
  - intros p H1 H2. cbn [a createAction ra_outs ra_out_dirs] in H1, H2. unfold disjoint in Ej. rewrite forallb_forall in Ej.
    specialize (Ej p H1). unfold mem in Ej. apply negb_true_iff in Ej. rewrite <- not_true_iff_false in Ej. apply Ej.
    apply existsb_exists. exists p. split; [exact H2|apply String.eqb_refl].
  - intros o v Hv. assert (H : (In o outs \/ In o ods) /\ v = art o).
    { apply V2 in Hv as [Hv|[Hv ->]]; [|auto]. apply V1 in Hv as [[]|[Hv ->]]. auto. }
    destruct H as [H ->]. split; [reflexivity|]. cbn [a createAction ra_outs ra_out_dirs]. rewrite !In_sorted_set, !in_map_iff.
    destruct H as [H|H]; [left|right]; eauto.
  - split; [now apply strings_spec|]. destruct cmd; [discriminate|]. cbn. discriminate.
  - auto.
  - cbn [a createAction ra_env]. now apply string_map_spec.
  - exists mfl. split; [now apply strings_spec|]. split; [now apply MT|]. cbn [a createAction ra_may_fail].
    destruct mfl as [|z l]; cbn in Emf; [injection Emf as <-; auto|].
    destruct (g_fail_message g); try discriminate. injection Emf as <-. split; [discriminate|auto].
  - exists ncl. split; [now apply strings_spec|]. split; [now apply MT|]. cbn [a createAction ra_no_cache].
    destruct ncl; cbn; split; congruence.
  - cbn [a createAction ra_timeout]. destruct (g_timeout g); try discriminate; injection Et as <-; auto.
  - cbn [a createAction ra_properties]. destruct (g_properties g) eqn:Eg'; try (left; now apply string_map_spec in Ep).
    right. cbn in Ep. injection Ep as <-. auto.
Qed.

(** Outputs are not required to be inside the working directory of the action. *)
Theorem C64_outputs_may_be_outside : exists W rt g e e' m a, faithful_equality W /\
  do_action W rt g e = Some (Some (EMap m), e') /\ e_actions e' = e_actions e ++ [a] /\ exists p, In p (ra_outs a) /\ ~ inside p.
Proof.
  set (g := mkArgs (EMap []) (EList [EStr "../x"]) (EList []) (EList [EStr "cc"]) (EStr "") (EMap []) (EList []) ENone (EList []) ENone ENone).
  destruct (do_action ex_world [] g no_effects) as [[r e']|] eqn:E; [|vm_compute in E; discriminate].
  destruct (C64_action ex_world ex_faithful _ _ _ _ _ E) as (a & m & -> & _ & Ea & _).
  exists ex_world, [], g, no_effects, e', m, a. split; [exact ex_faithful|]. split; [exact E|]. split; [exact Ea|].
  exists "../x". split.
  - cbn in Ea. assert (H : map ra_outs (e_actions e') = [["../x"]]) by (vm_compute in E |- *; injection E as _ <-; reflexivity).
    rewrite Ea in H. cbn in H. injection H as ->. now left.
  - intros [_ U]. vm_compute in U. discriminate.
Qed.

Example C64_nonvacuous : exists r e',
  do_action ex_world ["test"] (mkArgs (EMap []) (EList [EStr "./out"; EStr "a"]) (EList [EStr "d/"]) (EList [EStr "cc"]) (EStr "work") (EMap [])
    (EList [EStr "test"]) (EStr "may fail") (EList []) ENone ENone) no_effects = Some (Some (EMap r), e') /\
  keys r = ["./out"; "a"; "d/"] /\ map ra_outs (e_actions e') = [["a"; "out"]] /\ map ra_out_dirs (e_actions e') = [["d"]].
Proof. do 2 eexists. vm_compute. repeat split; reflexivity. Qed.

Print Assumptions C62_result.
Print Assumptions C62_result_complete.
Print Assumptions C62_conflict_detection.
Print Assumptions C62_all_targets_partial.
Print Assumptions C62_all_targets_refuted.
Print Assumptions C62_tree_partial.
Print Assumptions C62_tree_refuted.
Print Assumptions C62_working_directory_partial.
Print Assumptions C62_working_directory_refuted.
Print Assumptions C64_action.
Print Assumptions C64_outputs_may_be_outside.
