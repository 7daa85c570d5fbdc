(** Induction over the analysis: the stages of all targets are tidy. *)
From Coq Require Import String Ascii List Bool Arith NArith Lia.
From Verif Require Import Common.Strs LinkedMap.Model Path.Model Path.Spec Path.Proofs Path.Proofs2 Expr.Json Expr.Model Describe.Model.
From Verif Require Import Analysis.Stage Analysis.Model Analysis.Spec Analysis.HonestSpec Analysis.Proofs Analysis.Honest Analysis.Taint.
From Verif Require Import Analysis.StageSpec Analysis.StageProofs Analysis.StageTargets.
Import ListNotations.
Local Open Scope string_scope.
Local Open Scope list_scope.
Local Open Scope nat_scope.

Local Notation AR := (all_results tidy_value).

Lemma AR_map m : AR (EMap m) <-> forall e, In e m -> AR (snd e).
Proof.
  induction m as [|[k v] r IH]; cbn [all_results]; [split; [intros _ e []|auto]|].
  change (AR v /\ AR (EMap r) <-> (forall e, In e ((k, v) :: r) -> AR (snd e))). rewrite IH. split.
  - intros [A B] e [<-|He]; auto.
  - intros A. split; [apply (A (k, v)); now left|]. intros e He. apply A. now right.
Qed.
Lemma AR_list l : AR (EList l) <-> forall e, In e l -> AR e.
Proof.
  induction l as [|v r IH]; cbn [all_results]; [split; [intros _ e []|auto]|].
  change (AR v /\ AR (EList r) <-> (forall e, In e (v :: r) -> AR e)). rewrite IH. split.
  - intros [A B] e [<-|He]; auto.
  - intros A. split; [apply A; now left|]. intros e He. apply A. now right.
Qed.
Lemma AR_artifact v : is_artifact v = true -> AR v.
Proof. now destruct v. Qed.
Lemma AR_stage m : all_artifacts m = true -> AR (EMap m).
Proof. intros H. apply AR_map. intros e He. apply AR_artifact. now apply (all_artifacts_In m). Qed.
Lemma strings_AR v l : strings v = Some l -> AR v.
Proof.
  unfold strings. destruct v as [| | | | | | | |vs|]; try discriminate. destruct (forallb _ vs) eqn:E; [|discriminate]. intros _.
  apply AR_list. intros e He. rewrite forallb_forall in E. specialize (E e He). now destruct e.
Qed.

(** An evaluation does not make up results: those it hands out are among those it was given. *)
Fixpoint makes_up_nothing (P : expr -> Prop) (s : script) : Prop :=
  match s with
  | SRet v => all_results P v
  | SErr => True
  | SCall c k =>
      match c with CResult _ _ p => all_results P p | _ => True end /\
      forall a : option expr, match a with Some v => all_results P v | None => True end -> makes_up_nothing P (k a)
  end.
Definition on_results (P : expr -> Prop) (x : expr) : Prop := match x with EResult _ _ _ _ => P x | _ => True end.
Lemma all_results_special P : forall e, all_results P e <-> forall x, special_in x e -> on_results P x.
Proof.
  fix IH 1. intros [ |b|n|s|t|j|s p r b|j b|l|m]; cbn [all_results special_in];
    try (split; [intros _ x []|auto]; fail).
  - split; [intros _ x ->; exact I|auto].
  - rewrite (IH s), (IH p), (IH r). split.
    + intros (A & B & C & D) x [->|[X|[X|X]]]; auto.
    + intros H. split; [exact (H (EResult s p r b) (or_introl eq_refl))|]. repeat split; intros x X; apply H; auto.
  - split; [intros _ x ->; exact I|auto].
  - induction l as [|y r IHr]; [split; [intros _ x []|auto]|]. rewrite (IH y), IHr. split.
    + intros [A B] x [X|X]; auto.
    + intros H. split; intros x X; apply H; auto.
  - induction m as [|[k y] r IHr]; [split; [intros _ x []|auto]|]. rewrite (IH y), IHr. split.
    + intros [A B] x [X|X]; auto.
    + intros H. split; intros x X; apply H; auto.
Qed.
Lemma honest_results P s : forall G, honest G s -> (forall x, G x -> on_results P x) -> makes_up_nothing P s.
Proof.
  induction s as [v| |c k IH]; intros G; cbn [honest makes_up_nothing]; [intros H HG; apply all_results_special; auto|auto|].
  intros [Hc Hk] HG. split.
  - destruct c; auto. cbn [call_within] in Hc. apply all_results_special. intros x Hx. apply HG, Hc. auto.
  - intros a Ha. eapply IH; [exact (Hk a)|]. cbn. intros x [Hx|Hx]; auto. destruct a as [v|]; [|destruct Hx].
    rewrite all_results_special in Ha. auto.
Qed.

Lemma bind_inv {A B} (x : option A) (f : A -> option B) y : bind x f = Some y -> exists z, x = Some z /\ f z = Some y.
Proof. destruct x; cbn; [eauto|discriminate]. Qed.

Definition inputs_ok (x : raction) : Prop :=
  ra_cwd x = "" \/ ToNormalPath (ra_cwd x) = ra_cwd x -> installable (ra_inputs x).

Lemma installable_map {V X} (f : V -> X) (m : list (string * V)) : installable m -> installable (map (fun p => (fst p, f (snd p))) m).
Proof.
  intros [A B]. split.
  - intros e He. apply in_map_iff in He as (p & <- & Hp). cbn. auto.
  - intros e e' He He' Hne. apply in_map_iff in He as (p & <- & Hp). apply in_map_iff in He' as (q & <- & Hq). cbn [fst].
    apply B; auto. intros ->. auto.
Qed.

Section Run.
Variable W : world.
Hypothesis FE : forall a b, w_expr_eqb W a b = true -> a = b.

Lemma created_ok outs od cmd cwd env mf nc tmo props m :
  tidy m -> PathIsNonUpwards cwd = true ->
  inputs_ok (createAction (w_ndump W) (w_hash W) (w_ftext W) outs od cmd cwd env mf nc tmo props (fst (add_dir_for (w_ndump W) (w_hash W) cwd m))).
Proof.
  intros Hm Hc. unfold inputs_ok, createAction. cbn [ra_cwd ra_inputs]. intros Hn. apply installable_map.
  destruct (add_dir_spec (w_ndump W) (w_hash W) cwd m Hm) as (n & En & (_ & _ & _ & Hi) & _).
  { destruct Hn as [->|Hn]; [now left|right]. apply nonupwards_up in Hc. split; [exact Hn|exact Hc]. }
  now rewrite En.
Qed.

Lemma emap_insert_spelt names f : (forall o, is_artifact (f o) = true) -> forall m,
  all_artifacts m = true -> all_artifacts (emap_insert_all names f m) = true.
Proof.
  intros Hf. unfold emap_insert_all. induction names as [|o r IH]; intros m Hm; cbn [fold_left]; auto. apply IH.
  apply forallb_forall. intros e He. apply In_aemplace in He as [->|He]; [apply Hf|now apply (all_artifacts_In m)].
Qed.

Variable rt : list string.
Variable params : list (string * expr).
Variable deps : list dep_entry.
Hypothesis HP : forall e, In e params -> AR (snd e).
Hypothesis HD : forall e, In e deps -> tidy_result (an_result (snd e)).

Lemma obtain_ok d tr a : obtainTarget W deps d tr = Some a -> tidy_result (an_result a).
Proof.
  unfold obtainTarget, find_dep. destruct d; try discriminate. match goal with |- context [find ?f deps] => destruct (find f deps) as [e|] eqn:E end; [|discriminate]. cbn.
  intros X. injection X as <-. apply find_some in E as [E _]. auto.
Qed.

Definition acts_ok (e : effects) : Prop := forall x, In x (e_actions e) -> inputs_ok x.

Lemma call_ok c e a e' :
  match c with CResult _ _ p => AR p | _ => True end -> acts_ok e -> main_functions W rt params deps c e = Some (a, e') ->
  match a with Some v => AR v | None => True end /\ acts_ok e'.
Proof.
  intros Hc He. unfold main_functions. destruct c as [name|d t|d t|d t|d t|d t p|g|d|d|v|dj v|v|nt sf tf|ar rf pr]; try discriminate.
  - unfold bind, field. destruct name; try discriminate. destruct (alookup s params) as [v|] eqn:E; [|discriminate].
    intros X. injection X as <- <-. split; auto. apply alookup_In in E. exact (HP _ E).
  - unfold bind. destruct (obtainTarget W deps d t) as [v|] eqn:E; [|discriminate]. intros X. injection X as <- <-. split; auto.
    apply obtain_ok in E as ((_ & A & _) & _). now apply AR_stage.
  - unfold bind. destruct (obtainTarget W deps d t) as [v|] eqn:E; [|discriminate]. intros X. injection X as <- <-. split; auto.
    apply obtain_ok in E as (_ & (_ & A & _) & _). now apply AR_stage.
  - unfold bind. destruct (obtainTarget W deps d t) as [v|] eqn:E; [|discriminate]. destruct p; try discriminate. intros X. injection X as <- <-.
    split; auto. apply obtain_ok in E as (_ & _ & A). destruct (alookup s (t_provides (an_result v))) as [x|] eqn:El; auto.
    apply alookup_In in El. rewrite AR_map in A. exact (A _ El).
  - unfold do_action. intros X. apply bind_inv in X as (inputs & Ei & X).
    apply checked_sound in Ei as (m & _ & _ & Ht & _); [|exact FE].
    apply bind_inv in X as (outs & _ & X). apply bind_inv in X as (ods & _ & X). apply bind_inv in X as (? & _ & X). cbv zeta in X.
    apply bind_inv in X as (? & _ & X). apply bind_inv in X as (cmd & _ & X). apply bind_inv in X as (? & _ & X).
    destruct (g_cwd g) as [| | |cwd| | | | | |]; try discriminate.
    apply bind_inv in X as (? & Eg & X).
    assert (Hcwd : PathIsNonUpwards cwd = true) by (destruct (PathIsNonUpwards cwd); [auto|discriminate]).
    destruct (add_dir_for (w_ndump W) (w_hash W) cwd inputs) as [fi nt] eqn:Ed.
    apply bind_inv in X as (env_m & _ & X). apply bind_inv in X as (mfl & _ & X). apply bind_inv in X as (? & _ & X).
    apply bind_inv in X as (mf & _ & X). apply bind_inv in X as (ncl & _ & X). apply bind_inv in X as (? & _ & X).
    apply bind_inv in X as (tmo & _ & X). apply bind_inv in X as (props & _ & X).
    injection X as <- <-. split.
    + apply AR_stage. apply emap_insert_spelt; [reflexivity|]. apply emap_insert_spelt; [reflexivity|reflexivity].
    + intros y Hx. cbn [e_actions] in Hx. apply in_app_or in Hx as [Hx|[<-|[]]]; [now apply He|].
      replace fi with (fst (add_dir_for (w_ndump W) (w_hash W) cwd inputs)) by now rewrite Ed. now apply created_ok.
  - unfold do_blob. destruct d; try discriminate. unfold bind. cbn [guard]. intros X. injection X as <- <-. split; [exact I|exact He].
  - unfold do_blob. destruct d; try discriminate. unfold bind. destruct (guard _); [|discriminate]. intros X. injection X as <- <-. split; [exact I|exact He].
  - unfold do_tree, bind. destruct (ExprToTree v); [|discriminate]. intros X. injection X as <- <-. split; [exact I|exact He].
  - unfold do_overlay, bind. destruct v; try discriminate. destruct (expr_trees l); [|discriminate]. intros X. injection X as <- <-. split; [exact I|exact He].
  - unfold do_node, bind. destruct (guard (is_result v)); [|discriminate]. intros X. injection X as <- <-. split; [exact I|exact He].
  - unfold do_node, bind. destruct nt; try discriminate. destruct sf; try discriminate. destruct tf; try discriminate.
    destruct (guard _); [|discriminate]. intros X. injection X as <- <-. split; [exact I|exact He].
  - unfold do_result, bind. destruct (checked_stage W ar) as [a1|] eqn:E1; [|discriminate].
    destruct (checked_stage W rf) as [r1|] eqn:E2; [|discriminate]. destruct pr as [| | | | | | | | |pm]; try discriminate.
    intros X. injection X as <- <-. split; auto.
    apply checked_sound in E1 as (? & _ & _ & T1 & _); [|exact FE]. apply checked_sound in E2 as (? & _ & _ & T2 & _); [|exact FE].
    unfold result_expr. cbn [t_stage t_provides t_runfiles]. cbn [all_results].
    split; [split; auto|]. split; [apply (AR_stage a1); apply T1|]. split; [exact Hc|]. apply (AR_stage r1). apply T2.
Qed.

Lemma run_ok s : forall e v e', makes_up_nothing tidy_value s -> acts_ok e ->
  run (main_functions W rt params deps) s e = Some (v, e') -> AR v /\ acts_ok e'.
Proof.
  induction s as [v0| |c k IH]; intros e v e' Hs He; cbn [run]; [|discriminate|].
  - intros X. injection X as <- <-. auto.
  - destruct Hs as [Hc Hk]. destruct (main_functions W rt params deps c e) as [[a e1]|] eqn:E; [|discriminate].
    destruct (call_ok c e a e1 Hc He E) as [Ha He1]. apply IH; auto.
Qed.
End Run.

(** ** All targets *)
Section All.
Variable W : world.
Hypothesis FE : faithful_equality W.
Hypothesis PN : properly_named W.

Definition target_ok (a : analysed) : Prop := tidy_result (an_result a) /\ forall x, In x (an_actions a) -> inputs_ok x.
Local Notation P := (fun d v => analyses W d v /\ target_ok v).

Lemma Forall2_right {A B} (R : A -> B -> Prop) (Q : B -> Prop) l m : (forall a b, R a b -> Q b) -> Forall2 R l m -> forall b, In b m -> Q b.
Proof. intros H. induction 1 as [|x y l m Hxy _ IH]; intros b []; subst; eauto. Qed.

Lemma vals_ok ks vs : Forall2 P ks vs -> forall v, In v vs -> tidy_result (an_result v).
Proof. intros H. apply (Forall2_right _ _ _ _ (fun _ _ X => proj1 (proj2 X)) H). Qed.

Lemma no_provides : AR (EMap []). Proof. exact I. Qed.
Lemma one_ok st : tidy st -> tidy_result (mkResult st [] st).
Proof. intros H. split; [auto|]. split; [auto|]. exact I. Qed.
Ltac no_actions := intros ? [].

Lemma eval_fields_AR ev ex ns : forall ps ps', (forall e, In e ps -> AR (snd e)) -> eval_fields ev ex ns ps = Some ps' -> forall e, In e ps' -> AR (snd e).
Proof.
  induction ns as [|n r IH]; intros ps ps' Hps; cbn [eval_fields]; [intros X; injection X as <-; auto|].
  unfold bind. destruct (ev (ex n)) as [v|]; [|discriminate]. destruct (strings v) eqn:E; [|discriminate].
  apply IH. intros e He. apply in_app_or in He as [He|[<-|[]]]; auto. cbn. eapply strings_AR; eauto.
Qed.
Lemma names_AR ns : AR (EList (map EName ns)).
Proof. apply AR_list. intros e He. apply in_map_iff in He as (n & <- & _). exact I. Qed.
Lemma target_fields_AR t d c ts fs : forall ps ks ps' ks', (forall e, In e ps -> AR (snd e)) ->
  target_fields W t d c ts fs ps ks = Some (ps', ks') -> forall e, In e ps' -> AR (snd e).
Proof.
  induction fs as [|f r IH]; intros ps ks ps' ks' Hps; cbn [target_fields]; [intros X; injection X as <- <-; auto|].
  unfold bind. destruct (evaluate W (td_target d f) c) as [v|]; [|discriminate]. destruct v; try discriminate.
  destruct (dep_names _ _ _ _) as [nms|]; [|discriminate]. apply IH. intros e He. apply in_app_or in He as [He|[<-|[]]]; auto. apply names_AR.
Qed.
Lemma anonymous_AR ts fs vs defs : forall ps ks ps' ks', (forall e, In e ps -> AR (snd e)) ->
  anonymous W ts fs vs defs ps ks = Some (ps', ks') -> forall e, In e ps' -> AR (snd e).
Proof.
  induction defs as [|[n def] r IH]; intros ps ks ps' ks' Hps; cbn [anonymous]; [intros X; injection X as <- <-; auto|].
  unfold bind. destruct (anon_names _ _ _ _) as [nms|]; [|discriminate]. apply IH. intros e He. apply in_app_or in He as [He|[<-|[]]]; auto. apply names_AR.
Qed.

Lemma rule_ok t c r d a : plain (r_expression r) -> plain_env c -> runsP P (withRuleDefinition W t c r d) a -> target_ok a.
Proof.
  unfold withRuleDefinition. cbv zeta. intros Pe Hc H.
  apply rp_bind in H as (p0 & E0 & H). apply rp_bind in H as (ts & _ & H). apply rp_bind in H as ([p1 declared] & E1 & H).
  apply rp_req in H as (vals & Hv & H). apply rp_bind in H as ([p3 ak] & E3 & H). apply rp_req in H as (avals & Hav & H).
  assert (A0 := eval_fields_AR _ _ _ [] p0 (fun _ X => match X with end) E0).
  assert (A1 := target_fields_AR _ _ _ _ _ _ _ _ _ A0 E1).
  assert (A3 : forall e, In e p3 -> AR (snd e)).
  { refine (anonymous_AR _ _ _ _ _ _ _ _ _ E3). intros e He. apply in_app_or in He as [He|He]; auto.
    apply in_map_iff in He as (q & <- & _). apply names_AR. }
  unfold withDependencies in H. cbv zeta in H. apply rp_bind in H as (tn & _ & H). apply rp_if in H as [[_ H]|[_ H]]; [|inversion H].
  apply rp_bind in H as (p4 & E4 & H). apply rp_bind in H as ([v e] & Er & H).
  assert (A4 := eval_fields_AR _ _ _ _ _ A3 E4).
  apply run_ok in Er as [Rv Re].
  - destruct v as [| | | | | |s p rf cc| | |]; try (now inversion H). destruct s as [| | | | | | | | |sm]; try (now inversion H).
    destruct p as [| | | | | | | | |pm]; try (now inversion H). destruct rf as [| | | | | | | | |rm]; try (now inversion H).
    apply rp_pdone in H. subst a. cbn [all_results] in Rv. destruct Rv as [[T1 T2] [_ [T3 _]]]. split; [|exact Re].
    split; [exact T1|]. split; [exact T2|exact T3].
  - exact (fe_expr W FE).
  - exact A4.
  - intros [x1 x2] Hx. apply by_transition_origin in Hx as [[]|Hx]. cbn [snd]. apply in_combine_r in Hx.
    apply in_app_or in Hx as [Hx|Hx]; [exact (vals_ok _ _ Hv _ Hx)|exact (vals_ok _ _ Hav _ Hx)].
  - refine (honest_results _ _ _ (pn_honest W PN _ _ Pe (prune_plain _ _ Hc)) _). intros x [].
  - intros x [].
Qed.

Lemma spelt_stage v : tidy_result (an_result v) -> spelt (t_stage (an_result v)).
Proof. intros (A & _). now apply tidy_spelt. Qed.
Lemma spelt_runfiles v : tidy_result (an_result v) -> spelt (t_runfiles (an_result v)).
Proof. intros (_ & A & _). now apply tidy_spelt. Qed.

Lemma spelt_overwrites (f : analysed -> items) vs : (forall v, In v vs -> spelt (f v)) -> forall m, spelt m ->
  spelt (fold_left (fun m a => overwrite m (f a)) vs m).
Proof.
  induction vs as [|v r IH]; intros Hv m Hm; cbn [fold_left]; auto. apply IH.
  - intros x Hx. apply Hv. now right.
  - apply spelt_overwrite; auto. intros e He. apply (spelt_entries (f v)); auto. apply Hv. now left.
Qed.

Lemma sorted_set_map l x : In x (sorted_set (map ToNormalPath l)) -> normal x.
Proof. rewrite In_sorted_set. intros H. apply in_map_iff in H as (y & <- & _). apply ToNormalPath_idem. Qed.
Lemma spelt_insert_all names f : (forall o, is_artifact (f o) = true) -> (forall o, In o names -> normal o) -> forall m, spelt m -> spelt (emap_insert_all names f m).
Proof.
  intros Hf Hn. unfold emap_insert_all. induction names as [|o r IH]; intros m Hm; cbn [fold_left]; auto. apply IH.
  - intros x Hx. apply Hn. now right.
  - apply spelt_aemplace; auto. apply Hn. now left.
Qed.

Lemma install_files_spelt deps st fl : (forall t a, deps t = Some a -> tidy_result (an_result a)) ->
  (forall e, In e fl -> normal (fst e)) -> forall acc m, spelt acc -> install_files deps st fl acc = Some m -> spelt m.
Proof.
  intros Hd. induction fl as [|[path t] r IH]; intros Hn acc m Ha; cbn [install_files]; [intros X; now injection X as <-|].
  destruct (alookup path st); [discriminate|]. unfold bind. destruct (deps t) as [a|] eqn:E; [|discriminate]. apply Hd in E.
  destruct (if is_nil (t_stage (an_result a)) then t_runfiles (an_result a) else t_stage (an_result a)) as [|[k v] [|]] eqn:Es; try discriminate.
  apply IH; [intros e He; apply Hn; now right|].
  apply spelt_aemplace; [exact Ha| |apply (Hn (path, t)); now left].
  assert (Hin : spelt [(k, v)]).
  { rewrite <- Es. destruct (is_nil _); [now apply spelt_runfiles|now apply spelt_stage]. }
  apply (spelt_entries [(k, v)] (k, v)); [exact Hin|now left].
Qed.
Lemma install_dir_spelt dir a : tidy_result (an_result a) -> spelt (install_dir dir a).
Proof.
  intros Ha. unfold install_dir.
  assert (Hin : forall e, In e (t_stage (an_result a) ++ t_runfiles (an_result a)) -> is_artifact (snd e) = true).
  { intros e He. apply in_app_or in He as [He|He].
    - now apply (spelt_entries (t_stage (an_result a))); [apply spelt_stage|].
    - now apply (spelt_entries (t_runfiles (an_result a))); [apply spelt_runfiles|]. }
  generalize spelt_nil. generalize (@nil (string * expr)).
  induction (t_stage (an_result a) ++ t_runfiles (an_result a)) as [|e r IH]; intros m Hm; cbn [fold_left]; auto. apply IH.
  - intros x Hx. apply Hin. now right.
  - apply spelt_aemplace; auto. { apply Hin. now left. } apply ToNormalPath_idem.
Qed.
Lemma install_dirs_spelt deps ds : (forall t a, deps t = Some a -> tidy_result (an_result a)) ->
  forall l, install_dirs deps ds = Some l -> forall x, In x l -> spelt x.
Proof.
  intros Hd. induction ds as [|[t dir] r IH]; intros l; cbn [install_dirs]; [intros X; injection X as <-; intros x []|].
  unfold bind. destruct (deps t) as [a|] eqn:E; [|discriminate]. destruct (install_dirs deps r) as [l'|] eqn:E'; [|discriminate].
  intros X. injection X as <-. intros x [<-|Hx]; [apply install_dir_spelt; eauto|]. eapply IH; eauto.
Qed.

Lemma runfiles_spelt (find : target -> option analysed) : (forall x y, find x = Some y -> tidy_result (an_result y)) ->
  forall dn rfs, fold_right (fun n acc => bind (find n) (fun a => bind acc (fun l => Some (t_runfiles (an_result a) :: l)))) (Some []) dn = Some rfs ->
  forall x, In x rfs -> spelt x.
Proof.
  intros Hf. induction dn as [|n r IH]; intros rfs; cbn [fold_right].
  - intros X. injection X as <-. intros x [].
  - intros X. apply bind_inv in X as (y & Ey & X). apply bind_inv in X as (l & El & X). injection X as <-.
    intros x [<-|Hx]; [apply spelt_runfiles; eauto|]. eapply IH; eauto.
Qed.

Theorem all_ok k a : analyses W k a -> clean k -> target_ok a.
Proof.
  apply (clean_ind W (pn_honest W PN) (pn_plain W PN) (fun _ a => target_ok a)). clear k a. intros k a Hc Hk H0.
  assert (H : runsP P (program_of W k) a).
  { clear Hk. induction H0 as [a|ks f vs a Hf Hr IH]; [constructor|apply (rp_request _ ks f vs); [|exact IH]]. clear -Hf.
    induction Hf as [|x y ks vs (A & _ & B) Hf IH]; constructor; auto. }
  clear H0. destruct k as [t c]. unfold program_of in H.
  destruct (w_definition W t) as [|st|sts|nm tr|nm ch|r|r dd|ty vars deps nm data tn|dj vars deps nm tn|vars deps files dirs tn
    |vars deps outs od cmds cwd env_e sh tmo props tn|vars te ce tn|fl te fx|fl] eqn:Ed.
  - inversion H.
  - apply rp_pdone in H. subst a. split; [|no_actions]. apply one_ok. exact (pn_source W PN _ _ Ed).
  - apply rp_pdone in H. subst a. split; [|no_actions]. apply one_ok. exact (pn_glob W PN _ _ Ed).
  - apply rp_pdone in H. subst a. split; [|no_actions]. apply one_ok. apply tidy_one; [reflexivity|]. exact (pn_known W PN _ _ _ Ed).
  - unfold source_tree in H. apply rp_req in H as (vs & _ & H). destruct (tree_entries vs []); [|inversion H].
    apply rp_pdone in H. subst a. split; [|no_actions]. apply one_ok. apply tidy_one; [reflexivity|]. exact (pn_tree W PN _ _ _ Ed).
  - apply rp_pdone in H. subst a. split; [|no_actions]. exact (pn_value W PN _ _ Ed).
  - assert (Hp := pn_plain W PN t). rewrite Ed in Hp. exact (rule_ok _ _ _ _ _ (proj1 Hp) Hc H).
  - unfold blob_gen in H. apply rp_bind in H as (v0 & _ & H). apply rp_bind in H as (nms & _ & H). apply rp_req in H as (vs & _ & H).
    unfold blob_gen_with_deps in H. cbv zeta in H. apply rp_bind in H as (tl & _ & H). apply rp_if in H as [[_ H]|[_ H]]; [|inversion H].
    apply rp_bind in H as (nv & _ & H). destruct nv as [| | |n| | | | | |]; try (now inversion H).
    apply rp_bind in H as (dv & _ & H). destruct dv as [| | |s| | | | | |]; try (now inversion H).
    apply rp_if in H as [[_ H]|[_ H]]; [|inversion H]. apply rp_pdone in H. subst a. split; [|no_actions]. apply one_ok.
    apply tidy_one; [reflexivity|]. refine (pn_generated W PN t c _ _ Hk (n, _) (or_introl eq_refl)). now rewrite Ed.
  - unfold tree_rule in H. apply rp_bind in H as (v0 & _ & H). apply rp_bind in H as (nms & _ & H). apply rp_bind in H as (nv & _ & H).
    destruct nv as [| | |n| | | | | |]; try (now inversion H). apply rp_req in H as (vs & _ & H).
    unfold tree_with_deps in H. cbv zeta in H. apply rp_bind in H as (tl & _ & H). apply rp_if in H as [[_ H]|[_ H]]; [|inversion H].
    assert (Hd : exists x y z, is_artifact x = true /\ a = mkAnalysed (mkResult [(n, x)] [] [(n, x)]) [] [] y z
        (vars ++ flat_map an_vars vs) (sorted_set tl) (implied_of vs) (Some (t, Prune c (vars ++ flat_map an_vars vs))) (map an_node vs, [], [])).
    { destruct dj as [b|].
      - apply rp_pdone in H. subst a. do 3 eexists. split; [|reflexivity]. reflexivity.
      - apply rp_bind in H as (stg & _ & H). destruct (tree_conflict stg); [inversion H|]. apply rp_pdone in H. subst a.
        do 3 eexists. split; [|reflexivity]. reflexivity. }
    destruct Hd as (x & y & z & Hx & ->). split; [|no_actions]. apply one_ok. apply tidy_one; [exact Hx|].
    refine (pn_generated W PN t c _ _ Hk (n, _) (or_introl eq_refl)). now rewrite Ed.
  - unfold install_rule in H. cbv zeta in H. apply rp_bind in H as (dv & _ & H). apply rp_bind in H as (dn & _ & H).
    destruct files as [| | | | | | | | |fm]; try (now inversion H). apply rp_bind in H as (fl & Efl & H). apply rp_bind in H as (dirv & _ & H).
    destruct dirv as [| | | | | | | |dl|]; try (now inversion H). apply rp_bind in H as (dirl & _ & H). apply rp_req in H as (vs & Hv & H).
    unfold install_with_deps in H. cbv zeta in H. apply rp_bind in H as (tl & _ & H). apply rp_if in H as [[_ H]|[_ H]]; [|inversion H].
    set (names := dn ++ map snd fl ++ map fst dirl) in *.
    assert (Hf : forall x y, by_target W names vs x = Some y -> tidy_result (an_result y)).
    { intros x y Hy. unfold by_target in Hy. destruct (find _ _) as [e|] eqn:E; [|discriminate]. cbn in Hy. injection Hy as <-.
      apply find_some in E as [E _]. destruct e as [e1 e2]. apply in_combine_r in E. exact (vals_ok _ _ Hv _ E). }
    apply rp_bind in H as (rfs & Erf & H). apply rp_bind in H as (stage & Es & H). apply rp_bind in H as (fst_ & Ef & H).
    apply rp_bind in H as (dst & Edst & H). apply rp_bind in H as (final & Efin & H).
    destruct (tree_conflict final) eqn:Ec; [inversion H|]. apply rp_pdone in H. subst a. split; [|no_actions]. apply one_ok.
    apply spelt_tidy; [|exact Ec].
    assert (Hfl : forall e, In e fl -> normal (fst e)).
    { assert (Hfm := pn_installed W PN _ _ _ _ _ _ Ed). clear -Efl Hfm. revert fl Efl. induction fm as [|[p ex] r IH]; intros fl; cbn [eval_files].
      - intros X. injection X as <-. intros e [].
      - unfold bind. destruct (evaluate W ex _); [|discriminate]. destruct (w_parse W t _); [|discriminate].
        destruct (eval_files W t _ r) as [l|]; [|discriminate]. intros X. injection X as <-. intros e0 [<-|He].
        + apply (Hfm (p, ex)). now left.
        + eapply IH; eauto. intros e' He'. apply Hfm. now right. }
    assert (Hrf : forall x, In x rfs -> spelt x).
    { exact (runfiles_spelt _ Hf dn rfs Erf). }
    eapply spelt_merge_all; [| |exact Efin].
    + apply spelt_overwrite; [eapply spelt_merge_all; [exact spelt_nil|exact Hrf|exact Es]|]. intros e He.
      eapply spelt_entries; [|exact He]. eapply install_files_spelt; [exact Hf|exact Hfl|exact spelt_nil|exact Ef].
    + eapply install_dirs_spelt; eauto.
  - unfold generic_rule in H. destruct (evaluate W deps (Prune c vars)) as [v|]; [|inversion H].
    apply rp_bind in H as (nms & _ & H). apply rp_req in H as (vs & Hv & H).
    unfold generic_with_deps in H. cbv zeta in H. apply rp_bind in H as (tl & _ & H). apply rp_if in H as [[_ H]|[_ H]]; [|inversion H].
    apply rp_bind in H as (ol & _ & H). apply rp_bind in H as (odl & _ & H). apply rp_bind in H as (? & _ & H).
    apply rp_bind in H as (? & _ & H). apply rp_bind in H as (cl & _ & H). apply rp_bind in H as (cw & _ & H).
    destruct cw as [| | |wd| | | | | |]; try (now inversion H). apply rp_bind in H as (? & Eg & H). apply rp_bind in H as (em & _ & H).
    apply rp_bind in H as (shl & _ & H). apply rp_bind in H as (sc & _ & H). apply rp_bind in H as (pm & _ & H).
    set (inputs := fold_left (fun m a => overwrite m (t_stage (an_result a))) vs _) in H.
    destruct (tree_conflict inputs) eqn:Ec; [inversion H|].
    destruct (add_dir_for (w_ndump W) (w_hash W) wd inputs) as [final trees] eqn:Ead.
    match type of H with context [tree_conflict ?s] => destruct (tree_conflict s) eqn:Ec2; [inversion H|] end.
    apply rp_pdone in H. subst a.
    assert (Hin : tidy inputs).
    { apply spelt_tidy; [|exact Ec]. subst inputs. apply spelt_overwrites; [intros v' Hv'; apply spelt_stage; exact (vals_ok _ _ Hv _ Hv')|].
      apply spelt_overwrites; [intros v' Hv'; apply spelt_runfiles; exact (vals_ok _ _ Hv _ Hv')|]. exact spelt_nil. }
    split.
    + split; [|split; [exact tidy_nil|exact I]]. cbn [an_result t_stage]. apply spelt_tidy; [|exact Ec2].
      apply spelt_insert_all; [reflexivity|intros o Ho; now apply sorted_set_map in Ho|].
      apply spelt_insert_all; [reflexivity|intros o Ho; now apply sorted_set_map in Ho|exact spelt_nil].
    + intros xa [<-|[]]. replace final with (fst (add_dir_for (w_ndump W) (w_hash W) wd inputs)) by now rewrite Ead.
      apply created_ok; [exact Hin|]. destruct (PathIsNonUpwards wd); [auto|discriminate].
  - unfold configure_rule in H. cbv zeta in H. apply rp_bind in H as (ct & _ & H). apply rp_bind in H as (tl & _ & H).
    destruct ce as [| | | | | | | | |cm]; try (now inversion H). apply rp_bind in H as (tr & _ & H).
    destruct tr as [| | | | | | | | |tm]; try (now inversion H). apply rp_req in H as (vs & Hv & H).
    destruct vs as [|v [|]]; try (now inversion H). apply rp_if in H as [[_ H]|[_ H]]; [|inversion H]. apply rp_pdone in H. subst a.
    split; [|no_actions]. exact (vals_ok _ _ Hv v (or_introl eq_refl)).
  - unfold export_rule in H. cbv zeta in H.
    assert (Hu : forall ck, runsP P (export_uncached W fl te fx t (Prune c fl) ck) a -> target_ok a).
    { intros ck Hu. unfold export_uncached in Hu. apply rp_bind in Hu as (et & _ & Hu). destruct fx as [| | | | | | | | |fm]; try (now inversion Hu).
      apply rp_if in Hu as [[_ Hu]|[_ Hu]]; [inversion Hu|]. apply rp_req in Hu as (vs & Hv & Hu). destruct vs as [|v [|]]; try (now inversion Hu).
      unfold finalize_export in Hu. apply rp_if in Hu as [[_ Hu]|[_ Hu]]; [inversion Hu|]. apply rp_if in Hu as [[_ Hu]|[_ Hu]]; [inversion Hu|].
      cbv zeta in Hu. apply rp_pdone in Hu. subst a. split; [|no_actions]. exact (vals_ok _ _ Hv v (or_introl eq_refl)). }
    apply rp_if in H as [[_ H]|[_ H]].
    + destruct (w_cache_key W t (Prune c fl)) as [s|]; [|exact (Hu _ H)].
      destruct (w_served W s) as [| |[[r im]|]] eqn:Es; try (exact (Hu _ H)); [inversion H|].
      apply rp_pdone in H. subst a. split; [|no_actions]. apply (pn_served W PN s r im). now left.
    + apply rp_req in H as (vs & Hv & H). unfold first_value in H. destruct vs as [|v [|]]; try (now inversion H). apply rp_pdone in H. subst a.
      inversion Hv as [|? ? ? ? [_ Hok] _]; subst. exact Hok.
  - unfold absent_target in H. cbv zeta in H. apply rp_if in H as [[_ H]|[_ H]].
    + destruct (w_cache_key W t (Prune c fl)) as [s|]; [|inversion H].
      destruct (w_served_absent W s) as [| |[[r im]|]] eqn:Es; try (now inversion H).
      apply rp_pdone in H. subst a. split; [|no_actions]. apply (pn_served W PN s r im). now right.
    + apply rp_req in H as (vs & Hv & H). unfold first_value in H. destruct vs as [|v [|]]; try (now inversion H). apply rp_pdone in H. subst a.
      inversion Hv as [|? ? ? ? [_ Hok] _]; subst. exact Hok.
Qed.
End All.
