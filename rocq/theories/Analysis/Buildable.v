(** Everything a target needs can be built: induction over the analysis. *)
From Coq Require Import String Ascii List Bool Arith.
From Verif Require Import Common.Strs LinkedMap.Model Path.Model Expr.Json Expr.Model Describe.Model.
From Verif Require Import Analysis.Stage Analysis.Model Analysis.Spec Analysis.HonestSpec Analysis.Proofs Analysis.Honest Analysis.Taint.
Import ListNotations.
Local Open Scope string_scope.
Local Open Scope list_scope.
Local Open Scope nat_scope.

Lemma bind_some {A B} (x : option A) (f : A -> option B) y : bind x f = Some y -> exists z, x = Some z /\ f z = Some y.
Proof. destruct x; cbn; [eauto|discriminate]. Qed.

Definition sub (R R' : recipes) : Prop :=
  (forall x, has_action R x -> has_action R' x) /\ (forall x, has_blob R x -> has_blob R' x) /\
  (forall x, has_tree R x -> has_tree R' x) /\ (forall x, has_overlay R x -> has_overlay R' x).
Lemma sub_refl R : sub R R. Proof. repeat split; auto. Qed.
Lemma sub_trans R S T : sub R S -> sub S T -> sub R T.
Proof. intros (A1 & A2 & A3 & A4) (B1 & B2 & B3 & B4). repeat split; auto. Qed.

Section World.
Variable W : world.
Local Notation B := (buildable W (given W)).

Lemma mono R R' : sub R R' -> forall j, B R j -> B R' j.
Proof.
  intros (H1 & H2 & H3 & H4) j. induction 1.
  - now apply b_given.
  - apply b_blob; auto.
  - eapply b_action; eauto.
  - apply b_tree; auto.
  - apply b_overlay; auto.
Qed.

Definition special_ok (R : recipes) (x : expr) : Prop :=
  match x with EArt j => B R j | EResult _ _ _ _ => result_typed x | _ => True end.
Definition within (R : recipes) (e : expr) : Prop := forall x, special_in x e -> special_ok R x.
Definition stage_ok (R : recipes) (m : items) : Prop := forall e, In e m -> exists j, snd e = EArt j /\ B R j.
Definition good_result (R : recipes) (r : tresult) : Prop :=
  stage_ok R (t_stage r) /\ stage_ok R (t_runfiles r) /\ within R (EMap (t_provides r)).
Definition effects_ok (R : recipes) (e : effects) : Prop :=
  (forall x, In x (e_actions e) -> forall i, In i (ra_inputs x) -> B R (snd i)) /\
  (forall c, In c (e_trees e) -> forall i, In i c -> B R (snd i)) /\
  (forall o, In o (e_overlays e) -> forall p, In p (fst o) -> B R p).
Definition effects_of (a : analysed) := mkEffects (an_actions a) (an_blobs a) (an_trees a) (an_overlays a).
Definition good (R : recipes) (a : analysed) : Prop := good_result R (an_result a) /\ effects_ok R (effects_of a).

Lemma special_mono R R' x : sub R R' -> special_ok R x -> special_ok R' x.
Proof. intros HS. destruct x; cbn; auto. now apply mono. Qed.
Lemma within_mono R R' e : sub R R' -> within R e -> within R' e.
Proof. intros HS H x Hx. eapply special_mono; eauto. Qed.
Lemma stage_mono R R' m : sub R R' -> stage_ok R m -> stage_ok R' m.
Proof. intros HS H e He. destruct (H e He) as (j & E & Hj). exists j. split; auto. eapply mono; eauto. Qed.
Lemma result_mono R R' r : sub R R' -> good_result R r -> good_result R' r.
Proof. intros HS (H1 & H2 & H3). split; [|split]; [eapply stage_mono|eapply stage_mono|eapply within_mono]; eauto. Qed.
Lemma effects_mono R R' e : sub R R' -> effects_ok R e -> effects_ok R' e.
Proof.
  intros HS (H1 & H2 & H3). split; [|split].
  - intros x Hx i Hi. eapply mono; eauto.
  - intros x Hx i Hi. eapply mono; eauto.
  - intros x Hx i Hi. eapply mono; eauto.
Qed.
Lemma good_mono R R' a : sub R R' -> good R a -> good R' a.
Proof. intros HS [H1 H2]. split; [eapply result_mono|eapply effects_mono]; eauto. Qed.

Lemma stage_within R m : stage_ok R m -> within R (EMap m).
Proof. intros H x Hx. apply special_map in Hx as (e & He & Hx). destruct (H e He) as (j & E & Hj). rewrite E in Hx. cbn in Hx. now subst x. Qed.
Lemma within_stage R m : within R (EMap m) -> artifacts_only m -> stage_ok R m.
Proof.
  intros H T e He. destruct (T e He) as [j E]. exists j. split; auto. apply (H (EArt j)). apply special_map. exists e. split; auto. rewrite E. reflexivity.
Qed.
Lemma all_artifacts_only m : all_artifacts m = true -> artifacts_only m.
Proof.
  intros H e He. unfold all_artifacts in H. rewrite forallb_forall in H. specialize (H e He). destruct (snd e) as [| | | | |j| | | |]; try discriminate. now exists j.
Qed.
Lemma stage_nil R : stage_ok R []. Proof. intros e []. Qed.
Lemma stage_typed R m : stage_ok R m -> artifacts_only m.
Proof. intros H e He. destruct (H e He) as (j & E & _). eauto. Qed.

Lemma stage_aemplace R k v m : stage_ok R m -> (exists j, v = EArt j /\ B R j) -> stage_ok R (aemplace k v m).
Proof. intros H Hv e He. apply In_aemplace in He as [->|He]; [exact Hv|auto]. Qed.
Lemma stage_ainsert R k v m : stage_ok R m -> (exists j, v = EArt j /\ B R j) -> stage_ok R (ainsert k v m).
Proof. intros H Hv e He. apply In_ainsert in He as [->|He]; [exact Hv|auto]. Qed.

Lemma tree_content_ok R m : stage_ok R m -> forall i, In i (tree_content m) -> B R (snd i).
Proof.
  unfold tree_content. intros H.
  assert (G : forall l acc, stage_ok R l -> (forall i, In i acc -> B R (snd i)) ->
    forall i, In i (fold_left (fun acc (p : string * expr) => aemplace (ToNormalPath (fst p)) (artifact_of (snd p)) acc) l acc) -> B R (snd i)).
  { induction l as [|p r IH]; intros acc Hl Ha i; cbn [fold_left]; [auto|]. apply IH; [intros e He; apply Hl; now right|].
    intros i' Hi'. apply In_aemplace in Hi' as [->|Hi']; [|auto]. destruct (Hl p (or_introl eq_refl)) as (j & E & Hj). cbn. rewrite E. exact Hj. }
  apply (G m []); auto. intros i [].
Qed.

Lemma artifacts_tree_from eqb m : forall acc n, artifacts_tree_go eqb m acc = inr n ->
  forall e, In e n -> In e acc \/ exists e', In e' m /\ snd e = snd e'.
Proof.
  induction m as [|[k v] r IH]; intros acc n; cbn [artifacts_tree_go]; [intros X; injection X as <-; auto|]. intros H e He.
  assert (H' : artifacts_tree_go eqb r (aemplace (ToNormalPath k) v acc) = inr n).
  { destruct (alookup (ToNormalPath k) acc); [|exact H]. destruct (eqb e0 v); [exact H|discriminate]. }
  destruct (IH _ _ H' e He) as [Hin|(e' & Hin & E)]; [|right; exists e'; split; auto; now right].
  apply In_aemplace in Hin as [->|Hin]; [right; exists (k, v); split; [now left|reflexivity]|now left].
Qed.
Lemma checked_ok R v n : within R v -> checked_stage W v = Some n -> stage_ok R n.
Proof.
  intros Hv H. unfold checked_stage in H. destruct v as [| | | | | | | | |m]; try discriminate. destruct (all_artifacts m) eqn:Ea; [|discriminate].
  destruct (artifacts_tree (eqe W) m) as [|n'] eqn:Et; [discriminate|]. destruct (tree_conflict n'); [discriminate|]. injection H as <-.
  assert (Hm : stage_ok R m) by (apply within_stage; [exact Hv|now apply all_artifacts_only]).
  intros e He. destruct (artifacts_tree_from _ _ _ _ Et e He) as [[]|(e' & Hin & E)]. rewrite E. auto.
Qed.
Lemma tree_ok R v content : within R v -> ExprToTree v = Some content -> forall i, In i content -> B R (snd i).
Proof.
  intros Hv H. unfold ExprToTree in H. destruct v as [| | | | | | | | |m]; try discriminate. destruct (all_artifacts m) eqn:Ea; [|discriminate].
  destruct (tree_conflict m); [discriminate|]. injection H as <-. apply tree_content_ok. apply within_stage; [exact Hv|now apply all_artifacts_only].
Qed.
Lemma expr_trees_ok R l : forall cs, within R (EList l) -> expr_trees l = Some cs -> forall c, In c cs -> forall i, In i c -> B R (snd i).
Proof.
  induction l as [|v r IH]; intros cs Hl; cbn [expr_trees]; [intros X; injection X as <-; intros c []|].
  intros X. apply bind_some in X as (c0 & Ec & X). apply bind_some in X as (cs0 & Ecs & X). injection X as <-.
  intros c [<-|Hc] i Hi.
  - apply (tree_ok R v c0); auto. intros x Hx. apply Hl. apply special_list. exists v. split; [now left|auto].
  - apply (IH cs0 (fun x Hx => Hl x (match proj1 (special_list x r) Hx with ex_intro _ e (conj He Hs) =>
      proj2 (special_list x (v :: r)) (ex_intro _ e (conj (or_intror He) Hs)) end)) Ecs c Hc i Hi).
Qed.

(** The directory added for the working directory is an empty tree. *)
Lemma add_dir_ok R cwd m : stage_ok R m -> (forall c, In c (snd (add_dir_for (w_ndump W) (w_hash W) cwd m)) -> has_tree R c) ->
  stage_ok R (fst (add_dir_for (w_ndump W) (w_hash W) cwd m)) /\
  forall c, In c (snd (add_dir_for (w_ndump W) (w_hash W) cwd m)) -> c = [].
Proof.
  intros Hm. unfold add_dir_for. destruct (String.eqb cwd "" || String.eqb cwd ".") ; [split; [exact Hm|intros c []]|].
  destruct (existsb _ m); [split; [exact Hm|intros c []]|]. cbn [fst snd]. intros Ht. split; [|intros c [<-|[]]; auto].
  apply stage_ainsert; auto. eexists. split; [reflexivity|]. apply b_tree; [apply Ht; now left|]. intros e [].
Qed.

(** An action: its outputs can be built. *)
Lemma created_outputs R outs od cmd cwd ev mf nc tmo props m o :
  let x := createAction (w_ndump W) (w_hash W) (w_ftext W) outs od cmd cwd ev mf nc tmo props m in
  stage_ok R m -> has_action R x -> In o outs \/ In o od ->
  (forall i, In i (ra_inputs x) -> B R (snd i)) /\ B R (art_ToJson (AAction (ra_id x) o)).
Proof.
  intros x Hm Hx Ho.
  assert (Hi : forall i, In i (ra_inputs x) -> B R (snd i)).
  { intros i Hi. cbn in Hi. apply in_map_iff in Hi as (p & <- & Hp). destruct (Hm p Hp) as (j & E & Hj). cbn. now rewrite E. }
  split; auto. apply b_action; auto.
Qed.
Lemma insert_all_ok R names f : (forall o, In o names -> exists j, f o = EArt j /\ B R j) -> forall m, stage_ok R m -> stage_ok R (emap_insert_all names f m).
Proof.
  unfold emap_insert_all. induction names as [|o r IH]; intros Hf m Hm; cbn [fold_left]; auto. apply IH; [intros o' Ho'; apply Hf; now right|].
  apply stage_aemplace; auto. apply Hf. now left.
Qed.

(** ** The defining expression of a rule *)
Section Run.
Variable D : recipes.
Definition plus (e : effects) : recipes :=
  mkRecipes (fun x => has_action D x \/ In x (e_actions e)) (fun s => has_blob D s \/ In s (e_blobs e))
            (fun c => has_tree D c \/ In c (e_trees e)) (fun o => has_overlay D o \/ In o (e_overlays e)).
Variable rt : list string.
Variable params : list (string * expr).
Variable deps : list dep_entry.
Hypothesis HP : forall e, In e params -> plain (snd e).
Hypothesis HD : forall e, In e deps -> good_result D (an_result (snd e)).

Lemma sub_plus e : sub D (plus e).
Proof. repeat split; cbn; auto. Qed.
Lemma plus_grows e a b t o : sub (plus e) (plus (mkEffects (e_actions e ++ a) (e_blobs e ++ b) (e_trees e ++ t) (e_overlays e ++ o))).
Proof. repeat split; cbn; intros x [H|H]; auto; right; apply in_or_app; auto. Qed.

Lemma obtain_good d tr a : obtainTarget W deps d tr = Some a -> good_result D (an_result a).
Proof.
  unfold obtainTarget, find_dep. destruct d; try discriminate. match goal with |- context [find ?f deps] => destruct (find f deps) as [e|] eqn:E end; [|discriminate]. cbn.
  intros X. injection X as <-. apply find_some in E as [E _]. auto.
Qed.

Lemma call_good (G : expr -> Prop) c e a e' : (forall x, G x -> special_ok (plus e) x) -> call_within G c -> effects_ok (plus e) e ->
  main_functions W rt params deps c e = Some (a, e') ->
  sub (plus e) (plus e') /\ effects_ok (plus e') e' /\ match a with Some v => within (plus e') v | None => True end.
Proof.
  intros HG Hc He. unfold main_functions. destruct c as [name|d t|d t|d t|d t|d t p|g|d|d|v|dj v|v|nt sf tf|ar rf pr]; try discriminate.
  - unfold bind, field. destruct name; try discriminate. destruct (alookup s params) as [v|] eqn:E; [|discriminate].
    intros X. injection X as <- <-. split; [apply sub_refl|]. split; auto. apply alookup_In in E. intros x Hx. destruct (HP _ E x Hx).
  - unfold bind. destruct (obtainTarget W deps d t) as [v|] eqn:E; [|discriminate]. intros X. injection X as <- <-. split; [apply sub_refl|]. split; auto.
    apply obtain_good in E as (A & _). apply stage_within. eapply stage_mono; [apply sub_plus|exact A].
  - unfold bind. destruct (obtainTarget W deps d t) as [v|] eqn:E; [|discriminate]. intros X. injection X as <- <-. split; [apply sub_refl|]. split; auto.
    apply obtain_good in E as (_ & A & _). apply stage_within. eapply stage_mono; [apply sub_plus|exact A].
  - unfold bind. destruct (obtainTarget W deps d t) as [v|] eqn:E; [|discriminate]. destruct p; try discriminate. intros X. injection X as <- <-.
    split; [apply sub_refl|]. split; auto. apply obtain_good in E as (_ & _ & A). destruct (alookup s (t_provides (an_result v))) as [y|] eqn:El; auto.
    apply alookup_In in El. eapply within_mono; [apply sub_plus|]. intros x Hx. apply A. apply special_map. exists (s, y). auto.
  - unfold do_action. intros X. apply bind_some in X as (inputs & Ei & X).
    apply (checked_ok (plus e)) in Ei; [|intros x Hx; exact (HG x (Hc x Hx))].
    apply bind_some in X as (outs & _ & X). apply bind_some in X as (ods & _ & X). apply bind_some in X as (? & _ & X). cbv zeta in X.
    apply bind_some in X as (? & _ & X). apply bind_some in X as (cmd & _ & X). apply bind_some in X as (? & _ & X).
    destruct (g_cwd g) as [| | |cwd| | | | | |]; try discriminate.
    apply bind_some in X as (? & _ & X).
    destruct (add_dir_for (w_ndump W) (w_hash W) cwd inputs) as [fi nt] eqn:Ed.
    apply bind_some in X as (env_m & _ & X). apply bind_some in X as (mfl & _ & X). apply bind_some in X as (? & _ & X).
    apply bind_some in X as (mf & _ & X). apply bind_some in X as (ncl & _ & X). apply bind_some in X as (? & _ & X).
    apply bind_some in X as (tmo & _ & X). apply bind_some in X as (props & _ & X).
    injection X as <- <-.
    set (act := createAction _ _ _ _ _ _ _ _ _ _ _ _ _).
    set (e' := mkEffects _ _ _ _).
    assert (HS : sub (plus e) (plus e')).
    { subst e'. repeat split; cbn; intros y [H|H]; auto; right; try (apply in_or_app; auto). }
    assert (Hf := add_dir_ok (plus e') cwd inputs (stage_mono _ _ _ HS Ei)). rewrite Ed in Hf. cbn [fst snd] in Hf.
    destruct Hf as [Hf Hnt]. { intros c Hcin. subst e'. cbn. right. apply in_or_app. auto. }
    assert (Hx : has_action (plus e') act) by (subst e'; cbn; right; apply in_or_app; right; now left).
    assert (Ho : forall l l' o, (forall p, In p l' <-> In p (map ToNormalPath l)) -> In o l -> In (ToNormalPath o) l').
    { intros l l' o Hl Hin. apply Hl. now apply in_map. }
    split; [exact HS|]. split.
    + destruct (effects_mono _ _ _ HS He) as (E1 & E2 & E3). split; [|split].
      * intros y Hy. cbn [e' e_actions] in Hy. apply in_app_or in Hy as [Hy|[<-|[]]]; [exact (E1 y Hy)|].
        intros i Hi. subst act. cbn in Hi. apply in_map_iff in Hi as (q & <- & Hq). destruct (Hf q Hq) as (j & E & Hj). cbn. now rewrite E.
      * intros y Hy. cbn [e' e_trees] in Hy. apply in_app_or in Hy as [Hy|Hy]; [exact (E2 y Hy)|]. rewrite (Hnt y Hy). intros i [].
      * exact E3.
    + apply stage_within. apply insert_all_ok; [|apply insert_all_ok; [|apply stage_nil]].
      * intros o Hin. eexists. split; [reflexivity|]. subst act. apply created_outputs; auto. right. apply In_sorted_set. now apply in_map.
      * intros o Hin. eexists. split; [reflexivity|]. subst act. apply created_outputs; auto. left. apply In_sorted_set. now apply in_map.
  - unfold do_blob. destruct d; try discriminate. unfold bind. cbn [guard]. intros X. injection X as <- <-.
    set (e' := mkEffects _ _ _ _). assert (HS : sub (plus e) (plus e')) by (subst e'; repeat split; cbn; intros y [H|H]; auto; right; apply in_or_app; auto).
    split; [exact HS|]. split; [destruct (effects_mono _ _ _ HS He) as (E1 & E2 & E3); split; [|split]; auto|].
    intros x ->. apply b_blob. subst e'. cbn. right. apply in_or_app. right. now left.
  - unfold do_blob. destruct d; try discriminate. unfold bind. destruct (guard _); [|discriminate]. intros X. injection X as <- <-.
    set (e' := mkEffects _ _ _ _). assert (HS : sub (plus e) (plus e')) by (subst e'; repeat split; cbn; intros y [H|H]; auto; right; apply in_or_app; auto).
    split; [exact HS|]. split; [destruct (effects_mono _ _ _ HS He) as (E1 & E2 & E3); split; [|split]; auto|].
    intros x ->. apply b_blob. subst e'. cbn. right. apply in_or_app. right. now left.
  - unfold do_tree. intros X. apply bind_some in X as (content & Et & X). injection X as <- <-.
    set (e' := mkEffects _ _ _ _). assert (HS : sub (plus e) (plus e')) by (subst e'; repeat split; cbn; intros y [H|H]; auto; right; apply in_or_app; auto).
    assert (Hcont' : forall i, In i content -> B (plus e') (snd i)).
    { intros i Hi. eapply mono; [exact HS|]. eapply tree_ok; [|exact Et|exact Hi]. intros x Hx. exact (HG x (Hc x Hx)). }
    split; [exact HS|]. split.
    + destruct (effects_mono _ _ _ HS He) as (E1 & E2 & E3). split; [|split]; auto.
      intros y Hy. cbn [e' e_trees] in Hy. apply in_app_or in Hy as [Hy|[<-|[]]]; [exact (E2 y Hy)|exact Hcont'].
    + intros x ->. apply b_tree; [|exact Hcont']. subst e'. cbn. right. apply in_or_app. right. now left.
  - unfold do_overlay. destruct v as [| | | | | | | |l|]; try discriminate. intros X. apply bind_some in X as (cs & Et & X). cbv zeta in X. injection X as <- <-.
    set (parts := map _ cs). set (e' := mkEffects _ _ _ _).
    assert (HS : sub (plus e) (plus e')) by (subst e'; repeat split; cbn; intros y [H|H]; auto; right; apply in_or_app; auto).
    assert (Hcont : forall c, In c cs -> forall i, In i c -> B (plus e') (snd i)).
    { intros c Hcin i Hi. eapply mono; [exact HS|]. eapply expr_trees_ok; [|exact Et|exact Hcin|exact Hi]. intros x Hx. exact (HG x (Hc x Hx)). }
    assert (Hparts : forall p, In p parts -> B (plus e') p).
    { intros p Hp. subst parts. apply in_map_iff in Hp as (c & <- & Hcin). apply b_tree; [|exact (Hcont c Hcin)]. subst e'. cbn. right. apply in_or_app. auto. }
    split; [exact HS|]. split.
    + destruct (effects_mono _ _ _ HS He) as (E1 & E2 & E3). split; [|split]; auto.
      * intros y Hy. cbn [e' e_trees] in Hy. apply in_app_or in Hy as [Hy|Hy]; [exact (E2 y Hy)|exact (Hcont y Hy)].
      * intros y Hy. cbn [e' e_overlays] in Hy. apply in_app_or in Hy as [Hy|[<-|[]]]; [exact (E3 y Hy)|exact Hparts].
    + intros x ->. apply b_overlay; [|exact Hparts]. subst e'. cbn. right. apply in_or_app. right. now left.
  - unfold do_node, bind. destruct (guard (is_result v)); [|discriminate]. intros X. injection X as <- <-. split; [apply sub_refl|]. split; [exact He|].
    intros x ->. exact I.
  - unfold do_node, bind. destruct nt; try discriminate. destruct sf; try discriminate. destruct tf; try discriminate.
    destruct (guard _); [|discriminate]. intros X. injection X as <- <-. split; [apply sub_refl|]. split; [exact He|]. intros x ->. exact I.
  - unfold do_result. intros X. apply bind_some in X as (w & X0 & X). injection X as <- <-. apply bind_some in X0 as (a1 & E1 & X). apply bind_some in X as (r1 & E2 & X).
    destruct pr as [| | | | | | | | |pm]; try discriminate. injection X as <-. split; [apply sub_refl|]. split; [exact He|].
    apply (checked_ok (plus e)) in E1; [|intros x Hx; exact (HG x (Hc x (or_introl Hx)))].
    apply (checked_ok (plus e)) in E2; [|intros x Hx; exact (HG x (Hc x (or_intror (or_introl Hx))))].
    unfold result_expr. cbn [t_stage t_provides t_runfiles]. intros x Hx. destruct Hx as [->|[Hx|[Hx|Hx]]].
    + cbn. exists a1, pm, r1. repeat (split; [reflexivity|]). split; eapply stage_typed; eauto.
    + exact (stage_within _ _ E1 x Hx).
    + exact (HG x (Hc x (or_intror (or_intror Hx)))).
    + exact (stage_within _ _ E2 x Hx).
Qed.

Lemma run_good s : forall (G : expr -> Prop) e v e', honest G s -> (forall x, G x -> special_ok (plus e) x) -> effects_ok (plus e) e ->
  run (main_functions W rt params deps) s e = Some (v, e') -> within (plus e') v /\ effects_ok (plus e') e'.
Proof.
  induction s as [v0| |c k IH]; intros G e v e' Hs HG He; cbn [run]; [|discriminate|].
  - intros X. injection X as <- <-. split; [|exact He]. intros x Hx. exact (HG x (Hs x Hx)).
  - destruct Hs as [Hc Hk]. destruct (main_functions W rt params deps c e) as [[a e1]|] eqn:E; [|discriminate].
    destruct (call_good G c e a e1 HG Hc He E) as (HS & He1 & Ha).
    apply (IH a _ _ _ _ (Hk a)); [|exact He1]. cbn. intros x [Hx|Hx]; [eapply special_mono; eauto|]. destruct a as [w|]; [exact (Ha x Hx)|destruct Hx].
Qed.
End Run.

(** ** All targets *)
Hypothesis HE : honest_evaluator W.
Hypothesis PD : plain_definitions W.
Hypothesis TW : typed_world W.

Lemma given_good (r : tresult) : typed r -> (forall j, in_result r j -> given W j) -> forall R, good_result R r.
Proof.
  intros (T1 & T2 & T3) Hg R.
  assert (S : forall m, artifacts_only m -> (forall j, special_in (EArt j) (EMap m) -> given W j) -> stage_ok R m).
  { intros m T Hm e He. destruct (T e He) as [j E]. exists j. split; auto. apply b_given, Hm. apply special_map. exists e. rewrite E. split; [auto|reflexivity]. }
  split; [apply S; auto; intros j Hj; apply Hg; now left|]. split; [apply S; auto; intros j Hj; apply Hg; right; now left|].
  intros x Hx. destruct x; cbn; auto; [|exact (T3 _ Hx)]. apply b_given, Hg. right. now right.
Qed.
Lemma given_stage m R : artifacts_only m -> (forall j, special_in (EArt j) (EMap m) -> given W j) -> stage_ok R m.
Proof. intros T Hg e He. destruct (T e He) as [j E]. exists j. split; auto. apply b_given, Hg. apply special_map. exists e. rewrite E. split; [auto|reflexivity]. Qed.

Lemma overwrite_from b : forall a e, In e (overwrite a b) -> In e a \/ In e b.
Proof.
  induction b as [|p r IH]; intros a e; cbn; [auto|]. intros H. destruct (IH _ _ H) as [X|X]; [|auto].
  apply In_ainsert in X as [->|X]; [right; left; now destruct p|auto].
Qed.
Lemma stage_overwrite R a b : stage_ok R a -> stage_ok R b -> stage_ok R (overwrite a b).
Proof. intros Ha Hb e He. apply overwrite_from in He as [He|He]; auto. Qed.
Lemma stage_overwrites R (f : analysed -> items) vs : (forall v, In v vs -> stage_ok R (f v)) -> forall m, stage_ok R m ->
  stage_ok R (fold_left (fun m a => overwrite m (f a)) vs m).
Proof.
  induction vs as [|v r IH]; intros Hv m Hm; cbn [fold_left]; auto. apply IH; [intros x Hx; apply Hv; now right|].
  apply stage_overwrite; auto. apply Hv. now left.
Qed.
Lemma stage_merge_all R l : forall a m, stage_ok R a -> (forall x, In x l -> stage_ok R x) -> merge_all W a l = Some m -> stage_ok R m.
Proof.
  induction l as [|x r IH]; intros a m Ha Hl; cbn [merge_all]; [intros X; now injection X as <-|].
  intros X. apply bind_some in X as (a' & E & X). unfold merge in E. destruct (find_conflict W a x); [discriminate|]. injection E as <-.
  apply (IH _ _ (stage_overwrite _ _ _ Ha (Hl x (or_introl eq_refl)))) in X; auto. intros y Hy. apply Hl. now right.
Qed.

Section Install.
Variable R : recipes.
Lemma install_files_ok deps st fl : (forall t a, deps t = Some a -> good_result R (an_result a)) ->
  forall acc m, stage_ok R acc -> install_files deps st fl acc = Some m -> stage_ok R m.
Proof.
  intros Hd. induction fl as [|[path t] r IH]; intros acc m Ha; cbn [install_files]; [intros X; now injection X as <-|].
  destruct (alookup path st); [discriminate|]. unfold bind. destruct (deps t) as [a|] eqn:E; [|discriminate]. apply Hd in E.
  destruct (if is_nil (t_stage (an_result a)) then t_runfiles (an_result a) else t_stage (an_result a)) as [|[k v] [|]] eqn:Es; try discriminate.
  apply IH. apply stage_aemplace; [exact Ha|].
  assert (Hin : stage_ok R [(k, v)]) by (rewrite <- Es; destruct (is_nil _); apply E).
  exact (Hin (k, v) (or_introl eq_refl)).
Qed.
Lemma install_dir_ok dir a : good_result R (an_result a) -> stage_ok R (install_dir dir a).
Proof.
  intros (A & C & _). unfold install_dir.
  assert (Hin : stage_ok R (t_stage (an_result a) ++ t_runfiles (an_result a))) by (intros e He; apply in_app_or in He as [He|He]; auto).
  generalize (stage_nil R). generalize (@nil (string * expr)).
  induction (t_stage (an_result a) ++ t_runfiles (an_result a)) as [|e r IH]; intros m Hm; cbn [fold_left]; auto. apply IH.
  - intros x Hx. apply Hin. now right.
  - apply stage_aemplace; auto. apply Hin. now left.
Qed.
Lemma install_dirs_ok deps ds : (forall t a, deps t = Some a -> good_result R (an_result a)) ->
  forall l, install_dirs deps ds = Some l -> forall x, In x l -> stage_ok R x.
Proof.
  intros Hd. induction ds as [|[t dir] r IH]; intros l; cbn [install_dirs]; [intros X; injection X as <-; intros x []|].
  unfold bind. destruct (deps t) as [a|] eqn:E; [|discriminate]. destruct (install_dirs deps r) as [l'|] eqn:E'; [|discriminate].
  intros X. injection X as <-. intros x [<-|Hx]; [apply install_dir_ok; eauto|]. eapply IH; eauto.
Qed.
Lemma runfiles_ok (find : target -> option analysed) : (forall x y, find x = Some y -> good_result R (an_result y)) ->
  forall dn rfs, fold_right (fun n acc => bind (find n) (fun a => bind acc (fun l => Some (t_runfiles (an_result a) :: l)))) (Some []) dn = Some rfs ->
  forall x, In x rfs -> stage_ok R x.
Proof.
  intros Hf. induction dn as [|n r IH]; intros rfs; cbn [fold_right].
  - intros X. injection X as <-. intros x [].
  - intros X. apply bind_some in X as (y & Ey & X). apply bind_some in X as (l & El & X). injection X as <-.
    intros x [<-|Hx]; [apply (Hf _ _ Ey)|]. eapply IH; eauto.
Qed.
Lemma tree_entries_ok vs : (forall v, In v vs -> good_result R (an_result v)) -> forall acc c, (forall i, In i acc -> B R (snd i)) ->
  tree_entries vs acc = Some c -> forall i, In i c -> B R (snd i).
Proof.
  induction vs as [|v r IH]; intros Hv acc c Ha; cbn [tree_entries]; [intros X; injection X as <-; auto|].
  destruct (t_runfiles (an_result v)) as [|[p a] l] eqn:E; [discriminate|]. apply IH; [intros x Hx; apply Hv; now right|].
  intros i Hi. apply In_aemplace in Hi as [->|Hi]; auto. cbn. destruct (Hv v (or_introl eq_refl)) as (_ & C & _). rewrite E in C.
  destruct (C (p, a) (or_introl eq_refl)) as (j & Ej & Hj). cbn in Ej. now subst a.
Qed.
End Install.

Lemma target_fields_plain t d c ts fs : forall ps ks ps' ks', (forall e, In e ps -> plain (snd e)) ->
  target_fields W t d c ts fs ps ks = Some (ps', ks') -> forall e, In e ps' -> plain (snd e).
Proof.
  induction fs as [|f r IH]; intros ps ks ps' ks' Hps; cbn [target_fields]; [intros X; injection X as <- <-; auto|].
  unfold bind. destruct (evaluate W (td_target d f) c) as [v|]; [|discriminate]. destruct v; try discriminate.
  destruct (dep_names _ _ _ _) as [nms|]; [|discriminate]. apply IH. intros e He. apply in_app_or in He as [He|[<-|[]]]; auto.
  apply plain_list. intros x Hx. apply in_map_iff in Hx as (n & <- & _). intros y [].
Qed.
Lemma anonymous_plain ts fs vs defs : forall ps ks ps' ks', (forall e, In e ps -> plain (snd e)) ->
  anonymous W ts fs vs defs ps ks = Some (ps', ks') -> forall e, In e ps' -> plain (snd e).
Proof.
  induction defs as [|[n d] r IH]; intros ps ks ps' ks' Hps; cbn [anonymous]; [intros X; injection X as <- <-; auto|].
  unfold bind. destruct (anon_names _ _ _ _) as [nms|]; [|discriminate]. apply IH. intros e He. apply in_app_or in He as [He|[<-|[]]]; auto.
  apply plain_list. intros x Hx. apply in_map_iff in Hx as (m & <- & _). intros y [].
Qed.

(** The recipes of all dependencies. *)
Definition below (k : key) : recipes :=
  mkRecipes (fun x => exists d v, reaches W k d v /\ In x (an_actions v))
            (fun s => exists d v, reaches W k d v /\ In s (an_blobs v))
            (fun c => exists d v, reaches W k d v /\ In c (an_trees v))
            (fun o => exists d v, reaches W k d v /\ In o (an_overlays v)).
Lemma of_dep k d v : depends W k d v -> sub (all_recipes W d v) (below k).
Proof.
  intros Hd. repeat split; cbn; intros x (w & [->|[d' Hr]] & Hin);
    first [exists d, v; split; [now apply reach_direct|exact Hin]|exists d', w; split; [eapply reach_step; eauto|exact Hin]].
Qed.
Lemma below_all k a : sub (plus (below k) (effects_of a)) (all_recipes W k a).
Proof.
  repeat split; cbn; intros x [(d & v & Hr & Hin)|Hin];
    first [exists v; split; [right; eauto|exact Hin]|exists a; split; [now left|exact Hin]].
Qed.

Definition good_at (k : key) (a : analysed) : Prop := good (all_recipes W k a) a.
Lemma good_below k a : good (plus (below k) (effects_of a)) a -> good_at k a.
Proof. apply good_mono, below_all. Qed.
Lemma no_effects_ok R : effects_ok R no_effects.
Proof. split; [|split]; intros x []. Qed.
Lemma good_plain k a : an_actions a = [] -> an_trees a = [] -> an_overlays a = [] ->
  good_result (plus (below k) (effects_of a)) (an_result a) -> good_at k a.
Proof. intros A T O H. apply good_below. split; [exact H|]. unfold effects_of. split; [|split]; cbn; intros x Hx; [rewrite A in Hx|rewrite T in Hx|rewrite O in Hx]; destruct Hx. Qed.

Section Step.
Variable k : key.
Local Notation P := (fun d v => analyses W d v /\ depends W k d v /\ good_at d v).

Lemma vals_good ks vs : Forall2 P ks vs -> forall v, In v vs -> good_result (below k) (an_result v).
Proof.
  intros H. induction H as [|d v ks vs (_ & Hd & Hg) _ IH]; intros w []; [subst w|now apply IH].
  eapply result_mono; [exact (of_dep _ _ _ Hd)|exact (proj1 Hg)].
Qed.
Lemma vals_good' ks vs e : Forall2 P ks vs -> forall v, In v vs -> good_result (plus (below k) e) (an_result v).
Proof. intros H v Hv. eapply result_mono; [apply sub_plus|eapply vals_good; eauto]. Qed.

Lemma one_good R m : stage_ok R m -> good_result R (mkResult m [] m).
Proof. intros H. split; [exact H|]. split; [exact H|]. intros x []. Qed.

Lemma rule_good t c r d a : k = (t, c) -> plain (r_expression r) -> plain_env c -> runsP P (withRuleDefinition W t c r d) a -> good_at k a.
Proof.
  intros Ek Pe Hc. unfold withRuleDefinition. cbv zeta. intros H.
  apply rp_bind in H as (p0 & E0 & H). apply rp_bind in H as (ts & _ & H). apply rp_bind in H as ([p1 declared] & E1 & H).
  apply rp_req in H as (vals & Hv & H). apply rp_bind in H as ([p3 ak] & E3 & H). apply rp_req in H as (avals & Hav & H).
  assert (A0 := eval_fields_plain _ _ _ [] p0 (fun _ X => match X with end) E0).
  assert (A1 := target_fields_plain _ _ _ _ _ _ _ _ _ A0 E1).
  assert (A3 : forall e, In e p3 -> plain (snd e)).
  { refine (anonymous_plain _ _ _ _ _ _ _ _ _ E3). intros e He. apply in_app_or in He as [He|He]; auto.
    apply in_map_iff in He as (q & <- & _). apply plain_list. intros x Hx. apply in_map_iff in Hx as (m & <- & _). intros y []. }
  unfold withDependencies in H. cbv zeta in H. apply rp_bind in H as (tn & _ & H). apply rp_if in H as [[_ H]|[_ H]]; [|inversion H].
  apply rp_bind in H as (p4 & E4 & H). apply rp_bind in H as ([v e] & Er & H).
  assert (A4 := eval_fields_plain _ _ _ _ _ A3 E4).
  apply (run_good (below k)) with (G := fun _ => False) in Er as [Rv Re].
  - destruct v as [| | | | | |s p rf cc| | |]; try (now inversion H). destruct s as [| | | | | | | | |sm]; try (now inversion H).
    destruct p as [| | | | | | | | |pm]; try (now inversion H). destruct rf as [| | | | | | | | |rm]; try (now inversion H).
    apply rp_pdone in H. subst a. apply good_below.
    assert (Ht := Rv _ (or_introl eq_refl)). cbn in Ht. destruct Ht as (s' & p' & r' & X1 & X2 & X3 & T1 & T2).
    injection X1 as <-. injection X2 as <-. injection X3 as <-.
    assert (Ee : effects_of (mkAnalysed (mkResult sm pm rm) (e_actions e) (e_blobs e) (e_trees e) (e_overlays e) [] [] [] None ([],[],[])) = e) by (destruct e; reflexivity).
    unfold effects_of in *. cbn [an_actions an_blobs an_trees an_overlays] in *. unfold good, effects_of. cbn [an_actions an_blobs an_trees an_overlays an_result]. rewrite Ee.
    split; [|exact Re]. split; [|split].
    + apply within_stage; auto. intros x Hx. apply Rv. right. now left.
    + apply within_stage; auto. intros x Hx. apply Rv. right. right. now right.
    + intros x Hx. apply Rv. right. right. now left.
  - exact A4.
  - intros [x1 x2] Hx. apply by_transition_origin in Hx as [[]|Hx]. cbn [snd]. apply in_combine_r in Hx.
    apply in_app_or in Hx as [Hx|Hx]; [exact (vals_good _ _ Hv _ Hx)|exact (vals_good _ _ Hav _ Hx)].
  - exact (HE _ _ Pe (prune_plain _ _ Hc)).
  - intros x [].
  - apply no_effects_ok.
Qed.

Lemma target_good a : clean k -> runsP P (program_of W k) a -> good_at k a.
Proof.
  intros Hc H. destruct k as [t c] eqn:Ek. rewrite <- Ek in *. assert (Hpd := PD t). unfold program_of in H. rewrite Ek in H.
  change (plain_env (snd k)) in Hc. rewrite Ek in Hc. cbn [snd] in Hc.
  destruct (w_definition W t) as [|st|sts|nm tr|nm ch|r|r dd|ty vars deps nm data tn|dj vars deps nm tn|vars deps files dirs tn
    |vars deps outs od cmds cwd env_e sh tmo props tn|vars te ce tn|fl te fx|fl] eqn:Ed; rewrite <- Ek in H.
  - inversion H.
  - apply rp_pdone in H. subst a. apply good_plain; try reflexivity. apply one_good. apply given_stage; [exact (tw_source W TW _ _ Ed)|].
    intros j Hj. eapply given_source; eauto.
  - apply rp_pdone in H. subst a. apply good_plain; try reflexivity. apply one_good. unfold glob_stage.
    assert (G : forall l m, (forall x, In x l -> In x sts) -> stage_ok (plus (below k) (effects_of (source_target (glob_stage sts)))) m ->
      stage_ok (plus (below k) (effects_of (source_target (glob_stage sts)))) (fold_left overwrite l m)).
    { induction l as [|x l IH]; intros m Hl Hm; cbn [fold_left]; auto. apply IH; [intros y Hy; apply Hl; now right|]. apply stage_overwrite; auto.
      apply given_stage; [exact (tw_glob W TW _ _ Ed x (Hl x (or_introl eq_refl)))|]. intros j Hj. eapply given_glob; [exact Ed|apply Hl; now left|exact Hj]. }
    apply G; auto. apply stage_nil.
  - apply rp_pdone in H. subst a. apply good_plain; try reflexivity. apply one_good. intros e [<-|[]]. exists tr. split; [reflexivity|].
    apply b_given. eapply given_tree; eauto.
  - unfold source_tree in H. apply rp_req in H as (vs & Hv & H). destruct (tree_entries vs []) as [ct|] eqn:Et; [|inversion H].
    apply rp_pdone in H. subst a. apply good_below.
    set (R := plus _ _).
    assert (Hct : forall i, In i ct -> B R (snd i)).
    { refine (tree_entries_ok R vs _ [] ct _ Et); [|intros i []]. intros v Hin. eapply vals_good'; eauto. }
    split.
    + apply one_good. intros e [<-|[]]. eexists. split; [reflexivity|]. apply b_tree; [cbn; auto|exact Hct].
    + split; [|split]; [intros x []|intros x [<-|[]]; exact Hct|intros x []].
  - apply rp_pdone in H. subst a. apply good_plain; try reflexivity. cbn [an_result]. apply given_good; [exact (tw_value W TW _ _ Ed)|].
    intros j Hj. eapply given_value; eauto.
  - eapply rule_good; eauto. apply Hpd.
  - unfold blob_gen in H. apply rp_bind in H as (v0 & _ & H). apply rp_bind in H as (nms & _ & H). apply rp_req in H as (vs & Hv & H).
    unfold blob_gen_with_deps in H. cbv zeta in H. apply rp_bind in H as (tl & _ & H). apply rp_if in H as [[_ H]|[_ H]]; [|inversion H].
    apply rp_bind in H as (nv & _ & H). destruct nv as [| | |n| | | | | |]; try (now inversion H).
    apply rp_bind in H as (dv & _ & H). destruct dv as [| | |s| | | | | |]; try (now inversion H).
    apply rp_if in H as [[_ H]|[_ H]]; [|inversion H]. apply rp_pdone in H. subst a. apply good_plain; try reflexivity.
    apply one_good. intros e [<-|[]]. eexists. split; [reflexivity|]. apply b_blob. cbn. auto.
  - unfold tree_rule in H. apply rp_bind in H as (v0 & _ & H). apply rp_bind in H as (nms & _ & H). apply rp_bind in H as (nv & _ & H).
    destruct nv as [| | |n| | | | | |]; try (now inversion H). apply rp_req in H as (vs & Hv & H).
    unfold tree_with_deps in H. cbv zeta in H. apply rp_bind in H as (tl & _ & H). apply rp_if in H as [[_ H]|[_ H]]; [|inversion H].
    destruct dj as [dj|].
    + apply rp_pdone in H. subst a. apply good_below. set (R := plus _ _).
      set (cs := map (fun v => tree_content (t_stage (an_result v))) vs) in *.
      assert (Hcs : forall ct, In ct cs -> forall i, In i ct -> B R (snd i)).
      { intros ct Hin. subst cs. apply in_map_iff in Hin as (v & <- & Hin). apply tree_content_ok. exact (proj1 (vals_good' _ _ _ Hv v Hin)). }
      assert (Hparts : forall p, In p (map (fun x => art_ToJson (ATree (tree_id (w_ndump W) (w_hash W) x))) cs) -> B R p).
      { intros p Hp. apply in_map_iff in Hp as (ct & <- & Hin). apply b_tree; [|exact (Hcs ct Hin)]. subst R. cbn. auto. }
      split.
      * apply one_good. intros e [<-|[]]. eexists. split; [reflexivity|]. apply b_overlay; [subst R; cbn; auto|exact Hparts].
      * split; [|split].
        -- intros x [].
        -- exact Hcs.
        -- intros x [<-|[]]. exact Hparts.
    + apply rp_bind in H as (stage & Em & H). destruct (tree_conflict stage); [inversion H|]. apply rp_pdone in H. subst a. apply good_below.
      set (R := plus _ _).
      assert (Hs : stage_ok R stage).
      { eapply stage_merge_all; [apply stage_nil| |exact Em]. intros x Hx. apply in_map_iff in Hx as (v & <- & Hin).
        destruct (vals_good' _ _ (effects_of (mkAnalysed (mkResult [(n, tree_artifact W (tree_content stage))] [] [(n, tree_artifact W (tree_content stage))]) [] [] [tree_content stage] [] (vars ++ flat_map an_vars vs) (sorted_set tl) (implied_of vs) (Some (t, Prune c (vars ++ flat_map an_vars vs))) (map an_node vs, [], []))) Hv v Hin) as (A1 & A2 & _).
        apply stage_overwrite; [exact A2|exact A1]. }
      assert (Hct := tree_content_ok R stage Hs).
      split.
      * apply one_good. intros e [<-|[]]. eexists. split; [reflexivity|]. apply b_tree; [subst R; cbn; auto|exact Hct].
      * split; [|split].
        -- intros x [].
        -- intros x [<-|[]]. exact Hct.
        -- intros x [].
  - unfold install_rule in H. cbv zeta in H. apply rp_bind in H as (dv & _ & H). apply rp_bind in H as (dn & _ & H).
    destruct files as [| | | | | | | | |fm]; try (now inversion H). apply rp_bind in H as (fl & _ & H). apply rp_bind in H as (dirv & _ & H).
    destruct dirv as [| | | | | | | |dl|]; try (now inversion H). apply rp_bind in H as (dirl & _ & H). apply rp_req in H as (vs & Hv & H).
    unfold install_with_deps in H. cbv zeta in H. apply rp_bind in H as (tl & _ & H). apply rp_if in H as [[_ H]|[_ H]]; [|inversion H].
    apply rp_bind in H as (rfs & Er & H). apply rp_bind in H as (stage & Es & H). apply rp_bind in H as (fst_ & Ef & H).
    apply rp_bind in H as (dst & Edd & H). apply rp_bind in H as (fin & Efin & H). destruct (tree_conflict fin); [inversion H|].
    apply rp_pdone in H. subst a. apply good_plain; try reflexivity. cbn [an_result].
    assert (Hf : forall x y, by_target W (dn ++ map snd fl ++ map fst dirl) vs x = Some y -> good_result (below k) (an_result y)).
    { intros x y Hxy. unfold by_target in Hxy. match type of Hxy with context [find ?g ?l] => destruct (find g l) as [[t0 a0]|] eqn:E end; [|discriminate].
      cbn in Hxy. injection Hxy as <-. apply find_some in E as [E _]. apply in_combine_r in E. exact (vals_good _ _ Hv _ E). }
    eapply result_mono; [apply sub_plus|]. apply one_good.
    eapply stage_merge_all; [|eapply install_dirs_ok; eauto|exact Efin].
    apply stage_overwrite; [eapply stage_merge_all; [apply stage_nil|eapply runfiles_ok; eauto|exact Es]|].
    eapply install_files_ok; [exact Hf|apply stage_nil|exact Ef].
  - unfold generic_rule in H. destruct (evaluate W deps (Prune c vars)) as [v|]; [|inversion H].
    apply rp_bind in H as (nms & _ & H). apply rp_req in H as (vs & Hv & H).
    unfold generic_with_deps in H. cbv zeta in H. apply rp_bind in H as (tl & _ & H). apply rp_if in H as [[_ H]|[_ H]]; [|inversion H].
    apply rp_bind in H as (ol & _ & H). apply rp_bind in H as (odl & _ & H). apply rp_bind in H as (? & _ & H).
    apply rp_bind in H as (? & _ & H). apply rp_bind in H as (cl & _ & H). apply rp_bind in H as (cw & _ & H).
    destruct cw as [| | |wd| | | | | |]; try (now inversion H). apply rp_bind in H as (? & _ & H). apply rp_bind in H as (em & _ & H).
    apply rp_bind in H as (shl & _ & H). apply rp_bind in H as (sc & _ & H). apply rp_bind in H as (pm & _ & H).
    set (inputs := fold_left (fun m a => overwrite m (t_stage (an_result a))) vs _) in H.
    destruct (tree_conflict inputs) eqn:Ec; [inversion H|].
    destruct (add_dir_for (w_ndump W) (w_hash W) wd inputs) as [final trees] eqn:Ead.
    match type of H with context [tree_conflict ?s] => destruct (tree_conflict s) eqn:Ec2; [inversion H|] end.
    apply rp_pdone in H. subst a. apply good_below. set (R := plus _ _).
    assert (Hin : stage_ok R inputs).
    { subst inputs. apply stage_overwrites; [intros v' Hv'; exact (proj1 (vals_good' _ _ _ Hv _ Hv'))|].
      apply stage_overwrites; [intros v' Hv'; exact (proj1 (proj2 (vals_good' _ _ _ Hv _ Hv')))|]. apply stage_nil. }
    assert (Hf := add_dir_ok R wd inputs Hin). rewrite Ead in Hf. cbn [fst snd] in Hf.
    destruct Hf as [Hf Hnt]. { intros ct Hct. subst R. cbn. auto. }
    assert (Hacts : forall o, In o (sorted_set (map ToNormalPath ol)) \/ In o (sorted_set (map ToNormalPath odl)) -> _) by
      (intros o Ho; refine (created_outputs R _ _ _ _ _ _ _ _ _ _ o Hf _ Ho); subst R; cbn; right; left; reflexivity).
    split.
    + split; [|split; [apply stage_nil|intros ? []]]. apply insert_all_ok; [|apply insert_all_ok; [|apply stage_nil]].
      * intros o Ho. eexists. split; [reflexivity|]. apply Hacts. auto.
      * intros o Ho. eexists. split; [reflexivity|]. apply Hacts. auto.
    + split; [|split].
      * intros ? [<-|[]] i Hi. cbn in Hi. apply in_map_iff in Hi as (q & <- & Hq). destruct (Hf q Hq) as (j & E & Hj). cbn. now rewrite E.
      * intros y Hy. cbn in Hy. rewrite (Hnt y Hy). intros i [].
      * intros ? [].
  - unfold configure_rule in H. cbv zeta in H. apply rp_bind in H as (ct & _ & H). apply rp_bind in H as (tl & _ & H).
    destruct ce as [| | | | | | | | |cm]; try (now inversion H). apply rp_bind in H as (tr & _ & H).
    destruct tr as [| | | | | | | | |tm]; try (now inversion H). apply rp_req in H as (vs & Hv & H).
    destruct vs as [|v [|]]; try (now inversion H). apply rp_if in H as [[_ H]|[_ H]]; [|inversion H]. apply rp_pdone in H. subst a.
    apply good_plain; try reflexivity. cbn [an_result]. exact (vals_good' _ _ _ Hv v (or_introl eq_refl)).
  - unfold export_rule in H. cbv zeta in H.
    assert (Hu : forall ck, runsP P (export_uncached W fl te fx t (Prune c fl) ck) a -> good_at k a).
    { intros ck Hu. unfold export_uncached in Hu. apply rp_bind in Hu as (et & _ & Hu). destruct fx as [| | | | | | | | |fm]; try (now inversion Hu).
      apply rp_if in Hu as [[_ Hu]|[_ Hu]]; [inversion Hu|]. apply rp_req in Hu as (vs & Hv & Hu). destruct vs as [|v [|]]; try (now inversion Hu).
      unfold finalize_export in Hu. apply rp_if in Hu as [[_ Hu]|[_ Hu]]; [inversion Hu|]. apply rp_if in Hu as [[_ Hu]|[_ Hu]]; [inversion Hu|].
      cbv zeta in Hu. apply rp_pdone in Hu. subst a. apply good_plain; try reflexivity. cbn [an_result]. exact (vals_good' _ _ _ Hv v (or_introl eq_refl)). }
    apply rp_if in H as [[_ H]|[_ H]].
    + destruct (w_cache_key W t (Prune c fl)) as [s|]; [|exact (Hu _ H)].
      destruct (w_served W s) as [| |[[r im]|]] eqn:Es; try (exact (Hu _ H)); [inversion H|].
      apply rp_pdone in H. subst a. apply good_plain; try reflexivity. cbn [an_result from_entry].
      apply given_good; [apply (tw_served W TW s r im); now left|]. intros j Hj. eapply given_served; eauto.
    + apply rp_req in H as (vs & Hv & H). unfold first_value in H. destruct vs as [|v [|]]; try (now inversion H). apply rp_pdone in H. subst a.
      inversion Hv as [|? ? ? ? (_ & Hd & Hok) _]; subst. eapply good_mono; [|exact Hok].
      eapply sub_trans; [exact (of_dep _ _ _ Hd)|]. eapply sub_trans; [apply sub_plus|apply below_all].
  - unfold absent_target in H. cbv zeta in H. apply rp_if in H as [[_ H]|[_ H]].
    + destruct (w_cache_key W t (Prune c fl)) as [s|]; [|inversion H].
      destruct (w_served_absent W s) as [| |[[r im]|]] eqn:Es; try (now inversion H).
      apply rp_pdone in H. subst a. apply good_plain; try reflexivity. cbn [an_result from_entry].
      apply given_good; [apply (tw_served W TW s r im); now right|]. intros j Hj. eapply given_absent; eauto.
    + apply rp_req in H as (vs & Hv & H). unfold first_value in H. destruct vs as [|v [|]]; try (now inversion H). apply rp_pdone in H. subst a.
      inversion Hv as [|? ? ? ? (_ & Hd & Hok) _]; subst. eapply good_mono; [|exact Hok].
      eapply sub_trans; [exact (of_dep _ _ _ Hd)|]. eapply sub_trans; [apply sub_plus|apply below_all].
Qed.
End Step.

Theorem all_good k a : analyses W k a -> clean k -> good_at k a.
Proof. apply (clean_ind W HE PD good_at). intros k' a' Hc _ H. exact (target_good k' a' Hc H). Qed.
End World.
