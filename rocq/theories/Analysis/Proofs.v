(** Dependence on the configuration and determinism. *)
From Coq Require Import String Ascii List Bool Arith Lia.
From Verif Require Import Common.Strs LinkedMap.Model LinkedMap.Spec LinkedMap.Proofs Path.Model.
From Verif Require Import Expr.Json Expr.Model Expr.OpsProofs Describe.Model.
From Verif Require Import Analysis.Stage Analysis.Model Analysis.Spec.
Import ListNotations.
Local Open Scope string_scope.
Local Open Scope list_scope.
Local Open Scope nat_scope.

Section Runs.
Variable W : world.

(** Runs with a property of the requested results. *)
Inductive runsP (P : key -> analysed -> Prop) : prog -> analysed -> Prop :=
| rp_done a : runsP P (PDone a) a
| rp_request ks k vs a : Forall2 P ks vs -> runsP P (k vs) a -> runsP P (PRequest ks k) a.

Scheme analyses_mut := Minimality for analyses Sort Prop
with runs_mut := Minimality for runs Sort Prop
with all_mut := Minimality for all_analyse Sort Prop.

Lemma all_Forall2 ks vs : all_analyse W ks vs <-> Forall2 (analyses W) ks vs.
Proof. split; induction 1; constructor; auto. Qed.

Lemma analyses_ind' (P : key -> analysed -> Prop) :
  (forall k a, runsP (fun d v => analyses W d v /\ P d v) (program_of W k) a -> P k a) ->
  forall k a, analyses W k a -> P k a.
Proof.
  intros HP.
  apply (analyses_mut W (fun k a => P k a)
           (fun p a => runsP (fun d v => analyses W d v /\ P d v) p a)
           (fun ks vs => Forall2 (fun d v => analyses W d v /\ P d v) ks vs)).
  - intros k a _ H. now apply HP.
  - intros a. constructor.
  - intros ks k vs a _ H1 _ H2. econstructor; eauto.
  - constructor.
  - intros k ks v vs H1 H2 _ H3. constructor; auto.
Qed.

Lemma runsP_runs (P : key -> analysed -> Prop) p a : (forall k v, P k v -> analyses W k v) -> runsP P p a -> runs W p a.
Proof.
  intros HP. induction 1 as [a|ks k vs a Hf Hr IH]; [constructor|].
  econstructor; [|exact IH]. apply all_Forall2. clear -Hf HP. induction Hf; constructor; auto.
Qed.
Lemma runs_runsP p a : runs W p a -> runsP (analyses W) p a.
Proof.
  apply (runs_mut W (fun _ _ => True) (fun p a => runsP (analyses W) p a) (fun ks vs => Forall2 (analyses W) ks vs));
    intros; auto; econstructor; eauto.
Qed.
Lemma analyses_inv k a : analyses W k a -> runsP (analyses W) (program_of W k) a.
Proof. intros H. inversion H; subst. now apply runs_runsP. Qed.
Lemma analyses_of k a : runsP (analyses W) (program_of W k) a -> analyses W k a.
Proof. intros H. constructor. eapply runsP_runs; eauto. Qed.

(** Every successful analysis has one result. *)
Lemma runsP_det p a : runsP (fun d v => analyses W d v /\ forall v', analyses W d v' -> v = v') p a ->
  forall a', runsP (analyses W) p a' -> a = a'.
Proof.
  induction 1 as [a|ks k vs a Hf Hr IH]; intros a' Ha'; inversion Ha'; subst; auto.
  apply IH. assert (vs = vs0) as ->; auto.
  match goal with H : Forall2 (analyses W) ks vs0 |- _ => rename H into Hf' end.
  clear -Hf Hf'. revert vs0 Hf'. induction Hf as [|d v ks vs [Hd Hu] Hf IH]; intros vs0 Hf'; inversion Hf'; subst; auto.
  f_equal; auto.
Qed.
Lemma analyses_det k a : analyses W k a -> forall a', analyses W k a' -> a = a'.
Proof.
  revert k a. apply (analyses_ind' (fun k a => forall a', analyses W k a' -> a = a')).
  intros k a H a' Ha'. eapply runsP_det; eauto. now apply analyses_inv.
Qed.

(** Inversion and construction of runs. *)
Section Inv.
Variable P : key -> analysed -> Prop.
Lemma rp_bind {A} (x : option A) f a : runsP P (pbind x f) a -> exists y, x = Some y /\ runsP P (f y) a.
Proof. destruct x; cbn; intros H; [eauto|inversion H]. Qed.
Lemma rp_fail a : runsP P PFail a -> False.
Proof. inversion 1. Qed.
Lemma rp_crash a : runsP P PCrash a -> False.
Proof. inversion 1. Qed.
Lemma rp_pdone a b : runsP P (PDone a) b -> b = a.
Proof. now inversion 1. Qed.
Lemma rp_req ks k a : runsP P (PRequest ks k) a -> exists vs, Forall2 P ks vs /\ runsP P (k vs) a.
Proof. inversion 1; subst; eauto. Qed.
Lemma rp_if (b : bool) p q a : runsP P (if b then p else q) a -> (b = true /\ runsP P p a) \/ (b = false /\ runsP P q a).
Proof. destruct b; auto. Qed.
End Inv.

Lemma agree_sub vs ws c1 c2 : agree vs c1 c2 -> incl ws vs -> agree ws c1 c2.
Proof. intros H Hi x Hx. auto. Qed.
Lemma prune_agree' vs c1 c2 : agree vs c1 c2 -> Prune c1 vs = Prune c2 vs.
Proof.
  intros Ha. unfold Prune. f_equal. generalize (@nil (string * expr)).
  induction vs as [|x r IH]; intros acc; cbn; auto.
  rewrite IH by (intros y Hy; apply Ha; now right). f_equal. f_equal. apply (Ha x). now left.
Qed.

Lemma update_find c tr x :
  Find (update c tr) x = match Find (map_expr tr) x with Some v => Some v | None => Find c x end.
Proof.
  unfold update, UpdateExpr. destruct (empty (map_expr tr)) eqn:E.
  - assert (Find (map_expr tr) x = None) as ->; auto. destruct tr; auto. cbn in E |- *. destruct m; auto. discriminate.
  - destruct tr; try discriminate E. cbn [map_expr] in *. cbn [Find IsNotNull].
    destruct (alookup x m); auto. destruct c; auto.
Qed.

Lemma agree_update vs tr c1 c2 :
  agree (filter (fun x => negb (fixed_by tr x)) vs) c1 c2 -> agree vs (update c1 tr) (update c2 tr).
Proof.
  intros Ha x Hx. unfold env_get. rewrite !update_find. destruct (Find (map_expr tr) x) eqn:E; auto.
  apply (Ha x). apply filter_In. split; auto. unfold fixed_by, VariableFixed. now rewrite E.
Qed.

(** The first result for a name and a transition is the one of every request for them. *)
Hypothesis FE : faithful_equality W.

Lemma same_dep_eq a b : same_dep W a b = true -> a = b.
Proof.
  unfold same_dep, eqt, eqe. intros H. apply andb_prop in H as [H1 H2].
  apply (fe_target W FE) in H1. apply (fe_expr W FE) in H2. destruct a, b; cbn in *; congruence.
Qed.

Lemma by_transition_acc ks : forall vs acc e, In e acc -> In e (by_transition W ks vs acc).
Proof.
  induction ks as [|k r IH]; intros [|v vs] acc e He; cbn; auto.
  apply IH. match goal with |- context [existsb ?f acc] => destruct (existsb f acc) end; auto. apply in_or_app. auto.
Qed.
Lemma by_transition_origin ks : forall vs acc e, In e (by_transition W ks vs acc) -> In e acc \/ In e (combine ks vs).
Proof.
  induction ks as [|k r IH]; intros [|v vs] acc e He; cbn in *; auto.
  apply IH in He as [He|He]; auto. match type of He with context [existsb ?f acc] => destruct (existsb f acc) end; auto.
  apply in_app_or in He as [He|[<-|[]]]; auto.
Qed.
Lemma by_transition_present ks : forall vs acc k v, In (k, v) (combine ks vs) -> exists v', In (k, v') (by_transition W ks vs acc).
Proof.
  induction ks as [|k0 r IH]; intros [|v0 vs] acc k v He; cbn in *; try contradiction.
  destruct He as [He|He]; [|now apply (IH vs _ k v)]. injection He as -> ->.
  match goal with |- context [existsb ?f acc] => destruct (existsb f acc) eqn:E end.
  - apply existsb_exists in E as [[k' v'] [Hi Hs]]. cbn in Hs. apply same_dep_eq in Hs as ->.
    exists v'. now apply by_transition_acc.
  - exists v. apply by_transition_acc. apply in_or_app. right. now left.
Qed.

(** What a list of requests contributes: with a new configuration that agrees on the variables of the
    results not fixed by the transition, the results are the same. *)
Definition indep (k : key) (a : analysed) : Prop :=
  forall c', agree (an_vars a) (snd k) c' -> analyses W (fst k, c') a.
Definition good (d : key) (v : analysed) : Prop := analyses W d v /\ indep d v.

Lemma requests_move (c c' : env) ks vs :
  Forall2 good (keys_in c ks) vs ->
  (forall t tr v, In ((t, tr), v) (combine ks vs) ->
     agree (filter (fun x => negb (fixed_by tr x)) (an_vars v)) c c') ->
  Forall2 (analyses W) (keys_in c' ks) vs.
Proof.
  revert vs. induction ks as [|[t tr] r IH]; intros vs Hf Ha; inversion Hf; subst; cbn; constructor.
  - match goal with H : good _ _ |- _ => destruct H as [H Hi]; cbn in Hi end.
    apply Hi. cbn. apply agree_update. apply (Ha t tr). now left.
  - apply IH; auto. intros t0 tr0 v Hv. apply (Ha t0 tr0). now right.
Qed.

Lemma combine_keys_in c ks : forall vs t tr v, Forall2 good (keys_in c ks) vs ->
  In ((t, tr), v) (combine ks vs) -> analyses W (t, update c tr) v.
Proof.
  induction ks as [|[t0 tr0] r IH]; intros vs t tr v Hf Hi; inversion Hf; subst; cbn in Hi; [contradiction|].
  destruct Hi as [E|Hi]; [|now apply (IH l')].
  injection E as -> -> ->. match goal with H : good _ _ |- _ => exact (proj1 H) end.
Qed.

(** The variables recorded for the dependencies cover those of every requested result. *)
Lemma covered c ks vs t tr v :
  Forall2 good (keys_in c ks) vs -> In ((t, tr), v) (combine ks vs) ->
  incl (filter (fun x => negb (fixed_by tr x)) (an_vars v))
       (flat_map (fun e : dep_entry => filter (fun x => negb (fixed_by (snd (fst e)) x)) (an_vars (snd e))) (by_transition W ks vs [])).
Proof.
  intros Hf Hi x Hx. destruct (by_transition_present ks vs [] (t, tr) v Hi) as [v' Hv'].
  assert (v = v') as ->.
  { apply (analyses_det (t, update c tr)). { eapply combine_keys_in; eauto. }
    apply by_transition_origin in Hv' as [[]|Hv']. eapply combine_keys_in; eauto. }
  apply in_flat_map. exists ((t, tr), v'). auto.
Qed.

Lemma Forall2_app_inv_len {A B} (R : A -> B -> Prop) l1 l2 m1 m2 :
  Forall2 R l1 m1 -> Forall2 R l2 m2 -> Forall2 R (l1 ++ l2) (m1 ++ m2).
Proof. induction 1; cbn; auto. Qed.
Lemma keys_in_app c a b : keys_in c (a ++ b) = keys_in c a ++ keys_in c b.
Proof. apply map_app. Qed.
Lemma combine_app_l {A B} (a1 a2 : list A) (b1 b2 : list B) : length a1 = length b1 ->
  combine (a1 ++ a2) (b1 ++ b2) = combine a1 b1 ++ combine a2 b2.
Proof. revert b1. induction a1 as [|x r IH]; intros [|y b] H; cbn in *; try discriminate; auto. rewrite IH; auto. Qed.
Lemma F2_length {A B} (R : A -> B -> Prop) l m : Forall2 R l m -> length l = length m.
Proof. induction 1; cbn; auto. Qed.
Lemma keys_in_length c ks (vs : list analysed) R : Forall2 R (keys_in c ks) vs -> length ks = length vs.
Proof. intros H. apply F2_length in H. unfold keys_in in H. now rewrite map_length in H. Qed.

(** User-defined rules. *)
Lemma rule_indep t c c' r d a :
  runsP good (withRuleDefinition W t c r d) a -> agree (an_vars a) c c' ->
  runsP (analyses W) (withRuleDefinition W t c' r d) a.
Proof.
  unfold withRuleDefinition. cbv zeta. intros H Ha.
  apply rp_bind in H as (params0 & E0 & H).
  apply rp_bind in H as (ts & E1 & H).
  apply rp_bind in H as ([params1 declared] & E2 & H).
  apply rp_req in H as (vals & Hv & H).
  apply rp_bind in H as ([params3 akeys] & E3 & H).
  apply rp_req in H as (avals & Hav & H).
  remember (map snd (declared ++ implicit_keys r ts)) as tkeys eqn:Et.
  pose proof H as H'. unfold withDependencies in H'. cbv zeta in H'.
  apply rp_bind in H' as (tainted0 & T0 & H').
  apply rp_if in H' as [[T1 H']|[_ H']]; [|now inversion H'].
  apply rp_bind in H' as (params4 & E4 & H').
  apply rp_bind in H' as ([v e] & E5 & H').
  assert (Hvars : exists s p rf, v = EResult (EMap s) (EMap p) (EMap rf) (match v with EResult _ _ _ b => b | _ => false end) /\
    an_vars a = td_vars d ++ r_config_vars r ++
      flat_map (fun e : dep_entry => filter (fun x => negb (fixed_by (snd (fst e)) x)) (an_vars (snd e)))
        (by_transition W (tkeys ++ akeys) (vals ++ avals) [])).
  { destruct v; try (now inversion H'). destruct v1; try (now inversion H'). destruct v2; try (now inversion H').
    destruct v3; try (now inversion H'). apply rp_pdone in H' as ->. cbn. eauto 10. }
  destruct Hvars as (s & p & rf & Ev & Hvars).
  assert (A1 : Prune c (td_vars d) = Prune c' (td_vars d)).
  { apply prune_agree'. eapply agree_sub; eauto. rewrite Hvars. intros x Hx. apply in_or_app. auto. }
  assert (A2 : Prune c (r_config_vars r) = Prune c' (r_config_vars r)).
  { apply prune_agree'. eapply agree_sub; eauto. rewrite Hvars. intros x Hx. apply in_or_app. right. apply in_or_app. auto. }
  assert (Hall : Forall2 good (keys_in c (tkeys ++ akeys)) (vals ++ avals)).
  { rewrite keys_in_app. now apply Forall2_app_inv_len. }
  assert (Hlen : length tkeys = length vals) by (eapply keys_in_length; eauto).
  assert (Hcov : forall t0 tr0 v0, In ((t0, tr0), v0) (combine (tkeys ++ akeys) (vals ++ avals)) ->
            agree (filter (fun x => negb (fixed_by tr0 x)) (an_vars v0)) c c').
  { intros t0 tr0 v0 Hi. eapply agree_sub; eauto. rewrite Hvars. intros x Hx. apply in_or_app. right. apply in_or_app. right.
    eapply covered; eauto. }
  rewrite <- A1, <- A2, E0. cbn [pbind]. rewrite E1. cbn [pbind]. rewrite E2. cbn [pbind].
  rewrite <- Et.
  apply rp_request with (vs := vals).
  { apply requests_move with (c := c); auto. intros t0 tr0 v0 Hi. apply (Hcov t0 tr0).
    rewrite combine_app_l by auto. apply in_or_app. auto. }
  rewrite E3. cbn [pbind].
  apply rp_request with (vs := avals).
  { apply requests_move with (c := c); auto. intros t0 tr0 v0 Hi. apply (Hcov t0 tr0).
    rewrite combine_app_l by auto. apply in_or_app. auto. }
  unfold withDependencies. cbv zeta. rewrite <- A1, T0. cbn [pbind]. rewrite T1. rewrite E4. cbn [pbind].
  rewrite <- A2, E5. cbn [pbind]. rewrite Ev in H' |- *.
  apply rp_pdone in H'. rewrite H'. cbn [an_vars] in Hvars.
  rewrite (prune_agree' _ c c') by (rewrite H' in Ha; exact Ha). constructor.
Qed.

(** Requests with the configuration of the target itself. *)
Lemma plain_move c c' ts vs : Forall2 good (plain_deps c ts) vs -> agree (flat_map an_vars vs) c c' ->
  Forall2 (analyses W) (plain_deps c' ts) vs.
Proof.
  revert vs. induction ts as [|t r IH]; intros vs Hf Ha; inversion Hf; subst; cbn; constructor.
  - match goal with H : good _ _ |- _ => destruct H as [_ Hi] end. apply Hi. cbn.
    eapply agree_sub; eauto. intros x Hx. cbn. apply in_or_app. auto.
  - apply IH; auto. eapply agree_sub; eauto. intros x Hx. cbn. apply in_or_app. auto.
Qed.

Ltac inv_done H := apply rp_pdone in H; subst.

Lemma blob_gen_indep type vars deps name data tn t c c' a :
  runsP good (blob_gen W type vars deps name data tn t c) a -> agree (an_vars a) c c' ->
  runsP (analyses W) (blob_gen W type vars deps name data tn t c') a.
Proof.
  unfold blob_gen. intros H Ha.
  apply rp_bind in H as (v & E0 & H). apply rp_bind in H as (names & E1 & H).
  apply rp_req in H as (vals & Hv & H). unfold blob_gen_with_deps in H. cbv zeta in H.
  apply rp_bind in H as (tainted & T0 & H). apply rp_if in H as [[T1 H]|[_ H]]; [|now inversion H].
  apply rp_bind in H as (nv & E2 & H). destruct nv; try (now inversion H).
  apply rp_bind in H as (dv & E3 & H). destruct dv; try (now inversion H).
  apply rp_if in H as [[E4 H]|[_ H]]; [|now inversion H]. inv_done H. cbn [an_vars] in Ha.
  assert (A1 : Prune c vars = Prune c' vars).
  { apply prune_agree'. eapply agree_sub; eauto. intros x Hx. apply in_or_app. auto. }
  rewrite <- A1, E0. cbn [pbind]. rewrite E1. cbn [pbind].
  apply rp_request with (vs := vals). { eapply plain_move; eauto. eapply agree_sub; eauto. intros x Hx. apply in_or_app. auto. }
  unfold blob_gen_with_deps. cbv zeta. rewrite <- A1, T0. cbn [pbind]. rewrite T1, E2. cbn [pbind]. rewrite E3. cbn [pbind].
  rewrite E4. rewrite (prune_agree' _ c c' Ha). constructor.
Qed.

Lemma tree_indep disj vars deps name tn t c c' a :
  runsP good (tree_rule W disj vars deps name tn t c) a -> agree (an_vars a) c c' ->
  runsP (analyses W) (tree_rule W disj vars deps name tn t c') a.
Proof.
  unfold tree_rule. intros H Ha.
  apply rp_bind in H as (v & E0 & H). apply rp_bind in H as (names & E1 & H).
  apply rp_bind in H as (nv & E2 & H). destruct nv; try (now inversion H).
  apply rp_req in H as (vals & Hv & H). unfold tree_with_deps in H. cbv zeta in H.
  apply rp_bind in H as (tainted & T0 & H). apply rp_if in H as [[T1 H]|[_ H]]; [|now inversion H].
  assert (Hvars : an_vars a = vars ++ flat_map an_vars vals).
  { destruct disj; [inv_done H; auto|]. apply rp_bind in H as (st & E3 & H).
    destruct (tree_conflict st); [now inversion H|]. inv_done H; auto. }
  rewrite Hvars in Ha.
  assert (A1 : Prune c vars = Prune c' vars).
  { apply prune_agree'. eapply agree_sub; eauto. intros x Hx. apply in_or_app. auto. }
  rewrite <- A1, E0. cbn [pbind]. rewrite E1. cbn [pbind]. rewrite E2. cbn [pbind].
  apply rp_request with (vs := vals). { eapply plain_move; eauto. eapply agree_sub; eauto. intros x Hx. apply in_or_app. auto. }
  unfold tree_with_deps. cbv zeta. rewrite <- A1, T0. cbn [pbind]. rewrite T1.
  rewrite <- (prune_agree' _ c c' Ha).
  destruct disj; [inv_done H; constructor|]. apply rp_bind in H as (st & E3 & H). rewrite E3. cbn [pbind].
  destruct (tree_conflict st); [now inversion H|]. inv_done H. constructor.
Qed.

Lemma install_indep vars deps files dirs tn t c c' a :
  runsP good (install_rule W vars deps files dirs tn t c) a -> agree (an_vars a) c c' ->
  runsP (analyses W) (install_rule W vars deps files dirs tn t c') a.
Proof.
  unfold install_rule. cbv zeta. intros H Ha.
  apply rp_bind in H as (v & E0 & H). apply rp_bind in H as (dn & E1 & H).
  destruct files; try (now inversion H).
  apply rp_bind in H as (fl & E2 & H). apply rp_bind in H as (dv & E3 & H). destruct dv; try (now inversion H).
  apply rp_bind in H as (dirl & E4 & H).
  apply rp_req in H as (vals & Hv & H). unfold install_with_deps in H. cbv zeta in H.
  apply rp_bind in H as (tainted & T0 & H). apply rp_if in H as [[T1 H]|[_ H]]; [|now inversion H].
  apply rp_bind in H as (x1 & F1 & H). apply rp_bind in H as (x2 & F2 & H). apply rp_bind in H as (x3 & F3 & H).
  apply rp_bind in H as (x4 & F4 & H). apply rp_bind in H as (x5 & F5 & H).
  destruct (tree_conflict x5) eqn:F6; [now inversion H|]. inv_done H. cbn [an_vars] in Ha.
  assert (A1 : Prune c vars = Prune c' vars).
  { apply prune_agree'. eapply agree_sub; eauto. intros x Hx. apply in_or_app. auto. }
  rewrite <- A1, E0. cbn [pbind]. rewrite E1. cbn [pbind]. rewrite E2. cbn [pbind]. rewrite E3. cbn [pbind]. rewrite E4. cbn [pbind].
  apply rp_request with (vs := vals). { eapply plain_move; eauto. eapply agree_sub; eauto. intros x Hx. apply in_or_app. auto. }
  unfold install_with_deps. cbv zeta. rewrite <- A1, T0. cbn [pbind]. rewrite T1.
  rewrite F1; cbn [pbind]; rewrite F2; cbn [pbind]; rewrite F3; cbn [pbind]; rewrite F4; cbn [pbind]; rewrite F5; cbn [pbind]; rewrite F6.
  rewrite <- (prune_agree' _ c c' Ha). constructor.
Qed.

Lemma generic_covered c ts vs : Forall2 good (plain_deps c ts) vs ->
  incl (flat_map an_vars vs)
       (flat_map (fun e : dep_entry => an_vars (snd e)) (by_transition W (map (fun n => (n, EMap [])) ts) vs [])).
Proof.
  intros Hf x Hx. apply in_flat_map in Hx as [v [Hv Hx]].
  assert (Hp : exists t, In ((t, EMap []), v) (combine (map (fun n => (n, EMap [])) ts) vs)).
  { clear -Hf Hv. revert vs Hf Hv. induction ts as [|t r IH]; intros vs Hf Hv; inversion Hf; subst; [destruct Hv|].
    destruct Hv as [->|Hv]; [exists t; now left|]. destruct (IH _ H3 Hv) as [t' Ht']. exists t'. now right. }
  destruct Hp as [t Ht]. destruct (by_transition_present _ _ [] _ _ Ht) as [v' Hv'].
  assert (Hk : forall v0, In ((t, EMap []), v0) (combine (map (fun n => (n, EMap [])) ts) vs) -> analyses W (t, c) v0).
  { clear -Hf. revert vs Hf. induction ts as [|t0 r IH]; intros vs Hf v0 Hi; inversion Hf; subst; cbn in Hi; [destruct Hi|].
    destruct Hi as [E|Hi]; [injection E as -> ->; exact (proj1 H1)|eauto]. }
  assert (v = v') as ->.
  { apply (analyses_det (t, c)); auto. apply by_transition_origin in Hv' as [[]|Hv']; auto. }
  apply in_flat_map. exists ((t, EMap []), v'). auto.
Qed.

Lemma generic_indep vars deps outs od cmds cwd env_e sh tmo props tn t c c' a :
  runsP good (generic_rule W vars deps outs od cmds cwd env_e sh tmo props tn t c) a -> agree (an_vars a) c c' ->
  runsP (analyses W) (generic_rule W vars deps outs od cmds cwd env_e sh tmo props tn t c') a.
Proof.
  unfold generic_rule. intros H Ha. destruct (evaluate W deps (Prune c vars)) as [v|] eqn:E0; [|now inversion H].
  apply rp_bind in H as (names & E1 & H). apply rp_req in H as (vals & Hv & H).
  pose proof H as H0. unfold generic_with_deps in H. cbv zeta in H.
  apply rp_bind in H as (tainted & T0 & H). apply rp_if in H as [[T1 H]|[_ H]]; [|now inversion H].
  apply rp_bind in H as (x1 & F1 & H). apply rp_bind in H as (x2 & F2 & H). apply rp_bind in H as (x3 & F3 & H).
  apply rp_bind in H as (x4 & F4 & H). apply rp_bind in H as (x5 & F5 & H). apply rp_bind in H as (x6 & F6 & H).
  destruct x6; try (now inversion H).
  apply rp_bind in H as (x7 & F7 & H). apply rp_bind in H as (x8 & F8 & H). apply rp_bind in H as (x9 & F9 & H).
  apply rp_bind in H as (x10 & F10 & H). apply rp_bind in H as (x11 & F11 & H).
  match type of H with runsP _ (match ?x with Some _ => _ | None => _ end) _ => destruct x eqn:F12 end; [now inversion H|].
  match type of H with runsP _ (let '(_, _) := ?x in _) _ => destruct x as [fin trs] eqn:F13 end.
  match type of H with runsP _ (match ?x with Some _ => _ | None => _ end) _ => destruct x eqn:F14 end; [now inversion H|].
  inv_done H. cbn [an_vars] in Ha.
  assert (A1 : Prune c vars = Prune c' vars).
  { apply prune_agree'. eapply agree_sub; eauto. intros x Hx. apply in_or_app. auto. }
  rewrite <- A1, E0, E1. cbn [pbind].
  apply rp_request with (vs := vals).
  { eapply plain_move; eauto. eapply agree_sub; eauto. intros x Hx. apply in_or_app. right. eapply generic_covered; eauto. }
  unfold generic_with_deps. cbv zeta. rewrite <- A1, T0. cbn [pbind]. rewrite T1.
  rewrite F1; cbn [pbind]; rewrite F2; cbn [pbind]; rewrite F3; cbn [pbind]; rewrite F4; cbn [pbind]; rewrite F5; cbn [pbind];
  rewrite F6; cbn [pbind]; rewrite F7; cbn [pbind]; rewrite F8; cbn [pbind]; rewrite F9; cbn [pbind]; rewrite F10; cbn [pbind];
  rewrite F11; cbn [pbind]; rewrite F12, F13, F14.
  rewrite <- (prune_agree' _ c c' Ha). constructor.
Qed.

Lemma configure_indep vars te ce tn t c c' a :
  runsP good (configure_rule W vars te ce tn t c) a -> agree (an_vars a) c c' ->
  runsP (analyses W) (configure_rule W vars te ce tn t c') a.
Proof.
  unfold configure_rule. cbv zeta. intros H Ha.
  apply rp_bind in H as (ct & E0 & H). apply rp_bind in H as (tainted & T0 & H).
  destruct ce; try (now inversion H). apply rp_bind in H as (tr & E1 & H). destruct tr as [| | | | | | | | |tm]; try (now inversion H).
  apply rp_req in H as (vals & Hv & H). destruct vals as [|v [|]]; try (now inversion H).
  apply rp_if in H as [[T1 H]|[_ H]]; [|now inversion H]. inv_done H. cbn [an_vars] in Ha.
  assert (A1 : Prune c vars = Prune c' vars).
  { apply prune_agree'. eapply agree_sub; eauto. intros x Hx. apply in_or_app. auto. }
  rewrite <- A1, E0. cbn [pbind]. rewrite T0. cbn [pbind]. rewrite E1. cbn [pbind].
  apply rp_request with (vs := [v]).
  { inversion Hv; subst. constructor; [|constructor]. apply (proj2 H2). cbn [snd]. apply agree_update.
    eapply agree_sub; eauto. intros x Hx. apply in_or_app. auto. }
  rewrite T1. rewrite <- (prune_agree' _ c c' Ha). constructor.
Qed.

Lemma same_config_prune fl c : w_same_config W (Prune c fl) (Prune (Prune c fl) fl) = true.
Proof. rewrite prune_prune by auto. apply (fe_config W FE). Qed.

(** Results of export targets record the flexible variables, and only those matter. *)
Lemma export_vars k a : analyses W k a ->
  forall fl, (exists te fx, w_definition W (fst k) = DExport fl te fx) \/ w_definition W (fst k) = DAbsent fl -> an_vars a = fl.
Proof.
  revert k a. apply (analyses_ind' (fun k a => forall fl, _ -> an_vars a = fl)). intros [t c] a H fl Hd. cbn [fst] in Hd.
  assert (Hc : runsP (fun d v => analyses W d v /\ (forall fl0, (exists te fx, w_definition W (fst d) = DExport fl0 te fx) \/
       w_definition W (fst d) = DAbsent fl0 -> an_vars v = fl0)) (PRequest [(t, Prune c fl)] first_value) a -> an_vars a = fl).
  { intros H0. apply rp_req in H0 as (vs & Hv & H0). destruct vs as [|v [|]]; try (now inversion H0). inv_done H0.
    inversion Hv; subst. apply (proj2 H3). exact Hd. }
  unfold program_of in H. destruct Hd as [[te [fx Ed]]|Ed]; rewrite Ed in H.
  - unfold export_rule in H. cbv zeta in H. destruct (w_same_config W c (Prune c fl)); [|auto].
    assert (Hu : forall ck, runsP (fun d v => analyses W d v /\ (forall fl0, (exists te0 fx0, w_definition W (fst d) = DExport fl0 te0 fx0) \/
       w_definition W (fst d) = DAbsent fl0 -> an_vars v = fl0)) (export_uncached W fl te fx t (Prune c fl) ck) a -> an_vars a = fl).
    { clear H. intros ck H. unfold export_uncached in H. apply rp_bind in H as (et & _ & H). destruct fx; try (now inversion H).
      apply rp_if in H as [[_ H]|[_ H]]; [now inversion H|]. apply rp_req in H as (vs & _ & H).
      destruct vs as [|v [|]]; try (now inversion H). unfold finalize_export in H.
      destruct (negb _); [now inversion H|]. destruct (negb _); [now inversion H|]. now inv_done H. }
    destruct (w_cache_key W t (Prune c fl)); [|eauto]. destruct (w_served W s) as [| |[[r im]|]]; eauto; now inversion H.
  - unfold absent_target in H. cbv zeta in H. destruct (w_same_config W c (Prune c fl)); [|auto].
    destruct (w_cache_key W t (Prune c fl)); [|now inversion H]. destruct (w_served_absent W s) as [| |[[r im]|]]; now inversion H.
Qed.

(** With the variables restricted to the flexible ones the program is the same. *)
Lemma export_restrict t c fl a :
  (exists te fx, w_definition W t = DExport fl te fx) \/ w_definition W t = DAbsent fl ->
  analyses W (t, Prune c fl) a <-> analyses W (t, c) a.
Proof.
  intros Hd.
  assert (Hs : w_same_config W c (Prune c fl) = true -> program_of W (t, Prune c fl) = program_of W (t, c)).
  { intros Es. unfold program_of. destruct Hd as [[te [fx Ed]]|Ed]; rewrite Ed.
    - unfold export_rule. cbv zeta. rewrite !prune_prune by auto. now rewrite (fe_config W FE), Es.
    - unfold absent_target. cbv zeta. rewrite !prune_prune by auto. now rewrite (fe_config W FE), Es. }
  destruct (w_same_config W c (Prune c fl)) eqn:Es.
  - split; intros H; apply analyses_inv in H; apply analyses_of; [rewrite <- Hs|rewrite Hs]; auto.
  - assert (Hp : program_of W (t, c) = PRequest [(t, Prune c fl)] first_value).
    { unfold program_of. destruct Hd as [[te [fx Ed]]|Ed]; rewrite Ed.
      - unfold export_rule. cbv zeta. now rewrite Es.
      - unfold absent_target. cbv zeta. now rewrite Es. }
    split; intros H.
    + apply analyses_of. rewrite Hp. apply rp_request with (vs := [a]); [constructor; auto|]. constructor.
    + apply analyses_inv in H. rewrite Hp in H. apply rp_req in H as (vs & Hv & H).
      destruct vs as [|v [|]]; try (now inversion H). inv_done H. now inversion Hv.
Qed.

Theorem independent k a : analyses W k a -> indep k a.
Proof.
  revert k a. apply (analyses_ind' indep). intros [t c] a H c' Ha. cbn [fst snd] in *.
  change (runsP good (program_of W (t, c)) a) in H.
  destruct (w_definition W t) as [|st|sts|nm tr|nm ch|r|r d|ty vars deps nm data tn|dj vars deps nm tn|vars deps files dirs tn
    |vars deps outs od cmds cwd env_e sh tmo props tn|vars te ce tn|fl te fx|fl] eqn:Ed.
  all: try (apply analyses_of; unfold program_of in *; rewrite Ed in *;
    solve [now inversion H | inv_done H; constructor
          | eapply rule_indep; eauto | eapply blob_gen_indep; eauto | eapply tree_indep; eauto | eapply install_indep; eauto
          | eapply generic_indep; eauto | eapply configure_indep; eauto
          | revert H; clear; induction 1; econstructor; eauto; clear -H; induction H as [|? ? ? ? [? _]]; constructor; auto]).
  - assert (Hd : (exists te fx, w_definition W t = DExport fl te fx) \/ w_definition W t = DAbsent fl) by eauto.
    assert (Han : analyses W (t, c) a).
    { constructor. eapply runsP_runs; [|exact H]. now intros k v [Hk _]. }
    rewrite (export_vars _ _ Han fl Hd) in Ha. apply (export_restrict t c fl a Hd) in Han.
    rewrite (prune_agree' _ _ _ Ha) in Han. now apply (export_restrict t c' fl a Hd).
  - assert (Hd : (exists te fx, w_definition W t = DExport fl te fx) \/ w_definition W t = DAbsent fl) by eauto.
    assert (Han : analyses W (t, c) a).
    { constructor. eapply runsP_runs; [|exact H]. now intros k v [Hk _]. }
    rewrite (export_vars _ _ Han fl Hd) in Ha. apply (export_restrict t c fl a Hd) in Han.
    rewrite (prune_agree' _ _ _ Ha) in Han. now apply (export_restrict t c' fl a Hd).
Qed.

(** The node of a result: its target and the configuration restricted to the recorded variables. *)
Theorem node_of_result k a : analyses W k a -> an_node a = None \/ an_node a = Some (fst k, Prune (snd k) (an_vars a)).
Proof.
  revert k a. apply (analyses_ind' (fun k a => an_node a = None \/ an_node a = Some (fst k, Prune (snd k) (an_vars a)))).
  intros [t c] a H. cbn [fst snd].
  set (P := fun d v => analyses W d v /\ (an_node v = None \/ an_node v = Some (fst d, Prune (snd d) (an_vars v)))) in H.
  assert (Hr : forall fl, runsP P (PRequest [(t, Prune c fl)] first_value) a -> an_vars a = fl ->
             an_node a = None \/ an_node a = Some (t, Prune c (an_vars a))).
  { intros fl H0 Ev. apply rp_req in H0 as (vs & Hv & H0). destruct vs as [|v [|]]; try (now inversion H0). inv_done H0.
    inversion Hv; subst. destruct (proj2 H3) as [E|E]; [now left|right]. rewrite E. cbn. now rewrite prune_prune. }
  assert (Hu : forall fl te fx ck, runsP P (export_uncached W fl te fx t (Prune c fl) ck) a -> an_node a = Some (t, Prune c (an_vars a))).
  { intros fl te fx ck H0. unfold export_uncached in H0. apply rp_bind in H0 as (et & _ & H0). destruct fx; try (now inversion H0).
    apply rp_if in H0 as [[_ H0]|[_ H0]]; [now inversion H0|]. apply rp_req in H0 as (vs & _ & H0).
    destruct vs as [|v [|]]; try (now inversion H0). unfold finalize_export in H0.
    destruct (negb _); [now inversion H0|]. destruct (negb _); [now inversion H0|]. now inv_done H0. }
  assert (Han : analyses W (t, c) a).
  { constructor. eapply runsP_runs; [|exact H]. now intros k v [Hk _]. }
  unfold program_of in H.
  destruct (w_definition W t) as [|st|sts|nm tr|nm ch|r|r d|ty vars deps nm data tn|dj vars deps nm tn|vars deps files dirs tn
    |vars deps outs od cmds cwd env_e sh tmo props tn|vars te ce tn|fl te fx|fl] eqn:Ed.
  - now inversion H.
  - inv_done H. now left.
  - inv_done H. now left.
  - inv_done H. now left.
  - left. unfold source_tree in H. apply rp_req in H as (vs & _ & H). destruct (tree_entries vs []); [|now inversion H]. now inv_done H.
  - inv_done H. now left.
  - right. unfold withRuleDefinition in H. cbv zeta in H.
    apply rp_bind in H as (? & _ & H). apply rp_bind in H as (? & _ & H). apply rp_bind in H as ([? ?] & _ & H).
    apply rp_req in H as (? & _ & H). apply rp_bind in H as ([? ?] & _ & H). apply rp_req in H as (? & _ & H).
    unfold withDependencies in H. cbv zeta in H. apply rp_bind in H as (? & _ & H). apply rp_if in H as [[_ H]|[_ H]]; [|now inversion H].
    apply rp_bind in H as (? & _ & H). apply rp_bind in H as ([v e] & _ & H).
    destruct v; try (now inversion H). destruct v1; try (now inversion H). destruct v2; try (now inversion H).
    destruct v3; now inversion H.
  - right. unfold blob_gen in H. apply rp_bind in H as (? & _ & H). apply rp_bind in H as (? & _ & H). apply rp_req in H as (? & _ & H).
    unfold blob_gen_with_deps in H. cbv zeta in H. apply rp_bind in H as (? & _ & H). apply rp_if in H as [[_ H]|[_ H]]; [|now inversion H].
    apply rp_bind in H as (nv & _ & H). destruct nv; try (now inversion H). apply rp_bind in H as (dv & _ & H). destruct dv; try (now inversion H).
    apply rp_if in H as [[_ H]|[_ H]]; [|now inversion H]. now inv_done H.
  - right. unfold tree_rule in H. apply rp_bind in H as (? & _ & H). apply rp_bind in H as (? & _ & H). apply rp_bind in H as (nv & _ & H).
    destruct nv; try (now inversion H). apply rp_req in H as (? & _ & H).
    unfold tree_with_deps in H. cbv zeta in H. apply rp_bind in H as (? & _ & H). apply rp_if in H as [[_ H]|[_ H]]; [|now inversion H].
    destruct dj; [now inv_done H|]. apply rp_bind in H as (st & _ & H). destruct (tree_conflict st); [now inversion H|]. now inv_done H.
  - right. unfold install_rule in H. cbv zeta in H. apply rp_bind in H as (? & _ & H). apply rp_bind in H as (? & _ & H).
    destruct files; try (now inversion H). apply rp_bind in H as (? & _ & H). apply rp_bind in H as (dv & _ & H). destruct dv; try (now inversion H).
    apply rp_bind in H as (? & _ & H). apply rp_req in H as (? & _ & H). unfold install_with_deps in H. cbv zeta in H.
    apply rp_bind in H as (? & _ & H). apply rp_if in H as [[_ H]|[_ H]]; [|now inversion H].
    do 4 apply rp_bind in H as (? & _ & H). apply rp_bind in H as (fin & _ & H). destruct (tree_conflict fin); [now inversion H|]. now inv_done H.
  - right. unfold generic_rule in H. destruct (evaluate W deps (Prune c vars)); [|now inversion H].
    apply rp_bind in H as (? & _ & H). apply rp_req in H as (? & _ & H). unfold generic_with_deps in H. cbv zeta in H.
    apply rp_bind in H as (? & _ & H). apply rp_if in H as [[_ H]|[_ H]]; [|now inversion H].
    do 5 apply rp_bind in H as (? & _ & H). apply rp_bind in H as (wd & _ & H). destruct wd; try (now inversion H).
    do 5 apply rp_bind in H as (? & _ & H).
    match type of H with runsP _ (match ?x with Some _ => _ | None => _ end) _ => destruct x end; [now inversion H|].
    match type of H with runsP _ (let '(_, _) := ?x in _) _ => destruct x end.
    match type of H with runsP _ (match ?x with Some _ => _ | None => _ end) _ => destruct x end; [now inversion H|]. now inv_done H.
  - right. unfold configure_rule in H. cbv zeta in H. apply rp_bind in H as (? & _ & H). apply rp_bind in H as (? & _ & H).
    destruct ce; try (now inversion H). apply rp_bind in H as (tr & _ & H). destruct tr; try (now inversion H).
    apply rp_req in H as (vs & _ & H). destruct vs as [|v [|]]; try (now inversion H). apply rp_if in H as [[_ H]|[_ H]]; [|now inversion H]. now inv_done H.
  - assert (Ev : an_vars a = fl) by (eapply export_vars; eauto; cbn; eauto).
    unfold export_rule in H. cbv zeta in H. destruct (w_same_config W c (Prune c fl)); [|eauto].
    destruct (w_cache_key W t (Prune c fl)); [|eauto]. destruct (w_served W s) as [| |[[r im]|]]; eauto; try (now inversion H).
    inv_done H. now right.
  - assert (Ev : an_vars a = fl) by (eapply export_vars; eauto; cbn; eauto).
    unfold absent_target in H. cbv zeta in H. destruct (w_same_config W c (Prune c fl)); [|eauto].
    destruct (w_cache_key W t (Prune c fl)); [|now inversion H]. destruct (w_served_absent W s) as [| |[[r im]|]]; try (now inversion H).
    inv_done H. now right.
Qed.

Lemma prune_eq_vars c1 c2 v1 v2 : (forall x, Find (Prune c1 v1) x = Find (Prune c2 v2) x) -> incl v1 v2 /\ agree v1 c1 c2.
Proof.
  intros He. split; intros x Hx; specialize (He x); rewrite !prune_lookup in He;
    destruct (in_dec string_dec x v1); try contradiction; destruct (in_dec string_dec x v2); auto; try discriminate.
  now injection He.
Qed.

(** Results with the same target and the same restricted configuration are the same. *)
Theorem sharing t c1 c2 a1 a2 :
  analyses W (t, c1) a1 -> analyses W (t, c2) a2 ->
  (forall x, Find (Prune c1 (an_vars a1)) x = Find (Prune c2 (an_vars a2)) x) -> a1 = a2.
Proof.
  intros H1 H2 He. destruct (prune_eq_vars _ _ _ _ He) as [_ Ha].
  apply (analyses_det (t, c2)); auto. apply (independent _ _ H1). exact Ha.
Qed.
End Runs.
