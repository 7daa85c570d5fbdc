(** The targets an analysis visits, as a list. *)
From Coq Require Import String Ascii List Bool Arith.
From Verif Require Import Common.Strs LinkedMap.Model Expr.Json Expr.Model Describe.Model.
From Verif Require Import Analysis.Stage Analysis.Model Analysis.Spec Analysis.HonestSpec Analysis.Honest Analysis.Proofs Analysis.Crash Traverser.Model Traverser.Spec.
Import ListNotations.
Local Open Scope list_scope.

Section World.
Variable W : world.

Lemma all_same ks vs : all_analyse W ks vs -> forall vs', all_analyse W ks vs' -> vs = vs'.
Proof.
  intros H. apply all_Forall2 in H. induction H as [|k v ks vs A F IH]; intros vs' H'; apply all_Forall2 in H'; inversion H'; subst; auto.
  f_equal; [eapply analyses_det; eauto|]. apply IH. now apply all_Forall2.
Qed.

(** What a run requests is a list. *)
Lemma requested_list (P : key -> analysed -> Prop) p a : (forall d v, P d v -> analyses W d v) -> runsP P p a ->
  exists l, (forall d v, In (d, v) l -> P d v /\ requested W p d v) /\ forall d v, requested W p d v -> In (d, v) l.
Proof.
  intros HP. induction 1 as [a|ks k vs a F R (l & L1 & L2)].
  - exists []. split; [intros d v []|]. intros d v H. inversion H.
  - assert (AL : all_analyse W ks vs) by (apply all_Forall2; clear -F HP; induction F; constructor; auto).
    exists (combine ks vs ++ l). split.
    + intros d v H. apply in_app_or in H as [H|H].
      * split; [|eapply req_now; eauto]. clear -F H. induction F; [destruct H|]. destruct H as [H|H]; [congruence|auto].
      * destruct (L1 d v H). split; auto. eapply req_later; eauto.
    + intros d v H. apply in_or_app. inversion H as [? ? vs' ? ? AL' J|? ? vs' ? ? AL' J]; subst; rewrite <- (all_same _ _ AL _ AL') in J; auto.
Qed.

(** With every analysed target comes a finite set of targets with all their dependencies. *)
Theorem closure_exists : honest_evaluator W -> plain_definitions W -> forall k a, analyses W k a -> plain_env (snd k) ->
  exists ts, analysed_targets W ts /\ In (k, a) ts.
Proof.
  intros HE PD. apply (clean_ind W HE PD (fun k a => exists ts, analysed_targets W ts /\ In (k, a) ts)). intros k a C A R.
  destruct (requested_list _ _ _ (fun d v H => proj1 H) R) as (l & L1 & L2).
  assert (U : forall l0, (forall d v, In (d, v) l0 -> In (d, v) l) -> exists ts, analysed_targets W ts /\ incl l0 ts).
  { induction l0 as [|[d v] l0 IH]; intros H.
    - exists []. split; [split|]; intros; contradiction || (intros x []).
    - destruct IH as (ts & [T1 T2] & I1); [intros; apply H; now right|].
      destruct (L1 d v (H d v (or_introl eq_refl))) as [(_ & _ & ts' & [T1' T2'] & I2) _].
      exists (ts' ++ ts). split; [split|].
      + intros k' a' J. apply in_app_or in J as [J|J]; auto.
      + intros k' a' d' v' J D. apply in_or_app. apply in_app_or in J as [J|J]; eauto.
      + intros x [<-|J]; apply in_or_app; auto. }
  destruct (U l (fun _ _ H => H)) as (ts & [T1 T2] & I1).
  exists ((k, a) :: ts). split; [split|now left].
  - intros k' a' [J|J]; [injection J as <- <-; auto|auto].
  - intros k' a' d' v' [J|J] D; right; [injection J as <- <-; apply I1, L2, D|eauto].
Qed.

(** Executably. *)
Fixpoint trace (an : key -> outcome) (p : prog) : list (key * analysed) :=
  match p with
  | PRequest ks k => match analyse_list an ks with inl vs => combine ks vs ++ trace an (k vs) | inr _ => [] end
  | _ => []
  end.
Lemma analyse_list_sound n ks : forall vs, analyse_list (analyse W n) ks = inl vs -> all_analyse W ks vs.
Proof.
  induction ks as [|k ks IH]; intros vs; cbn; [intros X; injection X as <-; constructor|].
  destruct (analyse W n k) as [a| | |] eqn:E; try discriminate. destruct (analyse_list _ ks) as [l|]; [|discriminate].
  intros X. injection X as <-. constructor; [exact (analyse_sound W _ _ _ E)|auto].
Qed.
Lemma trace_all n p a : exec (analyse W n) p = ODone a -> forall d v, requested W p d v -> In (d, v) (trace (analyse W n) p).
Proof.
  revert a. induction p as [b| | |ks k IH]; intros a; cbn; try discriminate; [intros _ d v H; inversion H|].
  destruct (analyse_list (analyse W n) ks) as [vs|] eqn:E; [|destruct o; discriminate || idtac; intros X d v H; exfalso].
  - intros X d v H. apply analyse_list_sound in E. apply in_or_app.
    inversion H as [? ? vs' ? ? AL J|? ? vs' ? ? AL J]; subst; rewrite <- (all_same _ _ E _ AL) in J; eauto.
  - clear -E. revert E. generalize ks. intros l. induction l as [|x l IHl]; cbn; [discriminate|].
    destruct (analyse W n x) eqn:Ex; try (intros X; injection X as X; discriminate). destruct (analyse_list (analyse W n) l); [discriminate|exact IHl].
Qed.
Lemma trace_sound n p : forall d v, In (d, v) (trace (analyse W n) p) -> requested W p d v.
Proof.
  induction p as [b| | |ks k IH]; intros d v; cbn; try (intros []).
  destruct (analyse_list (analyse W n) ks) as [vs|] eqn:E; [|intros []]. apply analyse_list_sound in E.
  intros H. apply in_app_or in H as [H|H]; [eapply req_now|eapply req_later]; eauto.
Qed.
End World.
