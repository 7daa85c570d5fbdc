(** What is gathered from analysed targets. *)
From Coq Require Import String Ascii List Bool Arith NArith ZArith Lia Sorted.
From Verif Require Import Executor.Local Executor.Process.
From Verif Require Import Common.Strs LinkedMap.Model Expr.Json Expr.Model Describe.Model.
From Verif Require Import Analysis.Stage Analysis.Model Analysis.Spec Analysis.HonestSpec Analysis.Taint Analysis.ActionShape Analysis.Buildable Analysis.BuildableProps Analysis.Proofs.
From Verif Require Import Dag.GraphAdd Traverser.Model Traverser.Spec Traverser.Proofs.
Import ListNotations.
Local Open Scope string_scope.
Local Open Scope list_scope.
Local Open Scope nat_scope.

Section ById.
Context {A : Type} (id : A -> string).
Let step (m : list (string * A)) (x : A) := aemplace (id x) x m.

Lemma by_id_inv l : forall m, sorted_keys m -> (forall p, In p m -> fst p = id (snd p)) ->
  sorted_keys (fold_left step l m) /\ (forall p, In p (fold_left step l m) -> fst p = id (snd p)) /\
  (forall p, In p (fold_left step l m) -> In p m \/ In (snd p) l) /\
  (forall x, In x l -> exists y, In (id x, y) (fold_left step l m)) /\
  (forall p, In p m -> In p (fold_left step l m)).
Proof.
  induction l as [|x l IH]; intros m S K; cbn [fold_left].
  - split; [exact S|]. split; [exact K|]. split; [auto|]. split; [intros x []|auto].
  - assert (S' : sorted_keys (step m x)) by now apply aemplace_sorted.
    assert (K' : forall p, In p (step m x) -> fst p = id (snd p)).
    { intros p H. apply In_aemplace in H as [->|H]; auto. }
    destruct (IH _ S' K') as (A1 & A2 & A3 & A4 & A5). split; [exact A1|]. split; [exact A2|]. split; [|split].
    + intros p H. destruct (A3 p H) as [H'|H']; [|right; now right]. apply In_aemplace in H' as [->|H']; [right; now left|now left].
    + intros y [<-|H]; [|now apply A4]. pose proof (aemplace_lookup (id x) x m (id x) S) as Q. rewrite String.eqb_refl in Q.
      destruct (alookup (id x) m) as [v|] eqn:E; apply alookup_In in Q; eexists; apply A5; exact Q.
    + intros p H. apply A5. destruct p as [k v]. apply (sorted_alookup_In _ _ _ S) in H.
      pose proof (aemplace_lookup (id x) x m k S) as Q. rewrite H in Q. apply alookup_In. exact Q.
Qed.
Let inv0 l := by_id_inv l [] (SSorted_nil _ : sorted_keys (@nil (string * A))) (fun p (H : In p []) => match H with end).

Lemma by_id_In x l : In x (by_id id l) -> In x l.
Proof.
  unfold by_id. intros H. apply in_map_iff in H as (p & <- & H). destruct (proj1 (proj2 (proj2 (inv0 l))) p H) as [[]|J]. exact J.
Qed.
Lemma by_id_all x l : In x l -> exists y, In y (by_id id l) /\ id y = id x.
Proof.
  intros H. destruct (inv0 l) as (_ & K & _ & E & _). destruct (E x H) as (y & Hy). exists y. split; [|symmetry; exact (K _ Hy)].
  unfold by_id. apply in_map_iff. exists (id x, y). auto.
Qed.
Lemma by_id_keys l : map id (by_id id l) = map fst (fold_left step l []).
Proof.
  unfold by_id. rewrite map_map. destruct (inv0 l) as (_ & K & _). apply map_ext_in. intros p H. symmetry. now apply K.
Qed.
Lemma by_id_nodup l : NoDup (map id (by_id id l)).
Proof. rewrite by_id_keys. apply sorted_NoDup. apply inv0. Qed.
Lemma by_id_same l l' : (forall x y, In x l \/ In x l' -> In y l \/ In y l' -> id x = id y -> x = y) ->
  (forall x, In x l <-> In x l') -> by_id id l = by_id id l'.
Proof.
  intros U E. unfold by_id. fold step. f_equal. destruct (inv0 l) as (S1 & K1 & A1 & B1 & _). destruct (inv0 l') as (S2 & K2 & A2 & B2 & _).
  assert (HH : forall l l', (forall x y, In x l \/ In x l' -> In y l \/ In y l' -> id x = id y -> x = y) ->
    (forall x, In x l -> In x l') -> forall p, In p (fold_left step l []) -> In p (fold_left step l' [])).
  { clear -inv0. intros l l' U E p Hp. destruct (inv0 l) as (_ & K1 & A1 & _ & _). destruct (inv0 l') as (_ & K2 & A2 & B2 & _).
    destruct (A1 p Hp) as [[]|J]. destruct (B2 (snd p) (E _ J)) as (y & Hy).
    destruct (A2 _ Hy) as [[]|Jy]. cbn in Jy. pose proof (K2 _ Hy) as Q. cbn in Q.
    assert (snd p = y) as <- by (apply U; auto). rewrite <- (K1 p Hp) in Hy. now destruct p. }
  apply sorted_ext; auto. intros k.
  assert (EQ : forall p, In p (fold_left step l []) <-> In p (fold_left step l' [])).
  { intros p. split; apply HH; auto; try (intros x; apply E). intros x y Hx Hy. apply U; tauto. }
  change (alookup k (fold_left step l []) = alookup k (fold_left step l' [])).
  destruct (alookup k (fold_left step l [])) as [v|] eqn:L1.
  - apply alookup_In, EQ in L1. symmetry. now apply sorted_alookup_In.
  - destruct (alookup k (fold_left step l' [])) as [v|] eqn:L2; [|reflexivity].
    apply alookup_In, EQ in L2. apply (sorted_alookup_In _ _ _ S1) in L2. congruence.
Qed.
End ById.

Section Gathered.
Variable W : world.
Variable ts : list (key * analysed).
Notation g := (ToResult W (map snd ts)).

Lemma in_all {B} (f : analysed -> list B) x : In x (flat_map f (map snd ts)) <-> exists k a, In (k, a) ts /\ In x (f a).
Proof.
  rewrite in_flat_map. split.
  - intros (a & H & J). apply in_map_iff in H as ([k a'] & <- & H). eauto.
  - intros (k & a & H & J). exists a. split; [|exact J]. apply in_map_iff. exists (k, a). auto.
Qed.

Lemma recipes_recorded r : In r (recipes_of g) -> recorded ts r.
Proof.
  unfold recipes_of, command_recipes, tree_recipes. rewrite !in_app_iff, !in_map_iff. cbn [g_actions g_trees g_overlays ToResult].
  intros [(x & <- & H)|[(x & <- & H)|(x & <- & H)]]; apply by_id_In, in_all in H; exact H.
Qed.
Lemma recorded_recipes r : ids_determine W ts -> recorded ts r -> In r (recipes_of g).
Proof.
  intros U H. unfold recipes_of, command_recipes, tree_recipes. rewrite !in_app_iff, !in_map_iff. cbn [g_actions g_trees g_overlays ToResult].
  destruct r as [x|x|x]; pose proof H as H'; apply in_all in H'.
  - left. destruct (by_id_all ra_id _ _ H') as (y & Hy & E). exists x. split; [reflexivity|].
    assert (RAction y = RAction x) as Q; [|injection Q as <-; exact Hy]. apply U; auto. now apply in_all, (by_id_In ra_id).
  - right. left. destruct (by_id_all (t_id W) _ _ H') as (y & Hy & E). exists x. split; [reflexivity|].
    assert (RTree y = RTree x) as Q; [|injection Q as <-; exact Hy]. apply U; auto. now apply in_all, (by_id_In (t_id W)).
  - right. right. destruct (by_id_all (o_id W) _ _ H') as (y & Hy & E). exists x. split; [reflexivity|].
    assert (ROverlay y = ROverlay x) as Q; [|injection Q as <-; exact Hy]. apply U; auto. now apply in_all, (by_id_In (o_id W)).
Qed.
Lemma recipes_nodup : NoDup (recipes_of g).
Proof.
  assert (M : forall {B} (f : B -> recipe) (id : B -> string) l, (forall x y, f x = f y -> x = y) -> NoDup (map id l) -> NoDup (map f l)).
  { intros B f id l I0 N. apply NoDup_map_inv in N. induction N as [|x l NI N IH]; cbn; constructor; auto.
    intros H. apply in_map_iff in H as (y & E & H). apply I0 in E. now subst. }
  unfold recipes_of, command_recipes, tree_recipes. cbn [g_actions g_trees g_overlays ToResult].
  apply nodup_app. split; [|split; [apply nodup_app; split; [|split]|]].
  - apply (M _ RAction ra_id); [congruence|apply by_id_nodup].
  - apply (M _ RTree (t_id W)); [congruence|apply by_id_nodup].
  - apply (M _ ROverlay (o_id W)); [congruence|apply by_id_nodup].
  - intros x H J. apply in_map_iff in H as (? & <- & _). apply in_map_iff in J as (? & E & _). discriminate.
  - intros x H J. apply in_app_iff in H. rewrite !in_map_iff in H. apply in_map_iff in J as (? & <- & _).
    destruct H as [(? & E & _)|(? & E & _)]; discriminate.
Qed.

(** ** All can be obtained *)

Variable js : list json.
Hypothesis S : build_setting W ts js.

Lemma reaches_in k d v : reaches W k d v -> forall a, In (k, a) ts -> In (d, v) ts.
Proof.
  destruct (bs_targets _ _ _ S) as [_ CL]. induction 1 as [k d v H|k d v d' v' H _ IH]; intros a J.
  - eapply CL; eauto.
  - eapply IH. eapply CL; eauto.
Qed.
Lemma below_in k a v : In (k, a) ts -> of_or_below W k a v -> exists k', In (k', v) ts.
Proof. intros J [->|[d H]]; [eauto|]. exists d. eapply reaches_in; eauto. Qed.
Lemma recorded_sub k a : In (k, a) ts -> sub (all_recipes W k a) (all_recorded ts).
Proof.
  intros J. repeat split; cbn; intros x (v & B & H); destruct (below_in k a v J B) as (k' & J'); exists k', v; auto.
Qed.
Lemma buildable_here k a j : In (k, a) ts -> buildable W (given W) (all_recipes W k a) j -> buildable W source_like (all_recorded ts) j.
Proof.
  intros J. pose proof (recorded_sub k a J) as (S1 & S2 & S3 & S4). induction 1.
  - now apply (bs_given _ _ _ S).
  - apply b_blob; auto.
  - apply b_action; auto.
  - apply b_tree; auto.
  - apply b_overlay; auto.
Qed.

Lemma as_inputs_in l : forall n e, In e (as_inputs n l) -> In (snd e) l.
Proof. induction l as [|j l IH]; intros n e H; [destruct H|]. cbn in H. destruct H as [<-|H]; [now left|right; eauto]. Qed.

Lemma buildable_obtainable j : buildable W source_like (all_recorded ts) j -> obtainable W g j.
Proof.
  assert (RR := fun r => recorded_recipes r (bs_ids _ _ _ S)).
  induction 1 as [j H|s type H|x o H Ho _ IH|c H _ IH|parts dj H _ IH].
  - now apply ob_source.
  - apply ob_source. eexists. split; [reflexivity|exact I].
  - apply (ob_made W g (RAction x) o); [now apply RR|cbn; now apply in_or_app|exact IH].
  - apply (ob_made W g (RTree c) ""); [now apply RR|now left|exact IH].
  - apply (ob_made W g (ROverlay (parts, dj)) ""); [now apply RR|now left|]. intros e He. apply IH. now apply as_inputs_in in He.
Qed.

Lemma all_asked j : In j js -> obtainable W g j.
Proof.
  intros J. destruct (bs_asked _ _ _ S j J) as (k & a & Jk & H). destruct (at_analysed _ _ (bs_targets _ _ _ S) k a Jk) as [Ha Hp].
  apply buildable_obtainable. apply (buildable_here k a j Jk).
  exact (proj2 (C67_result W (bs_honest _ _ _ S) (bs_plain _ _ _ S) (bs_typed _ _ _ S) k a Hp Ha) j H).
Qed.
Lemma all_inputs r e : In r (recipes_of g) -> In e (rinputs r) -> obtainable W g (snd e).
Proof.
  intros J He. apply recipes_recorded in J as (k & a & Jk & H). destruct (at_analysed _ _ (bs_targets _ _ _ S) k a Jk) as [Ha Hp].
  apply buildable_obtainable. apply (buildable_here k a _ Jk).
  destruct (C67_recipes W (bs_honest _ _ _ S) (bs_plain _ _ _ S) (bs_typed _ _ _ S) k a Hp Ha a (or_introl eq_refl)) as (C1 & C2 & C3).
  destruct r as [x|c|o]; [eapply C1; eauto|eapply C2; eauto|eapply C3; eauto]. now apply as_inputs_in in He.
Qed.
Lemma all_acts_shaped x : In (RAction x) (recipes_of g) -> shaped x.
Proof.
  intros J. apply recipes_recorded in J as (k & a & Jk & H). destruct (at_analysed _ _ (bs_targets _ _ _ S) k a Jk) as [Ha _].
  eapply all_shaped; eauto.
Qed.
Lemma unique_ids r r' : In r (recipes_of g) -> In r' (recipes_of g) -> rid W r = rid W r' -> r = r'.
Proof. intros H H'. apply (bs_ids _ _ _ S); now apply recipes_recorded. Qed.
Lemma recorded_iff r : recorded ts r <-> In r (recipes_of g).
Proof. split; [apply recorded_recipes, (bs_ids _ _ _ S)|apply recipes_recorded]. Qed.
End Gathered.
