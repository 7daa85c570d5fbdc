(** Graphs built from artifacts and actions: more facts. *)
From Coq Require Import List Arith Bool ZArith Lia.
From Verif Require Import Async.Lists Dag.Graph Dag.GraphInv Dag.GraphAdd Dag.GraphProps.
From Verif Require Dag.Traverse Dag.TraverseInv Dag.TraverseProps.
Import ListNotations.

(** ** Artifacts added on their own *)

Lemma full_artifact xs s ds x s' n : @Full xs s ds -> add_artifact s x = (s', n) ->
  @Full (xs ++ [x]) s' ds /\ a_known s' x.
Proof.
  intros F E. destruct (add_artifact_R _ _ _ _ _ (f_R _ _ F) E) as (V & K & X & AC & L).
  assert (EE : flat_map (ev s') ds = flat_map (ev s) ds) by (apply ev_all_ext; auto; apply F).
  split; [|now exists n]. constructor.
  - rewrite EE. exact V.
  - intros d J. eapply all_known_ext; eauto. now apply F.
  - rewrite EE. intros c m H. rewrite AC in H. now apply (f_counted _ _ F).
  - intros id [k H]. apply (f_acts _ _ F). exists k. unfold add_artifact in E.
    destruct (assoc aid_dec (art_ids s) x); injection E as <- <-; exact H.
  - intros y [k H]. unfold add_artifact in E. destruct (assoc aid_dec (art_ids s) x) eqn:Q.
    + injection E as <- <-. destruct (f_arts _ _ F y) as [J|J]; [now exists k| |now right]. left. apply in_or_app. now left.
    + injection E as <- <-. cbn in H. rewrite assoc_app in H.
      destruct (assoc aid_dec (art_ids s) y) as [m|] eqn:Q'.
      * destruct (f_arts _ _ F y) as [J|J]; [now exists m| |now right]. left. apply in_or_app. now left.
      * destruct (aid_dec y x) as [->|]; [|discriminate]. left. apply in_or_app. right. now left.
  - apply F.
Qed.

Lemma full_artifacts l : forall xs s ds, @Full xs s ds ->
  @Full (xs ++ l) (fold_left (fun s x => fst (add_artifact s x)) l s) ds.
Proof.
  induction l as [|x l IH]; intros xs s ds F; cbn [fold_left]; [now rewrite app_nil_r|].
  destruct (add_artifact s x) as [s' n] eqn:E. destruct (full_artifact _ _ _ _ _ _ F E) as [F' _]. cbn [fst].
  specialize (IH _ _ _ F'). now rewrite <- app_assoc in IH.
Qed.

Lemma ext_artifacts l : forall s h, R s h -> ext s (fold_left (fun s x => fst (add_artifact s x)) l s) /\
  R (fold_left (fun s x => fst (add_artifact s x)) l s) h /\
  forall x, In x l -> a_known (fold_left (fun s x => fst (add_artifact s x)) l s) x.
Proof.
  induction l as [|y l IH]; intros s h V; cbn [fold_left]; [split; [apply ext_refl|split; [exact V|intros x []]]|].
  destruct (add_artifact s y) as [s' n] eqn:E. destruct (add_artifact_R _ _ _ _ _ V E) as (V' & K & X & _). cbn [fst].
  destruct (IH s' h V') as (X' & V2 & KN). split; [eapply ext_trans; eauto|]. split; [exact V2|].
  intros x [<-|J]; [|auto]. exists n. now apply (proj1 X').
Qed.

Lemma add_ext l : forall s h s' ok, R s h -> add s l = (s', ok) -> ext s s'.
Proof.
  induction l as [|d l IH]; intros s h s' ok V H; cbn [add] in H.
  - injection H as <- <-. apply ext_refl.
  - destruct (add_action s d) as [s1 ok1] eqn:E. destruct (add_action_R _ _ _ _ _ V E) as [[h' V'] [X _]].
    destruct ok1; [|injection H as <- <-; exact X]. eapply ext_trans; [exact X|]. eapply IH; eauto.
Qed.

(** ** No cycles *)

(** Going from an action to those that make its inputs comes to an end. *)
Inductive grounded (ds : list desc) (d : desc) : Prop :=
  gr (_ : forall d' x, In d' ds -> In x (map snd (d_inputs d)) -> In x (outputs d') -> grounded ds d').

Definition uses (d d' : desc) : bool :=
  existsb (fun x => if in_dec aid_dec x (outputs d') then true else false) (map snd (d_inputs d)).
Lemma uses_spec d d' : uses d d' = true <-> exists x, In x (map snd (d_inputs d)) /\ In x (outputs d').
Proof.
  unfold uses. rewrite existsb_exists. split; intros (x & J & H); exists x; (split; [exact J|]);
    destruct (in_dec aid_dec x (outputs d')); congruence || auto.
Qed.

Fixpoint depth (ds : list desc) (f : nat) (d : desc) : nat :=
  match f with
  | 0 => 0
  | S f' => S (list_max (map (fun d' => if uses d d' then depth ds f' d' else 0) ds))
  end.

Lemma list_max_in l x : In x l -> x <= list_max l.
Proof. induction l as [|y l IH]; cbn; [tauto|]. intros [->|J]; [lia|]. specialize (IH J). unfold list_max in IH. lia. Qed.

Lemma common_bound {A} (P : A -> nat -> Prop) (l : list A) : (forall a n m, n <= m -> P a n -> P a m) ->
  (forall a, In a l -> exists n, P a n) -> exists n, forall a, In a l -> P a n.
Proof.
  intros M. induction l as [|a l IH]; intros H; [exists 0; intros a []|].
  destruct (H a (or_introl eq_refl)) as [n Hn]. destruct IH as [m Hm]; [intros; apply H; now right|].
  exists (n + m). intros b [<-|J]; [apply (M a n); [lia|exact Hn]|apply (M b m); [lia|auto]].
Qed.

Definition settled (ds : list desc) (d : desc) (n : nat) : Prop := forall m, n <= m -> depth ds m d = depth ds n d.
Lemma settled_mono ds d n m : n <= m -> settled ds d n -> settled ds d m.
Proof. intros L S k H. rewrite (S k), (S m); lia. Qed.

Lemma grounded_settles ds : forall d, grounded ds d -> exists n, settled ds d n.
Proof.
  fix go 2. intros d [G].
  assert (exists n, forall d', In d' ds -> uses d d' = true -> settled ds d' n) as [n Hn].
  { apply (common_bound (fun d' n => uses d d' = true -> settled ds d' n)).
    - intros d' n m L H U. eapply settled_mono; eauto.
    - intros d' J. destruct (uses d d') eqn:U; [|exists 0; discriminate].
      assert (exists n, settled ds d' n) as [n Hn].
      { assert (exists x, In x (map snd (d_inputs d)) /\ In x (outputs d')) as (x & J1 & J2) by now apply uses_spec.
        exact (go d' (G d' x J J1 J2)). }
      now exists n. }
  exists (S n). intros m L. destruct m as [|m]; [lia|]. cbn [depth]. do 2 f_equal. apply map_ext_in. intros d' J.
  destruct (uses d d') eqn:U; [|reflexivity]. rewrite (Hn d' J U m), ?(Hn d' J U n); lia.
Qed.

Lemma grounded_acyclic ds : NoDup (map d_id ds) -> (forall d, In d ds -> grounded ds d) -> acyclic_descs ds.
Proof.
  intros ND G.
  destruct (common_bound (settled ds) ds) as [n Hn].
  { intros a k m L. now apply settled_mono. } { intros d J. apply grounded_settles. auto. }
  exists (fun id => match find (fun d => Nat.eqb (d_id d) id) ds with Some d => depth ds n d | None => 0 end).
  assert (FD : forall d, In d ds -> find (fun d' => Nat.eqb (d_id d') (d_id d)) ds = Some d).
  { clear -ND. induction ds as [|e ds IH]; intros d J; [destruct J|]. cbn in ND. inversion ND as [|? ? N1 N2]; subst. cbn [find].
    destruct J as [->|J]; [now rewrite Nat.eqb_refl|]. destruct (Nat.eqb_spec (d_id e) (d_id d)) as [E|]; [|auto].
    exfalso. apply N1. rewrite E. now apply in_map. }
  intros d d' x J J' I1 I2. rewrite (FD d J), (FD d' J').
  rewrite <- (Hn d J (S n)) by lia. cbn [depth]. apply le_n_S.
  assert (U : uses d d' = true) by (apply uses_spec; eauto).
  apply list_max_in. apply in_map_iff. exists d'. now rewrite U.
Qed.

Section Full.
Context {xs : list aid} {s : gstate} {ds : list desc} (F : @Full xs s ds).
Let V := f_R _ _ F.

Lemma full_acyclic : acyclic_descs ds -> TraverseProps.acyclic (to_graph s).
Proof.
  intros [rank RK]. destruct (at_nodes _ _ V) as [B [_ [D _]]].
  exists (fun c => match nth_error (acts s) c with Some n => rank (cn_id n) | None => 0 end).
  intros c a c' J Q. rewrite D in J. unfold ins_at in J. apply in_flat_map in J. destruct J as [e [J1 J2]].
  destruct e as [|c0 p a0]; [destruct J2|]. apply in_one in J2. destruct J2 as [J3 ->]. apply Nat.eqb_eq in J3. subst c0.
  apply in_flat_map in J1. destruct J1 as [d [Jd Je]]. unfold ev in Je. rewrite !in_app_iff, !in_map_iff in Je.
  destruct Je as [[x [Ex _]]|[[x [Ex _]]|[x [Ex Jx]]]]; try discriminate. injection Ex as Ex1 Ex2 Ex3.
  apply in_map_iff in Jx. destruct Jx as [y [<- Jy]]. cbn in Ex3.
  assert (In c' (builders_at (flat_map (ev s) ds) a)) as Jb.
  { rewrite <- B. cbn in Q. destruct (nth_error (arts s) a) as [na|]; [|discriminate].
    destruct (an_children na); [discriminate|]. injection Q as ->. now left. }
  apply builders_in in Jb. destruct Jb as [d' [z [Jd' [Jz [Ez Ec']]]]].
  destruct (f_known _ _ F d Jd) as [Kd [_ Ki]]. destruct (f_known _ _ F d' Jd') as [Kd' [Ko' _]].
  assert (z = snd y) as ->.
  { eapply aidx_inj; eauto. congruence. }
  destruct (node_of _ _ _ V Kd) as [m [M1 [_ M2]]]. destruct (node_of _ _ _ V Kd') as [m' [M1' [_ M2']]].
  rewrite <- Ex1, Ec', M1, M1', M2, M2'. apply (RK d d' (snd y)); auto. now apply in_map.
Qed.

(** The builder of an artifact *)
Lemma full_builder x c : a_known s x -> (Traverse.builder (to_graph s) (aidx s x) = Some c <->
  exists d, In d ds /\ In x (outputs d) /\ c = cidx s (d_id d)).
Proof.
  intros K. destruct (at_nodes _ _ V) as [B _]. specialize (B (aidx s x)). pose proof (r_single _ _ V (aidx s x)) as L.
  assert (Traverse.builder (to_graph s) (aidx s x) = hd_error (builders_at (flat_map (ev s) ds) (aidx s x))) as ->.
  { rewrite <- B. cbn. now destruct (nth_error (arts s) (aidx s x)). }
  split.
  - intros H. assert (In c (builders_at (flat_map (ev s) ds) (aidx s x))) as J.
    { destruct (builders_at _ _); [discriminate|]. injection H as ->. now left. }
    apply builders_in in J. destruct J as (d & y & Jd & Jy & E & ->). exists d. split; [exact Jd|]. split; [|reflexivity].
    destruct (f_known _ _ F d Jd) as (_ & Ko & _). rewrite (aidx_inj _ _ _ _ V K (Ko y Jy) E). exact Jy.
  - intros (d & Jd & Jx & ->). assert (In (cidx s (d_id d)) (builders_at (flat_map (ev s) ds) (aidx s x))) as J.
    { apply builders_in. exists d, x. auto. }
    destruct (builders_at _ _) as [|y [|z l]]; [destruct J| |cbn in L; lia]. destruct J as [->|[]]. reflexivity.
Qed.

Lemma flat_single {A B} (f : A -> list B) l a : NoDup l -> In a l -> (forall b, In b l -> b <> a -> f b = []) ->
  flat_map f l = f a.
Proof.
  induction l as [|b l IH]; intros ND J O; [destruct J|]. inversion ND as [|? ? N1 N2]; subst. cbn [flat_map].
  destruct J as [->|J].
  - enough (flat_map f l = []) as -> by apply app_nil_r.
    assert (forall c, In c l -> f c = []) as Z.
    { intros c Jc. apply O; [now right|]. intros ->. contradiction. }
    clear -Z. induction l as [|c l IH]; cbn; auto. rewrite Z by now left. apply IH. intros; apply Z; now right.
  - rewrite (O b); [|now left|intros ->; contradiction]. apply IH; auto. intros c Jc. apply O. now right.
Qed.

Lemma map_snd_place l : map snd (map (place s) l) = map (fun x => aidx s (snd x)) l.
Proof. rewrite map_map. reflexivity. Qed.

Lemma ins_lin c c' l : ins_at (map (lin c) l) c' = if Nat.eqb c c' then map snd l else [].
Proof.
  destruct (Nat.eqb_spec c c') as [<-|N].
  - unfold ins_at. induction l as [|[p a] l IH]; cbn; [reflexivity|]. rewrite Nat.eqb_refl. cbn. now f_equal.
  - apply ins_lin_other. auto.
Qed.
Lemma outs_lout b c c' l : outs_at (map (lout b c) l) c' = if Nat.eqb c c' then map snd l else [].
Proof.
  unfold outs_at. destruct (Nat.eqb_spec c c') as [<-|N].
  - induction l as [|[p a] l IH]; cbn; [reflexivity|]. rewrite Nat.eqb_refl. cbn. now f_equal.
  - apply Nat.eqb_neq in N. induction l as [|[p a] l IH]; cbn; [reflexivity|]. now rewrite N.
Qed.
Lemma outs_lin c c' l : outs_at (map (lin c) l) c' = [].
Proof. unfold outs_at. induction l; cbn; auto. Qed.

(** The node of an action: its inputs and outputs *)
Lemma full_node d : NoDup (map d_id ds) -> In d ds ->
  Traverse.deps (to_graph s) (cidx s (d_id d)) = map (fun x => aidx s (snd x)) (d_inputs d) /\
  Traverse.outs (to_graph s) (cidx s (d_id d)) = map (aidx s) (outputs d).
Proof.
  intros ND J. destruct (at_nodes _ _ V) as [_ [_ [D O]]]. rewrite D, O.
  assert (ND' : NoDup ds) by (eapply NoDup_map_inv; eauto).
  assert (OT : forall d', In d' ds -> d' <> d -> Nat.eqb (cidx s (d_id d')) (cidx s (d_id d)) = false).
  { intros d' J' N. apply Nat.eqb_neq. intros E.
    assert (d_id d' = d_id d) as E' by (eapply cidx_inj; eauto; apply (f_known _ _ F); assumption).
    apply N. clear -ND J J' E'. induction ds as [|e l IH]; [destruct J|]. cbn in ND. inversion ND as [|? ? N1 N2]; subst.
    destruct J as [->|J], J' as [->|J']; auto; exfalso; apply N1; [rewrite <- E'|rewrite E']; now apply in_map. }
  unfold ins_at, outs_at. rewrite !flat_map_flat_map. split.
  - rewrite (flat_single _ _ d ND' J).
    + fold (ins_at (ev s d) (cidx s (d_id d))). unfold ev. rewrite !ins_app, !ins_lout, ins_lin, Nat.eqb_refl, map_snd_place. reflexivity.
    + intros d' J' N. fold (ins_at (ev s d') (cidx s (d_id d))). unfold ev. rewrite !ins_app, !ins_lout, ins_lin, (OT d' J' N). reflexivity.
  - assert (outs_app : forall h1 h2 c, outs_at (h1 ++ h2) c = outs_at h1 c ++ outs_at h2 c) by (intros; apply flat_map_app).
    rewrite (flat_single _ _ d ND' J).
    + fold (outs_at (ev s d) (cidx s (d_id d))). unfold ev. rewrite !outs_app, !outs_lout, outs_lin, Nat.eqb_refl, !map_snd_place, app_nil_r.
      unfold outputs. rewrite map_map, map_app. reflexivity.
    + intros d' J' N. fold (outs_at (ev s d') (cidx s (d_id d))). unfold ev. rewrite !outs_app, !outs_lout, outs_lin, (OT d' J' N). reflexivity.
Qed.

(** Every action node is that of a description *)
Lemma full_act c n : nth_error (acts s) c = Some n -> exists d, In d ds /\ d_id d = cn_id n /\ c = cidx s (d_id d).
Proof.
  intros N. assert (assoc Nat.eq_dec (act_ids s) (cn_id n) = Some c) as Q by (apply (r_cids _ _ V); eauto).
  assert (In (cn_id n) (map d_id ds)) as J by (apply (f_acts _ _ F); now exists c).
  apply in_map_iff in J. destruct J as (d & E & J). exists d. split; [exact J|]. split; [exact E|].
  rewrite E. symmetry. now apply cidx_some.
Qed.
Lemma full_cidx d : In d ds -> exists n, nth_error (acts s) (cidx s (d_id d)) = Some n /\ cn_id n = d_id d.
Proof.
  intros J. destruct (f_known _ _ F d J) as [K _]. destruct (node_of _ _ _ V K) as [m [M1 [_ M2]]]. eauto.
Qed.
Lemma full_none c : nth_error (acts s) c = None -> Traverse.deps (to_graph s) c = [] /\ Traverse.outs (to_graph s) c = [].
Proof. intros N. cbn. now rewrite N. Qed.
End Full.
