(** Weakest preconditions for programs whose store may grow under others, and soundness. *)
From Coq Require Import String Ascii List Bool NArith Arith.
From Verif Require Import Common.Strs Hex.Model GitTree.Model GitTree.Spec GitTree.Proofs TreeOps.Spec Path.Model Path.Spec
  Upload.Model Upload.Spec.
Import ListNotations.
Local Open Scope string_scope.
Local Open Scope list_scope.

Section H.
Variable H : string -> string.
Variable src : digest -> option string.
Variable fails : digest -> Prop.

Definition ext (s s' : cas) : Prop := incl s s' /\ complete H s'.
Definition ready (s : cas) (b : blob) : Prop := b_tree b = true -> forall d, named (b_data b) d -> has H s d.

Fixpoint wp {A} (p : prog A) (Q : A -> cas -> Prop) (s : cas) : Prop :=
  match p with
  | Ret a => forall s', ext s s' -> Q a s'
  | GetMissing ds k => forall s' ms, ext s s' ->
      incl ms ds -> (forall d, In d ds -> ~ has H s' d -> In d ms) -> wp (k ms) Q s'
  | Available d k => forall s' b, ext s s' -> (b = true -> has H s' d) -> wp (k b) Q s'
  | Upload bs k => (forall b, In b bs -> ready s b) /\
      forall s' ok, ext s s' -> (ok = true -> forall b, In b bs -> has H s' (b_digest H b)) -> wp (k ok) Q s'
  | ReadTree d k => forall s' r, ext s s' -> ((fails d /\ r = None) \/ r = src d) -> wp (k r) Q s'
  | ReadData d k => forall s' r, ext s s' -> (r = None \/ r = src d) -> wp (k r) Q s'
  end.

Lemma ext_trans a b c : ext a b -> ext b c -> ext a c.
Proof. intros [A _] [B C]. split; [eauto using incl_tran|exact C]. Qed.
Lemma ext_refl s : complete H s -> ext s s.
Proof. intros C. split; [apply incl_refl|exact C]. Qed.
Lemma has_mono s s' d : incl s s' -> has H s d -> has H s' d.
Proof. intros I (x & A & B). exists x. auto. Qed.
Lemma ready_mono s s' b : incl s s' -> ready s b -> ready s' b.
Proof. intros I R T d N. eapply has_mono; [exact I|]. apply R; assumption. Qed.

Lemma wp_mono {A} (p : prog A) Q s s' : ext s s' -> wp p Q s -> wp p Q s'.
Proof.
  intros E. destruct p; cbn [wp].
  - intros W s2 E2. apply W. eapply ext_trans; eassumption.
  - intros W s2 ms E2. apply W. eapply ext_trans; eassumption.
  - intros W s2 b E2. apply W. eapply ext_trans; eassumption.
  - intros [R W]. split; [intros b Hb; eapply ready_mono; [exact (proj1 E)|auto]|].
    intros s2 ok E2. apply W. eapply ext_trans; eassumption.
  - intros W s2 b E2. apply W. eapply ext_trans; eassumption.
  - intros W s2 b E2. apply W. eapply ext_trans; eassumption.
Qed.

Lemma wp_conseq {A} (p : prog A) (Q Q' : A -> cas -> Prop) : forall s,
  (forall a s', ext s s' -> Q a s' -> Q' a s') -> wp p Q s -> wp p Q' s.
Proof.
  induction p; cbn [wp]; intros s C W.
  - intros s' E. auto.
  - intros s' ms E I M. apply H0; [|auto]. intros a s2 E2. apply C. eapply ext_trans; eassumption.
  - intros s' b E I. apply H0; [|auto]. intros a s2 E2. apply C. eapply ext_trans; eassumption.
  - destruct W as [R W]. split; [exact R|]. intros s' b E I. apply H0; [|auto]. intros a s2 E2. apply C. eapply ext_trans; eassumption.
  - intros s' b E I. apply H0; [|auto]. intros a s2 E2. apply C. eapply ext_trans; eassumption.
  - intros s' b E I. apply H0; [|auto]. intros a s2 E2. apply C. eapply ext_trans; eassumption.
Qed.

(** The continuation may assume that the store has only grown since. *)
Lemma wp_bind {A B} (p : prog A) (f : A -> prog B) Q : forall s,
  wp p (fun a s' => wp (f a) Q s') s -> complete H s -> wp (bind p f) Q s.
Proof.
  induction p; cbn [wp bind]; intros s W C.
  - apply W. now apply ext_refl.
  - intros s' ms E I M. apply H0; [auto|exact (proj2 E)].
  - intros s' b E I. apply H0; [auto|exact (proj2 E)].
  - destruct W as [R W]. split; [exact R|]. intros s' b E I. apply H0; [auto|exact (proj2 E)].
  - intros s' b E I. apply H0; [auto|exact (proj2 E)].
  - intros s' b E I. apply H0; [auto|exact (proj2 E)].
Qed.

Lemma add_complete s b : complete H s -> ready s b -> complete H ((b_tree b, b_data b) :: s).
Proof.
  intros C R data d [E|I] N.
  - injection E as E1 E2. eapply has_mono; [apply incl_tl, incl_refl|]. apply R; [exact E1|]. now rewrite E2.
  - eapply has_mono; [apply incl_tl, incl_refl|]. eapply C; eassumption.
Qed.

Lemma step_wp {A} (x y : prog A * cas) Q :
  step H src fails x y -> complete H (snd x) -> wp (fst x) Q (snd x) ->
  complete H (snd y) /\ wp (fst y) Q (snd y).
Proof.
  intros S C W. destruct S; cbn [fst snd] in *.
  - split; [auto|]. eapply wp_mono; [|exact W]. split; auto.
  - split; [exact C|]. cbn [wp] in W. apply W; auto using ext_refl.
  - split; [exact C|]. cbn [wp] in W. apply W; auto using ext_refl.
  - pose proof W as W0. cbn [wp] in W0. destruct W0 as [R _]. split.
    + apply add_complete; auto.
    + eapply wp_mono; [|exact W]. split; [apply incl_tl, incl_refl|]. apply add_complete; auto.
  - split; [exact C|]. cbn [wp] in W. apply (proj2 W); auto using ext_refl.
  - split; [exact C|]. cbn [wp] in W. apply W; auto using ext_refl.
  - split; [exact C|]. cbn [wp] in W. apply W; auto using ext_refl.
Qed.

Lemma steps_wp {A} (x y : prog A * cas) Q :
  steps H src fails x y -> complete H (snd x) -> wp (fst x) Q (snd x) ->
  complete H (snd y) /\ wp (fst y) Q (snd y).
Proof.
  induction 1 as [|x y z S _ IH]; [auto|]. intros C W.
  destruct (step_wp _ _ _ S C W) as [C' W']. auto.
Qed.

Lemma adequate {A} (p p' : prog A) Q s s' :
  complete H s -> wp p Q s -> steps H src fails (p, s) (p', s') ->
  complete H s' /\ forall a, p' = Ret a -> Q a s'.
Proof.
  intros C W S. destruct (steps_wp _ _ Q S C W) as [C' W']. cbn [fst snd] in *. split; [exact C'|].
  intros a ->. cbn [wp] in W'. apply W'. now apply ext_refl.
Qed.

(** ** Trees name their items *)

Lemma triple_inj l1 : forall l2, map triple l1 = map triple l2 -> l1 = l2.
Proof.
  induction l1 as [|[n [t r]] l1 IH]; intros [|[n' [t' r']] l2]; cbn; intros E; try discriminate; [reflexivity|].
  injection E as E1 E2 E3 E4. rewrite (IH _ E4). cbn in *. subst. do 3 f_equal.
  destruct t, t'; try reflexivity; discriminate E1.
Qed.

Lemma tree_object_items l1 l2 data :
  valid_items l1 -> valid_items l2 -> git_tree_object l1 data -> git_tree_object l2 data ->
  forall i, In i l1 <-> In i l2.
Proof.
  intros V1 V2 (l1' & I1 & _ & E1) (l2' & I2 & _ & E2).
  assert (F1 : Forall valid_item l1').
  { apply Forall_forall. intros i Hi. apply I1 in Hi. exact (proj1 (Forall_forall _ _) (proj2 V1) _ Hi). }
  assert (F2 : Forall valid_item l2').
  { apply Forall_forall. intros i Hi. apply I2 in Hi. exact (proj1 (Forall_forall _ _) (proj2 V2) _ Hi). }
  assert (P1 := parse_texts l1' F1 (S (String.length data))). rewrite <- E1 in P1.
  assert (P2 := parse_texts l2' F2 (S (String.length data))). rewrite <- E2 in P2.
  specialize (P1 (Nat.lt_succ_diag_r _)). specialize (P2 (Nat.lt_succ_diag_r _)).
  rewrite P1 in P2. injection P2 as P. apply triple_inj in P. subst l2'.
  intros i. rewrite <- I1, <- I2. tauto.
Qed.

Lemma named_items l data d :
  valid_items l -> git_tree_object l data ->
  (named data d <-> exists i, In i l /\ d = (IsTreeObject (fst (snd i)), snd (snd i))).
Proof.
  intros V G. split.
  - intros (l' & i & V' & G' & I & E). exists i. split; [|exact E].
    apply (tree_object_items _ _ _ V V' G G'). exact I.
  - intros (i & I & E). exists l, i. auto.
Qed.

End H.
