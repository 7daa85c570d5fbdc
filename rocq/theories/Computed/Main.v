(** The tree of a stage. *)
From Coq Require Import String Ascii List Bool NArith ZArith Arith Permutation Lia Sorted.
From Verif Require Import Common.Strs Hex.Model Hex.Proofs GitTree.Model GitTree.Spec GitTree.Proofs TreeOps.Model TreeOps.Spec TreeOps.Proofs
  Path.Model Path.Spec Path.Proofs Path.Proofs2 Upload.Model Upload.Spec Upload.Root Upload.Build Computed.Model Computed.Spec Computed.Paths Computed.Proofs.
Import ListNotations.
Local Open Scope string_scope.
Local Open Scope list_scope.

Section H.
Variable H : string -> string.
Hypothesis HL : raw_ids H.
Variable rehash : option (info -> option info).

Notation adding := (fun r p => bind r (fun t => add_artifact H rehash t p)).

Definition inv (l : list input) (t : partial_tree) : Prop :=
  exists rc st, repr H t rc st /\ root_of l (whole rc st) /\ (l = [] -> rc = []) /\
    forall l0 i, l = l0 ++ [i] -> exists z, segments (fst i) = rev rc ++ [z].

Lemma prefix_snoc (p d : list string) (x : string) : prefix p (d ++ [x]) -> p = d ++ [x] \/ prefix p d.
Proof.
  intros [s E]. destruct (list_eq_dec string_dec s []) as [->|N]; [left; now rewrite app_nil_r in E|].
  destruct (exists_last N) as (s' & y & ->). rewrite app_assoc in E. apply app_inj_tail in E as [E _]. right. now exists s'.
Qed.

Lemma inv_step l i t e : inv l t -> good_key (fst i) -> Forall (fun j => good_key (fst j)) l ->
  (forall j, In j l -> str_lt (fst j) (fst i)) -> (forall l0 j k, l = l0 ++ [j] -> In k l0 -> str_lt (fst k) (fst j)) ->
  conflict_free (l ++ [i]) ->
  (exists ty id, snd i = Some (ty, id) /\ String.length id = 20 /\ delivers rehash e ty id) ->
  exists t', add_artifact H rehash t (fst i, e) = Value t' /\ inv (l ++ [i]) t'.
Proof.
  intros (rc & st & R & (RC & RF) & R0 & RL) (Gn & Gi & Gm) Gl Lt Lt' CF (ty & id & Ei & Li & j & -> & Rh).
  destruct (normal_key _ Gn Gi) as (Kj & Kn & Ko). destruct (exists_last Kn) as (d & x & Ed).
  assert (CA : forall a, In a l -> ~ prefix (segments (fst a)) (segments (fst i)) /\ ~ prefix (segments (fst i)) (segments (fst a))).
  { intros a Ha. apply In_nth_error in Ha as [n Hn].
    assert (Hl : n < length l) by (apply nth_error_Some; congruence).
    assert (N1 : nth_error (l ++ [i]) n = Some a) by (rewrite nth_error_app1; auto).
    assert (N2 : nth_error (l ++ [i]) (length l) = Some i) by (rewrite nth_error_app2, Nat.sub_diag; auto).
    split; [eapply (CF n (length l))|eapply (CF (length l) n)]; eauto; lia. }
  assert (Vn : Forall valid_name (d ++ [x])) by (rewrite <- Ed; now apply segments_valid).
  unfold add_artifact. cbn [fst snd]. rewrite Rh. rewrite Kj, Ed. rewrite Ed in Ko.
  destruct (add_repr H HL t rc st d x ty id R Ko Vn Li) as (t' & st' & A & R' & V1 & V2).
  - (* new directories are new *)
    intros p y r E Pp Np. destruct (view (whole rc st) (p ++ [y])) as [o|] eqn:V; [|reflexivity]. exfalso. destruct o as [ty0 id0|].
    + apply RC in V as (k & Ik & Es). apply (proj1 (CA _ Ik)). cbn [fst]. rewrite <- Es, Ed, E. exists (r ++ [x]). rewrite <- !app_assoc. reflexivity.
    + apply RF in V as [V|(a & s & Ia & Es & Ns)]; [now destruct p|].
      (* the artifact added last is below the directory as well *)
      assert (Nl : l <> []) by (intros ->; destruct Ia). destruct (exists_last Nl) as (l0 & b & El).
      destruct (RL l0 b El) as (z & Ez).
      assert (Gb : good_key (fst b)) by (rewrite Forall_forall in Gl; apply Gl; subst l; apply in_or_app; right; now left).
      assert (Ga : good_key (fst a)) by (rewrite Forall_forall in Gl; now apply Gl).
      destruct Gb as (Bn & Bi & _). destruct Ga as (An & Ai & _).
      destruct (normal_key _ Bn Bi) as (Bj & Bne & Bo). destruct (normal_key _ An Ai) as (Aj & Ane & Ao).
      destruct (contiguous (p ++ [y]) s (segments (fst b)) (r ++ [x])) as (u & Nu & Eu); auto.
      * now destruct p.
      * now destruct r.
      * rewrite Es in Ao. apply Forall_app in Ao. apply Ao.
      * rewrite <- Es, <- Aj, <- Bj. subst l. apply in_app_or in Ia as [Ia|[->|[]]]; [left|right; reflexivity]. eapply Lt'; [reflexivity|exact Ia].
      * rewrite <- Bj. replace ((p ++ [y]) ++ r ++ [x]) with (segments (fst i)) by (rewrite Ed, E, <- !app_assoc; reflexivity).
        rewrite <- Kj. apply Lt. subst l. apply in_or_app. right. now left.
      * apply Np. rewrite Ez in Eu. destruct (exists_last Nu) as (u' & w & ->). rewrite app_assoc in Eu. apply app_inj_tail in Eu as [Eu _]. now exists u'.
  - (* the path is free *)
    destruct (view (whole rc st) (d ++ [x])) as [o|] eqn:V; [|reflexivity]. exfalso. destruct o as [ty0 id0|].
    + apply RC in V as (k & Ik & Es). apply (proj1 (CA _ Ik)). cbn [fst]. rewrite <- Es, Ed. exists []. now rewrite app_nil_r.
    + apply RF in V as [V|(a & s & Ia & Es & Ns)]; [now destruct d|]. apply (proj2 (CA _ Ia)). rewrite Ed, Es. now exists s.
  - exists t'. split; [exact A|]. exists (rev d), st'. split; [exact R'|]. split; [|split].
    + assert (Fd : forall q, prefix q d -> view (whole (rev d) st') q = Some Folder).
      { intros q [s ->]. apply (view_folder_above _ q (s ++ [x])); [|now destruct s]. rewrite app_assoc. congruence. }
      split.
      * intros q ty0 id0. destruct (list_str_eq q (d ++ [x])) as [->|Nq].
        -- rewrite V1. split.
           ++ intros E. injection E as <- <-. exists (fst i). split; [apply in_or_app; right; left; rewrite <- Ei; now destruct i|now rewrite Ed].
           ++ intros (k & Ik & Es). apply in_app_or in Ik as [Ik|[Ik|[]]].
              ** exfalso. apply (proj1 (CA _ Ik)). cbn [fst]. rewrite <- Es, Ed. exists []. now rewrite app_nil_r.
              ** subst i. cbn [snd] in Ei. congruence.
        -- split.
           ++ intros E. destruct (V2 q Nq) as [Q|(_ & Q & _)]; [|congruence]. rewrite Q in E. apply RC in E as (k & Ik & Es).
              exists k. split; [apply in_or_app; now left|exact Es].
           ++ intros (k & Ik & Es). apply in_app_or in Ik as [Ik|[Ik|[]]].
              ** assert (E : view (whole rc st) q = Some (Content ty0 id0)) by (apply RC; eauto).
                 destruct (V2 q Nq) as [Q|(Q & _)]; congruence.
              ** subst i. cbn [fst] in Ed. congruence.
      * intros q. destruct (list_str_eq q (d ++ [x])) as [->|Nq].
        -- rewrite V1. split; [discriminate|]. intros [E|(a & s & Ia & Es & Ns)]; [now destruct d|]. exfalso.
           apply in_app_or in Ia as [Ia|[<-|[]]].
           ++ apply (proj2 (CA _ Ia)). rewrite Ed, Es. now exists s.
           ++ rewrite Ed in Es. rewrite <- (app_nil_r (d ++ [x])) in Es at 1. apply app_inv_head in Es. congruence.
        -- split.
           ++ intros E. destruct (V2 q Nq) as [Q|(_ & _ & s & Q)].
              ** rewrite Q in E. apply RF in E as [E|(a & s & Ia & Es & Ns)]; [now left|]. right. exists a, s. split; [apply in_or_app; now left|auto].
              ** right. exists i, (s ++ [x]). split; [apply in_or_app; right; now left|]. split; [rewrite Ed, Q; now rewrite <- app_assoc|now destruct s].
           ++ intros [->|(a & s & Ia & Es & Ns)]; [apply Fd; now exists d|]. apply in_app_or in Ia as [Ia|[<-|[]]].
              ** assert (E : view (whole rc st) q = Some Folder) by (apply RF; eauto 6). destruct (V2 q Nq) as [Q|(Q & _)]; congruence.
              ** apply Fd. assert (Pq : prefix q (d ++ [x])) by (exists s; congruence). apply prefix_snoc in Pq as [Pq|Pq]; [congruence|exact Pq].
    + intros E. now destruct l.
    + intros l0 i0 E. apply app_inj_tail in E as [_ <-]. exists x. now rewrite rev_involutive.
Qed.

Lemma empty_inv : inv [] empty_partial_tree.
Proof.
  exists [], [[]]. split; [|split; [split|split; [reflexivity|]]].
  - split; [cbn; split; [constructor|exact Logic.I]|]. split; [reflexivity|]. repeat constructor.
  - intros q t id. cbn [whole plug]. split; [destruct q; discriminate|intros (p & [] & _)].
  - intros q. cbn [whole plug]. split; [destruct q; [now left|discriminate]|]. intros [->|(i & r & [] & _)]. reflexivity.
  - intros l0 i E. now destruct l0.
Qed.

Lemma sorted_app {V} (a b : list (string * V)) : sorted_keys (a ++ b) -> sorted_keys a /\ forall p q, In p a -> In q b -> str_lt (fst p) (fst q).
Proof.
  induction a as [|x a IH]; intros S; [split; [constructor|intros ? ? []]|]. cbn [app] in S. inversion S as [|? ? S1 F]; subst. destruct (IH S1) as [Sa L].
  rewrite Forall_forall in F. split.
  - constructor; [exact Sa|]. apply Forall_forall. intros y I. apply F. apply in_or_app. now left.
  - intros p q [<-|I] J; [apply (F q); apply in_or_app; now right|eauto].
Qed.

Lemma all_added stage : forall l, sorted_keys stage -> stands_for rehash stage l -> Forall (fun p => good_key (fst p)) stage -> conflict_free l ->
  exists t, fold_left adding stage (Value empty_partial_tree) = Value t /\ inv l t.
Proof.
  induction stage as [|p stage IH] using rev_ind; intros l S F G C.
  - inversion F; subst. exists empty_partial_tree. split; [reflexivity|apply empty_inv].
  - apply Forall2_app_inv_l in F as (l0 & l1 & F & F1 & ->). inversion F1 as [|? i ? ? Fi F1']; subst. inversion F1'; subst. destruct Fi as (Ek & De).
    apply Forall_app in G as [G Gp]. inversion Gp as [|? ? Gk _]; subst. destruct (sorted_app _ _ S) as [S0 L].
    assert (C0 : conflict_free l0).
    { intros m n a b Ha Hb N. assert (Hm : m < length l0) by (apply (proj1 (@nth_error_Some input l0 m)); rewrite Ha; discriminate). assert (Hn : n < length l0) by (apply (proj1 (@nth_error_Some input l0 n)); rewrite Hb; discriminate).
      apply (C m n); auto; now rewrite (@nth_error_app1 input). }
    destruct (IH l0 S0 F G C0) as (t & E & I). rewrite fold_left_app, E. cbn [fold_left bind]. destruct p as [k e]. cbn [fst snd] in *. subst k.
    assert (Ks : forall j, In j l0 -> exists q, In q stage /\ fst q = fst j).
    { intros j J. clear - F J. induction F as [|a b sa sb [E _] _ IHF]; [destruct J|]. destruct J as [<-|J]; [exists a; split; [now left|exact E]|].
      destruct (IHF J) as (q & I & Q). exists q. split; [now right|exact Q]. }
    apply (inv_step l0 i t e I Gk); auto.
    + apply Forall_forall. intros j J. destruct (Ks j J) as (q & I' & <-). rewrite Forall_forall in G. now apply G.
    + intros j J. destruct (Ks j J) as (q & I' & <-). apply (L q (fst i, e)); auto. now left.
    + intros l1 j k -> J. apply Forall2_app_inv_r in F as (sa & sb & Fa & Fb & ->). inversion Fb as [|b ? ? ? [Eb _] Fb']; subst. inversion Fb'; subst.
      apply sorted_app in S0 as [_ L0]. rewrite <- Eb.
      assert (exists q, In q sa /\ fst q = fst k) as (q & Iq & <-).
      { clear - Fa J. induction Fa as [|a c ta tb [E _] _ IHF]; [destruct J|]. destruct J as [<-|J]; [exists a; split; [now left|exact E]|].
        destruct (IHF J) as (q & I & Q). exists q. split; [now right|exact Q]. }
      apply L0; [exact Iq|now left].
Qed.

Theorem root_of_stage stage l : sorted_keys stage -> stands_for rehash stage l -> Forall (fun p => good_key (fst p)) stage -> conflict_free l ->
  exists n, proper n /\ root_of l n /\ ArtifactsRoot H rehash stage = Value (ToHexString (nid H n)).
Proof.
  intros S F G C. destruct (all_added stage l S F G C) as (t & E & (rc & st & R & RO & _)). exists (whole rc st). split; [|split; [exact RO|]].
  - apply whole_proper. apply R.
  - unfold ArtifactsRoot. rewrite E. cbn [bind]. now apply done_ok.
Qed.

(** A tree only for stages of known artifacts. *)
Lemma fold_value stage : forall r t, fold_left adding stage r = Value t ->
  (exists t0, r = Value t0) /\ Forall (fun p => exists i, snd p = KnownInfo i /\ forall f, rehash = Some f -> f i <> None) stage.
Proof.
  induction stage as [|p stage IH]; intros r t E; cbn [fold_left] in E; [split; [eauto|constructor]|].
  apply IH in E as [[t1 E] F]. destruct r as [t0| |]; try discriminate. split; [eauto|]. constructor; [|exact F].
  cbn [bind] in E. unfold add_artifact in E. destruct (snd p) as [| |i]; try discriminate. exists i. split; [reflexivity|].
  intros f Ef Nf. rewrite Ef, Nf in E. discriminate.
Qed.
Theorem root_known stage h : ArtifactsRoot H rehash stage = Value h ->
  Forall (fun p => exists i, snd p = KnownInfo i /\ forall f, rehash = Some f -> f i <> None) stage.
Proof.
  unfold ArtifactsRoot. destruct (fold_left adding stage (Value empty_partial_tree)) as [t| |] eqn:E; try discriminate.
  intros _. apply fold_value in E. apply E.
Qed.
End H.
