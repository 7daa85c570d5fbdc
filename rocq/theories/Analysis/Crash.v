(** Undefined behaviour during analysis. *)
From Coq Require Import String Ascii List Bool Arith Lia.
From Verif Require Import Common.Strs LinkedMap.Model LinkedMap.Spec LinkedMap.Proofs Path.Model.
From Verif Require Import Expr.Json Expr.Model Expr.OpsProofs Describe.Model.
From Verif Require Import Analysis.Stage Analysis.Model Analysis.Spec Analysis.Proofs Analysis.Taint.
Import ListNotations.
Local Open Scope string_scope.
Local Open Scope list_scope.
Local Open Scope nat_scope.

Section Crash.
Variable W : world.

(** Undefined behaviour of the program itself. *)
Inductive late : prog -> Prop :=
| late_now : late PCrash
| late_req ks k vs : Forall2 (analyses W) ks vs -> late (k vs) -> late (PRequest ks k).

Lemma late_bind {A} (x : option A) f : late (pbind x f) -> exists y, x = Some y /\ late (f y).
Proof. destruct x; cbn; intros H; [eauto|inversion H]. Qed.
Lemma late_if (b : bool) p q : late (if b then p else q) -> (b = true /\ late p) \/ (b = false /\ late q).
Proof. destruct b; auto. Qed.
Lemma late_inv ks k : late (PRequest ks k) -> exists vs, Forall2 (analyses W) ks vs /\ late (k vs).
Proof. inversion 1; subst; eauto. Qed.

Scheme crashes_mut := Minimality for crashes Sort Prop
with reaches_crash_mut := Minimality for reaches_crash Sort Prop.

Hypothesis SC : source_children W.
Hypothesis SN : forall t st, w_definition W t = DSource st -> st <> [].
Hypothesis GN : forall t vars deps outs od cmds cwd env_e sh tmo props tn c,
  w_definition W t = DGeneric vars deps outs od cmds cwd env_e sh tmo props tn -> evaluate W deps (Prune c vars) <> None.

Lemma source_runfiles t c a : is_source (w_definition W t) -> analyses W (t, c) a -> t_runfiles (an_result a) <> [].
Proof.
  intros Hs H. apply analyses_inv in H. unfold program_of in H. destruct (w_definition W t) eqn:Ed; try contradiction.
  - apply rp_pdone in H as ->. cbn. eauto.
  - apply rp_pdone in H as ->. cbn. discriminate.
  - unfold source_tree in H. apply rp_req in H as (vs & _ & H). destruct (tree_entries vs []); [|inversion H].
    apply rp_pdone in H as ->. cbn. discriminate.
Qed.
Lemma tree_entries_some vs : (forall v, In v vs -> t_runfiles (an_result v) <> []) -> forall acc, tree_entries vs acc <> None.
Proof.
  induction vs as [|v r IH]; intros Hv acc; cbn [tree_entries]; [discriminate|].
  destruct (t_runfiles (an_result v)) as [|[p x] l] eqn:E.
  - exfalso. apply (Hv v); auto. now left.
  - apply IH. intros w Hw. apply Hv. now right.
Qed.

Ltac one H := destruct H as (? & _ & H).

Lemma no_late k : ~ late (program_of W k).
Proof.
  destruct k as [t c]. unfold program_of. intros H.
  destruct (w_definition W t) as [|st|sts|nm tr|nm ch|r|r dd|ty vars deps nm data tn|dj vars deps nm tn|vars deps files dirs tn
    |vars deps outs od cmds cwd env_e sh tmo props tn|vars te ce tn|fl te fx|fl] eqn:Ed; try (now inversion H).
  - unfold source_tree in H. apply late_inv in H as (vs & Hv & H).
    destruct (tree_entries vs []) eqn:E; [inversion H|]. revert E. apply tree_entries_some.
    intros v Hin. clear H. assert (Hc : forall ch0, In ch0 ch -> is_source (w_definition W ch0)) by eauto. clear Ed.
    revert vs Hv Hin. induction ch as [|t0 r0 IH]; intros vs Hv Hin; inversion Hv; subst; [destruct Hin|].
    destruct Hin as [->|Hin]; [eapply source_runfiles; eauto; apply Hc; now left|].
    eapply IH; eauto. intros; apply Hc; now right.
  - unfold withRuleDefinition in H. cbv zeta in H.
    apply late_bind in H; one H. apply late_bind in H; one H. apply late_bind in H as ([? ?] & _ & H).
    apply late_inv in H; one H. apply late_bind in H as ([? ?] & _ & H). apply late_inv in H; one H.
    unfold withDependencies in H. cbv zeta in H. apply late_bind in H; one H. apply late_if in H as [[_ H]|[_ H]]; [|now inversion H].
    apply late_bind in H; one H. apply late_bind in H as ([v e] & _ & H).
    destruct v; try (now inversion H). destruct v1; try (now inversion H). destruct v2; try (now inversion H).
    destruct v3; now inversion H.
  - unfold blob_gen in H. apply late_bind in H; one H. apply late_bind in H; one H. apply late_inv in H; one H.
    unfold blob_gen_with_deps in H. cbv zeta in H. apply late_bind in H; one H. apply late_if in H as [[_ H]|[_ H]]; [|now inversion H].
    apply late_bind in H as (nv & _ & H). destruct nv; try (now inversion H). apply late_bind in H as (dv & _ & H). destruct dv; try (now inversion H).
    apply late_if in H as [[_ H]|[_ H]]; now inversion H.
  - unfold tree_rule in H. apply late_bind in H; one H. apply late_bind in H; one H. apply late_bind in H as (nv & _ & H).
    destruct nv; try (now inversion H). apply late_inv in H; one H.
    unfold tree_with_deps in H. cbv zeta in H. apply late_bind in H; one H. apply late_if in H as [[_ H]|[_ H]]; [|now inversion H].
    destruct dj; [now inversion H|]. apply late_bind in H as (st & _ & H). destruct (tree_conflict st); now inversion H.
  - unfold install_rule in H. cbv zeta in H. apply late_bind in H; one H. apply late_bind in H; one H.
    destruct files; try (now inversion H). apply late_bind in H; one H. apply late_bind in H as (dv & _ & H). destruct dv; try (now inversion H).
    apply late_bind in H; one H. apply late_inv in H; one H. unfold install_with_deps in H. cbv zeta in H.
    apply late_bind in H; one H. apply late_if in H as [[_ H]|[_ H]]; [|now inversion H].
    do 4 (apply late_bind in H; one H). apply late_bind in H as (fin & _ & H). destruct (tree_conflict fin); now inversion H.
  - unfold generic_rule in H. destruct (evaluate W deps (Prune c vars)) eqn:Ee; [|eapply GN; eauto].
    apply late_bind in H; one H. apply late_inv in H; one H. unfold generic_with_deps in H. cbv zeta in H.
    apply late_bind in H; one H. apply late_if in H as [[_ H]|[_ H]]; [|now inversion H].
    do 5 (apply late_bind in H; one H). apply late_bind in H as (wd & _ & H). destruct wd; try (now inversion H).
    do 5 (apply late_bind in H; one H).
    match type of H with late (match ?x with Some _ => _ | None => _ end) => destruct x end; [now inversion H|].
    match type of H with late (let '(_, _) := ?x in _) => destruct x end.
    match type of H with late (match ?x with Some _ => _ | None => _ end) => destruct x end; now inversion H.
  - unfold configure_rule in H. cbv zeta in H. apply late_bind in H; one H. apply late_bind in H; one H.
    destruct ce; try (now inversion H). apply late_bind in H as (tr & _ & H). destruct tr; try (now inversion H).
    apply late_inv in H as (vs & Hv & H). inversion Hv as [|k0 v0 l1 l2 _ Hn]; subst. inversion Hn; subst.
    apply late_if in H as [[_ H]|[_ H]]; now inversion H.
  - assert (Hu : forall ck, ~ late (export_uncached W fl te fx t (Prune c fl) ck)).
    { clear H. intros ck H. unfold export_uncached in H. apply late_bind in H; one H. destruct fx; try (now inversion H).
      apply late_if in H as [[_ H]|[_ H]]; [now inversion H|]. apply late_inv in H as (vs & Hv & H).
      inversion Hv as [|k0 v0 l1 l2 _ Hn]; subst. inversion Hn; subst. unfold finalize_export in H.
      destruct (negb _); [now inversion H|]. destruct (negb _); now inversion H. }
    assert (Hr : ~ late (PRequest [(t, Prune c fl)] first_value)).
    { clear. intros H. apply late_inv in H as (vs & Hv & H). inversion Hv as [|k0 v0 l1 l2 _ Hn]; subst. inversion Hn; subst. inversion H. }
    unfold export_rule in H. cbv zeta in H. destruct (w_same_config W c (Prune c fl)); [|now apply Hr].
    destruct (w_cache_key W t (Prune c fl)); [|now apply (Hu None)].
    destruct (w_served W s) as [| |[[r im]|]]; try (now apply (Hu (Some s))); now inversion H.
  - assert (Hr : ~ late (PRequest [(t, Prune c fl)] first_value)).
    { clear. intros H. apply late_inv in H as (vs & Hv & H). inversion Hv as [|k0 v0 l1 l2 _ Hn]; subst. inversion Hn; subst. inversion H. }
    unfold absent_target in H. cbv zeta in H. destruct (w_same_config W c (Prune c fl)); [|now apply Hr].
    destruct (w_cache_key W t (Prune c fl)); [|now inversion H].
    destruct (w_served_absent W s) as [| |[[r im]|]]; now inversion H.
Qed.

Theorem no_crash k : ~ crashes W k.
Proof.
  unfold not. revert k. apply (crashes_mut W (fun _ => False) late).
  - intros k0 _ H. now apply (no_late k0).
  - constructor.
  - intros ks k0 vs Ha _ H. econstructor; eauto. now apply all_Forall2.
  - intros; contradiction.
Qed.
End Crash.

(** A generic target whose "deps" cannot be evaluated crashes. *)
Theorem generic_crash W t c vars deps outs od cmds cwd env_e sh tmo props tn :
  w_definition W t = DGeneric vars deps outs od cmds cwd env_e sh tmo props tn ->
  evaluate W deps (Prune c vars) = None -> crashes W (t, c).
Proof. intros Ed Ee. constructor. unfold program_of. rewrite Ed. unfold generic_rule. rewrite Ee. constructor. Qed.

(** Soundness of the executable form. *)
Lemma exec_sound W an p a : (forall k v, an k = ODone v -> analyses W k v) -> exec an p = ODone a -> runs W p a.
Proof.
  intros Han. revert a. induction p as [b| | |ks k IH]; intros a H; cbn [exec] in H; try discriminate.
  - injection H as ->. constructor.
  - destruct (analyse_list an ks) as [vs|o] eqn:E; [|subst; exfalso].
    + econstructor; [|apply IH; exact H]. clear -E Han. revert vs E. induction ks as [|d r IH]; intros vs E; cbn in E.
      * injection E as <-. constructor.
      * destruct (an d) eqn:Ed; try discriminate. destruct (analyse_list an r) eqn:Er; try discriminate. injection E as <-.
        constructor; auto.
    + clear -E. induction ks as [|d r IH]; cbn in E; [discriminate|].
      destruct (an d) eqn:Ed; try (injection E as ?; congruence).
      destruct (analyse_list an r); try discriminate. injection E as ->. auto.
Qed.
Lemma analyse_sound W fuel : forall k a, analyse W fuel k = ODone a -> analyses W k a.
Proof.
  induction fuel as [|n IH]; intros k a H; cbn in H; [discriminate|]. constructor. eapply exec_sound; eauto.
Qed.
