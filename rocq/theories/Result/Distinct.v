From Coq Require Import String Ascii List Bool NArith ZArith SpecFloat Lia.
From Verif Require Import Common.Strs Hex.Model Hex.Proofs Expr.Json Expr.JsonSpec Expr.Model Expr.HashSpec Expr.HashProofs.
From Verif Require Import Describe.Model Describe.Spec Describe.Proofs.
From Verif Require Import Result.Model Result.Spec Result.Proofs Result.ReadProofs Result.RoundTrip.
Import ListNotations.
Local Open Scope string_scope.
Local Open Scope list_scope.

Section P.
Variable ndump : num -> string.
Variable H : string -> string.
Hypothesis NT : number_text ndump.
Hypothesis FL : fixed_length H.
Variable t : hash_type.

Local Notation vid := (vid ndump H).
Local Notation embed := (embed ndump H).
Local Notation forget := (Spec.rebuild ndump H []).
Local Notation json_of := (Expr.Model.ToJson ndump H).
Local Notation same := (same ndump H).

Lemma fold_and {A} (P : A -> Prop) l : (forall x, In x l -> P x) -> fold_right (fun x Q => P x /\ Q) True l.
Proof. induction l as [|x l IH]; cbn; auto. Qed.

Lemma json_ok_all v : storable t v -> finite_numbers v -> forall md, json_ok (json_of md (embed v)).
Proof.
  induction v as [v IH] using value_ind'. intros S F.
  assert (IH' : forall w, In w (members v) -> forall md, json_ok (json_of md (embed w))).
  { rewrite Forall_forall in IH. intros w Hw. apply IH; auto.
    - intros u Pu. apply S. eapply part_in; eauto.
    - intros n Pn. apply F. eapply part_in; eauto. }
  clear IH. destruct v as [|b|n|s|j|a|st p f cb|w|nt sf tf|l|m]; cbn [members] in IH';
    intros md; cbn [Model.embed Expr.Model.ToJson]; auto; try exact I.
  - apply F. constructor.
  - exfalso. apply (S (VName j)). constructor.
  - destruct md; try exact I; apply art_json_ok.
  - destruct md; try exact I; cbn; repeat split; try (apply IH'; cbn; auto).
  - destruct md; try exact I; cbn; repeat split; try (apply IH'; cbn; auto).
  - destruct md; try exact I; cbn; repeat split; try (apply IH'; cbn; auto).
  - cbn. rewrite map_map. apply fold_and. intros x Hx. apply in_map_iff in Hx. destruct Hx as (y & <- & Hy). auto.
  - cbn. rewrite map_map. apply (fold_and (fun p => match p with (_, v) => json_ok v end)). intros x Hx.
    apply in_map_iff in Hx. destruct Hx as ([k y] & <- & Hy). apply IH'. apply in_map_iff. now exists (k, y).
Qed.

Lemma finite_all v : storable t v -> finite_numbers v -> finite ndump H (embed v).
Proof.
  intros S F. pose proof (json_ok_all v S F SerializeAll) as J. revert S F J.
  induction v as [v IH] using value_ind'. intros S F J.
  assert (IH' : forall w, In w (members v) -> finite ndump H (embed w)).
  { rewrite Forall_forall in IH. intros w Hw.
    assert (Sw : storable t w) by (intros u Pu; apply S; eapply part_in; eauto).
    assert (Fw : finite_numbers w) by (intros n Pn; apply F; eapply part_in; eauto).
    apply IH; auto. now apply json_ok_all. }
  clear IH. destruct v as [|b|n|s|j|a|st p f cb|w|nt sf tf|l|m]; cbn [members] in IH';
    cbn [Model.embed]; try exact I; try exact J.
  - cbn. apply fold_and. intros x Hx. apply in_map_iff in Hx. destruct Hx as (y & <- & Hy). auto.
  - cbn. apply (fold_and (fun p => match p with (_, v) => finite ndump H v end)). intros x Hx.
    apply in_map_iff in Hx. destruct Hx as ([k y] & <- & Hy). apply IH'. apply in_map_iff. now exists (k, y).
Qed.

Section V.
Variable v : value.
Hypothesis S : storable t v.
Hypothesis F : finite_numbers v.
Hypothesis NI : no_imitation ndump H v.
Hypothesis NC : no_collision ndump H v.

Lemma same_forget u : forall w, part u v -> part w v -> same (embed u) (embed w) -> forget u = forget w.
Proof.
  induction u as [u IH] using value_ind'. intros w Pu Pw E.
  assert (IH' : forall x y, In x (members u) -> In y (members w) -> same (embed x) (embed y) -> forget x = forget y).
  { rewrite Forall_forall in IH. intros x y Hx Hy. apply IH; auto.
    - eapply part_trans; [|exact Pu]. now apply part_member.
    - eapply part_trans; [|exact Pw]. now apply part_member. }
  clear IH.
  pose proof (S u Pu) as Su. pose proof (S w Pw) as Sw.
  destruct u as [|b|n|s|j|a|st p f cb|x|nt sf tf|l|m]; destruct w as [|b'|n'|s'|j'|a'|st' p' f' cb'|x'|nt' sf' tf'|l'|m'];
    try (cbn in E; discriminate); try (cbn in E; congruence); try (exfalso; exact Su); try (cbn in E; contradiction);
    try (apply NI; auto; fail).
  - cbn. f_equal. apply (art_json_inj t); auto. cbn in E. congruence.
  - cbn [Model.embed HashSpec.same] in E. cbn [Spec.rebuild]. f_equal. cbn [members] in IH'. clear -IH' E.
    revert l' IH' E. induction l as [|x l IHl]; intros [|y l'] IH' E; cbn [map] in E; try contradiction; auto.
    destruct E as [E1 E2]. cbn [map]. f_equal; [apply IH'; cbn; auto|]. apply IHl; auto. intros; apply IH'; cbn; auto.
  - cbn [Model.embed HashSpec.same] in E. cbn [Spec.rebuild]. f_equal. cbn [members] in IH'. clear -IH' E.
    revert m' IH' E. induction m as [|[k x] l IHl]; intros [|[k' y] l'] IH' E; cbn [map] in E; try contradiction; auto.
    destruct E as (E0 & E1 & E2). cbn [map]. f_equal; [f_equal; auto; apply IH'; cbn; auto|].
    apply IHl; auto. intros; apply IH'; cbn; auto.
Qed.

Lemma distinct_from_json : distinct_hashes ndump H v.
Proof.
  intros u w Pu Pw E. apply same_forget; auto.
  apply hex_encode_injective in E.
  assert (Fin : forall x, part x v -> finite ndump H (embed x)).
  { intros x Px. apply finite_all.
    - intros y Py. apply S. eapply part_trans; eauto.
    - intros n Pn. apply F. eapply part_trans; eauto. }
  destruct (hash_same ndump H NT FL (embed u) (Fin u Pu) (embed w) (Fin w Pw) E) as [E'|C]; auto.
  exfalso. now apply (NC u w Pu Pw).
Qed.
End V.
End P.
