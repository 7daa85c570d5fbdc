(** Invariants of runs, whatever the schedule. *)
From Coq Require Import String List.
From Verif Require Import Symlinks.Model.
Import ListNotations.
Local Open Scope list_scope.

Scheme asked_mind := Induction for asked Sort Prop
  with asks_mind := Induction for asks Sort Prop
  with answers_mind := Induction for answers Sort Prop
  with yields_mind := Induction for yields Sort Prop
  with value_mind := Induction for value Sort Prop.
Combined Scheme run_mind from asked_mind, asks_mind, answers_mind, yields_mind, value_mind.

Section Safe.
  Context (good_req : request -> Prop) (good_val : string -> result -> Prop).

  Fixpoint safe (p : string) (a : action) : Prop :=
    match a with
    | Fail => True
    | Set_ r => good_val p r
    | Ask qs k =>
        Forall good_req qs /\
        forall vs, Forall2 (fun q v => good_val (q_path q) v) qs vs -> safe p (k vs)
    end.

  Lemma run_safe mk first : good_req first -> (forall q, good_req q -> safe (q_path q) (mk q)) ->
    (forall q, asked mk first q -> good_req q) /\ (forall p v, value mk first p v -> good_val p v).
  Proof.
    intros F S.
    assert ((forall q, asked mk first q -> good_req q) /\
      (forall a q, asks mk first a q -> forall p, safe p a -> good_req q) /\
      (forall qs vs, answers mk first qs vs -> Forall2 (fun q v => good_val (q_path q) v) qs vs) /\
      (forall a r, yields mk first a r -> forall p, safe p a -> good_val p r) /\
      (forall p v, value mk first p v -> good_val p v)) as (A & _ & _ & _ & B); [|auto].
    apply (run_mind mk first
      (fun q _ => good_req q)
      (fun a q _ => forall p, safe p a -> good_req q)
      (fun qs vs _ => Forall2 (fun q v => good_val (q_path q) v) qs vs)
      (fun a r _ => forall p, safe p a -> good_val p r)
      (fun p v _ => good_val p v)).
    - exact F.
    - intros q q' A IA B IB. eapply IB. apply S. exact IA.
    - intros qs k q I' p [H _]. exact (proj1 (Forall_forall _ _) H q I').
    - intros qs k vs q A IA B IB p [_ H]. eapply IB. apply H. exact IA.
    - constructor.
    - intros. constructor; assumption.
    - intros r p H. exact H.
    - intros qs k vs r A IA Y IY p [_ H]. apply IY. apply H. exact IA.
    - intros q r A IA Y IY. apply IY. apply S. exact IA.
  Qed.
End Safe.
