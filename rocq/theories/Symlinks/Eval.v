(** Depth-first evaluation: one schedule, used for concrete trees. *)
From Coq Require Import String List.
From Verif Require Import Symlinks.Model.
Import ListNotations.
Local Open Scope list_scope.

Fixpoint all_some {A} (l : list (option A)) : option (list A) :=
  match l with
  | [] => Some []
  | Some a :: r => match all_some r with Some s => Some (a :: s) | None => None end
  | None :: _ => None
  end.

Fixpoint exec (ev : request -> option result) (a : action) : option result :=
  match a with
  | Fail => None
  | Set_ r => Some r
  | Ask qs k => match all_some (map ev qs) with Some vs => exec ev (k vs) | None => None end
  end.

Fixpoint eval (mk : request -> action) (fuel : nat) (q : request) : option result :=
  match fuel with
  | 0 => None
  | S n => exec (eval mk n) (mk q)
  end.

Section Sound.
  Context (mk : request -> action) (first : request).

  Lemma answers_sound (ev : request -> option result) qs : forall vs,
    (forall q v, In q qs -> ev q = Some v -> value mk first (q_path q) v) ->
    all_some (map ev qs) = Some vs -> answers mk first qs vs.
  Proof.
    induction qs as [|q qs IH]; intros vs H E; cbn in E.
    - injection E as <-. constructor.
    - destruct (ev q) as [v|] eqn:V; [|discriminate]. destruct (all_some (map ev qs)) as [s|]; [|discriminate].
      injection E as <-. constructor; [apply H; [now left|exact V]|]. apply IH; [|reflexivity].
      intros q' v' I'. apply H. now right.
  Qed.

  Lemma exec_sound ev a : forall r, (forall q v, asks mk first a q -> ev q = Some v -> value mk first (q_path q) v) ->
    exec ev a = Some r -> yields mk first a r.
  Proof.
    induction a as [|r0|qs k IH]; intros r H E; cbn in E; [discriminate|injection E as <-; constructor|].
    destruct (all_some (map ev qs)) as [vs|] eqn:A; [|discriminate].
    assert (answers mk first qs vs) as AN.
    { eapply answers_sound; [|exact A]. intros q v I'. apply H. now apply asks_now. }
    eapply yields_ask; [exact AN|]. apply IH; [|exact E]. intros q v Q. apply H. eapply asks_later; eassumption.
  Qed.

  Lemma eval_sound fuel : forall q r, asked mk first q -> eval mk fuel q = Some r -> value mk first (q_path q) r.
  Proof.
    induction fuel as [|n IH]; intros q r Q E; cbn in E; [discriminate|].
    apply value_of; [exact Q|]. eapply exec_sound; [|exact E]. intros q' v Q' V. apply IH; [|exact V].
    eapply asked_by; eassumption.
  Qed.
End Sound.

Lemma eval_resolves md root fuel m p :
  eval (create md root) fuel start = Some (mkRes m p) -> resolves_to md root m.
Proof. intros E. exists p. exact (eval_sound _ _ fuel start _ (asked_first _ _) E). Qed.
