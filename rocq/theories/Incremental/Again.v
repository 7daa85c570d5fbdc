(** Building again. *)
From Coq Require Import String Ascii List Bool Arith NArith ZArith Lia.
From Verif Require Import Common.Strs Describe.Model Executor.Wire Executor.Local Executor.LocalSpec Executor.LocalProofs Dag.Traverse Dag.TraverseInv Dag.TraverseProps
  Executor.Process Executor.Build Executor.BuildSpec Executor.BuildProofs Executor.BuildProps
  Incremental.Model Incremental.Spec Incremental.Proofs Incremental.Backed.
Import ListNotations.
Local Open Scope string_scope.
Local Open Scope list_scope.

Section I.
Variable hash : string -> string.
Variable t : hash_type.
Variable legacy : bool.
Variable valid : digest -> option bool.
Variable rest : api.
Variable X : context.
Variable happens : local_action -> world -> Prop.
Variable keep : string -> Prop.
Variable g : graph.
Variable acts : nat -> act.
Variable source : nat -> option object_info.
Variable U : local_action -> Prop.
Variable does : local_action -> world.
Hypothesis W : wf g.
Hypothesis LK : linked g acts.
Hypothesis TS : forall c, tree_shape (acts c).
Hypothesis TM : tame hash t U.
Hypothesis DT : deterministic happens U does.
Notation local_api := (local_api hash t legacy valid rest).
Notation building := (building hash t legacy valid rest X happens keep acts source).
Notation proceed := (proceed hash t legacy rest X acts).
Notation asks := (asks t legacy rest X acts).
Notation asked := (asked t legacy rest X).
Notation sound := (sound hash t happens).
Notation inputs_value c ins := (Forall2 (fun (x : string * nat) (y : string * object_info) => fst x = fst y /\ value X (local_api [] does) g acts source (snd x) (snd y))
  (n_inputs (acts c)) ins).

Definition good_log (l : list event) : Prop := ordered g l /\ forall a ok, In (EEnd (Art a) ok) l -> builder g a = None.
Lemma good_tail e l : good_log (e :: l) -> good_log l.
Proof.
  intros [O L]. split.
  - intros l1 c l2 E. apply (O (e :: l1) c l2). now rewrite E.
  - intros a ok I. apply (L a ok). now right.
Qed.

(** Actions are asked for on the values of their inputs. *)
Definition consistent (l : list event) (s : system) : Prop :=
  (forall c r, b_pending (y_build s) c = Some r -> exists ins, inputs_value c ins /\
     match asked (acts c) ins with Some (f, a) => exists o, y_running s c = Some (f, a, o) | None => y_running s c = None end) /\
  (forall c f a x, In (c, f, a, x) (y_asked s) -> In (EStart (Act c)) l /\ exists ins, inputs_value c ins /\ asked (acts c) ins = Some (f, a)) /\
  (forall c ok, In (EEnd (Act c) ok) l -> exists ins, inputs_value c ins /\ forall f a, asked (acts c) ins = Some (f, a) -> In (c, f, a) (y_done s)).

Theorem consistently ac l s : building ac l s -> sound ac -> good_log l -> in_play happens s U -> consistent l s.
Proof.
  intros B S. induction B as [|l s ac' B IH O|l s e w b B IH Hw E]; intros G [HU P].
  - split; [discriminate|]. split; [intros c f a x []|intros c ok []].
  - apply IH; [exact G|]. split; auto.
  - assert (P' : in_play happens s U) by (split; [exact HU|]; intros c f a x I; eapply P; apply asked_grows; exact I).
    destruct (IH (good_tail _ _ G) P') as (C1 & C2 & C3). clear IH.
    assert (R0 : replay X (local_api [] does) acts source l = Fine (y_build s)) by (eapply same_replay; eauto).
    destruct (replay_inv X (local_api [] does) g acts source W LK TS l (proj1 (good_tail _ _ G)) (proj2 (good_tail _ _ G))) as [_ V]. specialize (V _ R0).
    destruct e as [[a|c]|[a|c] ok]; cbn [replay_event] in E.
    + injection E as <-. split; [exact C1|]. split.
      * intros c f x y I. destruct (C2 _ _ _ _ I) as [J K]. split; [now right|exact K].
      * intros c ok [I|I]; [discriminate|eauto].
    + destruct (read_inputs_value X (local_api [] does) g acts source LK (y_build s) l V c (fun d J => proj1 G [] c l eq_refl d J)) as (ins & R & F).
      rewrite R in E. injection E as <-.
      assert (AS : asks s (EStart (Act c)) = match asked (acts c) ins with Some r => Some (c, r) | None => None end) by (unfold asks, Model.asks; now rewrite R).
      unfold consistent, proceed, Model.proceed. rewrite AS. destruct (asked (acts c) ins) as [[f a]|] eqn:A; cbn [y_build y_running y_asked y_done b_pending]; (split; [|split]).
      * intros y r Q. destruct (Nat.eqb_spec y c) as [->|N]; [|exact (C1 _ _ Q)]. exists ins. split; [exact F|]. rewrite A. eauto.
      * intros y f' a' x [I|I].
        -- injection I as <- <- <- _. split; [now left|]. eauto.
        -- destruct (C2 _ _ _ _ I) as [J K]. split; [now right|exact K].
      * intros y ok [I|I]; [discriminate|eauto].
      * intros y r Q. destruct (Nat.eqb_spec y c) as [->|N]; [|exact (C1 _ _ Q)]. exists ins. split; [exact F|]. now rewrite A.
      * intros y f' a' x I. destruct (C2 _ _ _ _ I) as [J K]. split; [now right|exact K].
      * intros y ok [I|I]; [discriminate|eauto].
    + assert (Z : b_pending b = b_pending (y_build s)) by (destruct (source a), ok; try discriminate; injection E as <-; reflexivity).
      split; [cbn; rewrite Z; exact C1|]. split.
      * intros c f x y I. destruct (C2 _ _ _ _ I) as [J K]. split; [now right|exact K].
      * intros c ok' [I|I]; [discriminate|eauto].
    + destruct (b_pending (y_build s) c) as [[ok' ws]|] eqn:Pc; [|discriminate]. destruct (Bool.eqb ok ok'); [|discriminate]. injection E as <-.
      destruct (C1 _ _ Pc) as (ins & F & M). unfold consistent, proceed, Model.proceed.
      destruct (y_running s c) as [[[f a] o]|] eqn:Rc; cbn [y_build y_running y_asked y_done b_pending]; (split; [exact C1|split]).
      * intros y f' a' x I. destruct (C2 _ _ _ _ I) as [J K]. split; [now right|exact K].
      * intros y ok2 [I|I].
        -- injection I as <- _. exists ins. split; [exact F|]. intros f' a' Q. rewrite Q in M. destruct M as (o' & M). injection M as -> -> _. now left.
        -- destruct (C3 _ _ I) as (ins' & F' & M'). exists ins'. split; [exact F'|]. intros f' a' Q. right. auto.
      * intros y f' a' x I. destruct (C2 _ _ _ _ I) as [J K]. split; [now right|exact K].
      * intros y ok2 [I|I]; [|eauto]. injection I as <- _. exists ins. split; [exact F|]. intros f' a' Q. rewrite Q in M. now destruct M as (o' & M).
Qed.

Lemma run_good targets l s : run g (init g targets) l = Some s -> good_log (log s).
Proof. exact (reach_ok g W targets l s). Qed.
End I.
