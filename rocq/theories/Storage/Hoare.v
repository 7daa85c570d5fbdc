(** A program logic for computations that run while other threads and processes
    access the same storage. *)
From Coq Require Import String List Bool Arith Lia.
From Verif Require Import GitTree.Model Storage.Model Storage.Spec Storage.Addr Storage.Inv.
Import ListNotations.

(** The transitions that are allowed to this computation ([l_R]) and to others
    ([l_E]). *)
Record logic := mkLogic {
  l_R : store -> store -> Prop;
  l_refl : forall σ, l_R σ σ;
  l_trans : forall a b c, l_R a b -> l_R b c -> l_R a c;
  l_log : forall a b, l_R a b -> suffix (log a) (log b);
  l_E : store -> store -> Prop;
  l_E_R : forall a b, l_E a b -> l_R a b;
  l_E_trans : forall a b c, l_E a b -> l_E b c -> l_E a c
}.

Section Triples.

Context (C : config) (G0 : logic).
Local Notation R := (l_R G0).
Local Notation R_refl := (l_refl G0).
Local Notation R_trans := (l_trans G0).
Local Notation R_log := (l_log G0).
Local Notation E := (l_E G0).
Local Notation E_R := (l_E_R G0).

Definition stable (P : store -> Prop) : Prop := forall σ σ',
  R σ σ' -> limits C (log σ') -> Inv C σ -> Inv C σ' -> P σ -> P σ'.

(** Whatever others do between the accesses, each access is an allowed
    transition that keeps the invariant, and [Q] holds at the end. *)
Fixpoint safe {A} (Q : A -> store -> Prop) (m : M A) (σ : store) : Prop :=
  match m with
  | Ret a => Q a σ
  | Act X act k => forall σ1, E σ σ1 -> Inv C σ1 -> limits C (log σ1) ->
      limits C (log (snd (act true σ1))) ->
      R σ1 (snd (act true σ1)) /\ Inv C (snd (act true σ1)) /\
      safe Q (k (fst (act true σ1))) (snd (act true σ1))
  end.

Definition triple {A} (P : store -> Prop) (m : M A) (Q : A -> store -> Prop) : Prop :=
  forall σ, limits C (log σ) -> Inv C σ -> P σ -> safe Q m σ.

Lemma safe_conseq {A} (Q Q' : A -> store -> Prop) (m : M A) :
  (forall a σ, limits C (log σ) -> Inv C σ -> Q' a σ -> Q a σ) ->
  forall σ, limits C (log σ) -> Inv C σ -> safe Q' m σ -> safe Q m σ.
Proof.
  intros H. induction m as [a|X act k IH]; intros σ L0 I0 S0; cbn [safe] in *; [auto|].
  intros σ1 R1 I1 L1 L2. destruct (S0 σ1 R1 I1 L1 L2) as (A1 & A2 & A3). auto.
Qed.

Lemma safe_bind {A B} (m : M A) (f : A -> M B) (Q1 : A -> store -> Prop) (Q : B -> store -> Prop) :
  (forall a σ, limits C (log σ) -> Inv C σ -> Q1 a σ -> safe Q (f a) σ) ->
  forall σ, limits C (log σ) -> Inv C σ -> safe Q1 m σ -> safe Q (bind m f) σ.
Proof.
  intros H. induction m as [a|X act k IH]; intros σ L0 I0 S0; cbn [safe bind] in *; [auto|].
  intros σ1 R1 I1 L1 L2. destruct (S0 σ1 R1 I1 L1 L2) as (A1 & A2 & A3). auto.
Qed.

Lemma safe_frame {A} (F : store -> Prop) (m : M A) (Q : A -> store -> Prop) : stable F ->
  forall σ, Inv C σ -> F σ -> safe Q m σ -> safe (fun a σ => F σ /\ Q a σ) m σ.
Proof.
  intros SF. induction m as [a|X act k IH]; intros σ I0 F0 S0; cbn [safe] in *; [auto|].
  intros σ1 R1 I1 L1 L2. destruct (S0 σ1 R1 I1 L1 L2) as (A1 & A2 & A3).
  pose proof (SF _ _ (E_R _ _ R1) L1 I0 I1 F0) as F1. pose proof (SF _ _ A1 L2 I1 A2 F1) as F2. auto.
Qed.

(** Others may act before the computation goes on. *)
Lemma safe_env {A} (m : M A) (Q : A -> store -> Prop) : (forall a, stable (Q a)) ->
  forall σ σ', E σ σ' -> limits C (log σ') -> Inv C σ -> Inv C σ' -> safe Q m σ -> safe Q m σ'.
Proof.
  intros SQ σ σ' R0 L0 I0 I1 S0. destruct m as [a|X act k]; cbn [safe] in *.
  - exact (SQ a _ _ (E_R _ _ R0) L0 I0 I1 S0).
  - intros σ1 R1. apply S0. eapply (l_E_trans G0); eauto.
Qed.

Lemma triple_conseq {A} (P P' : store -> Prop) (m : M A) (Q Q' : A -> store -> Prop) :
  triple P' m Q' ->
  (forall σ, limits C (log σ) -> Inv C σ -> P σ -> P' σ) ->
  (forall a σ, limits C (log σ) -> Inv C σ -> Q' a σ -> Q a σ) ->
  triple P m Q.
Proof. intros H HP HQ σ L0 I0 P0. eapply safe_conseq; eauto. Qed.

Lemma triple_ret {A} (P : store -> Prop) (a : A) (Q : A -> store -> Prop) :
  (forall σ, limits C (log σ) -> Inv C σ -> P σ -> Q a σ) -> triple P (ret a) Q.
Proof. intros H σ L0 I0 P0. cbn. auto. Qed.

Lemma triple_bind {A B} (P : store -> Prop) (m : M A) (f : A -> M B) (Q1 : A -> store -> Prop) (Q : B -> store -> Prop) :
  triple P m Q1 -> (forall a, triple (Q1 a) (f a) Q) -> triple P (bind m f) Q.
Proof. intros Hm Hf σ L0 I0 P0. eapply safe_bind; [intros a; apply (Hf a)|exact L0|exact I0|auto]. Qed.

Lemma triple_frame {A} (F P : store -> Prop) (m : M A) (Q : A -> store -> Prop) :
  stable F -> triple P m Q -> triple (fun σ => F σ /\ P σ) m (fun a σ => F σ /\ Q a σ).
Proof. intros SF H σ L0 I0 [F0 P0]. apply safe_frame; auto. Qed.

(** Sequencing where the stable precondition is kept. *)
Lemma triple_seq {A B} (P : store -> Prop) (m : M A) (f : A -> M B) (Q1 : A -> store -> Prop) (Q : B -> store -> Prop) :
  stable P -> triple P m Q1 -> (forall a, triple (fun σ => P σ /\ Q1 a σ) (f a) Q) ->
  triple P (bind m f) Q.
Proof.
  intros SP Hm Hf. eapply triple_bind with (Q1 := fun a σ => P σ /\ Q1 a σ); auto.
  refine (triple_conseq _ _ m _ _ (triple_frame P P m Q1 SP Hm) _ _); auto.
Qed.

Lemma triple_pure {A} (F : Prop) (P : store -> Prop) (m : M A) (Q : A -> store -> Prop) :
  (F -> triple P m Q) -> triple (fun σ => P σ /\ F) m Q.
Proof. intros H σ L0 I0 [P0 F0]. exact (H F0 σ L0 I0 P0). Qed.

Lemma triple_pre {A} (P P' : store -> Prop) (m : M A) (Q : A -> store -> Prop) :
  triple P' m Q -> (forall σ, Inv C σ -> P σ -> P' σ) -> triple P m Q.
Proof. intros H HP σ L0 I0 P0. exact (H σ L0 I0 (HP _ I0 P0)). Qed.

Lemma triple_ex {A X} (F : X -> store -> Prop) (m : M A) (Q : A -> store -> Prop) :
  (forall x, triple (F x) m Q) -> triple (fun σ => exists x, F x σ) m Q.
Proof. intros H σ L0 I0 [x F0]. exact (H x σ L0 I0 F0). Qed.

Lemma triple_access {A : Set} (P : store -> Prop) (act : bool -> store -> A * store) (Q : A -> store -> Prop) :
  stable P ->
  (forall σ, limits C (log (snd (act true σ))) -> limits C (log σ) -> Inv C σ -> P σ ->
     R σ (snd (act true σ)) /\ Inv C (snd (act true σ)) /\ Q (fst (act true σ)) (snd (act true σ))) ->
  triple P (access act) Q.
Proof.
  intros SP H σ L0 I0 P0. cbn. intros σ1 R1 I1 L1 L2. apply H; auto. eapply SP; eauto using (E_R).
Qed.

Lemma triple_look : forall (P : store -> Prop) k s i, stable P ->
  triple P (look k s i) (fun d σ => P σ /\ lookup (gen_at σ k) s i = d).
Proof.
  intros P k s i SP. apply triple_access; [exact SP|].
  intros σ _ L0 I0 P0. cbn. split; [apply R_refl|auto].
Qed.

Lemma triple_attempt : forall (P : store -> Prop), stable P ->
  triple P attempt (fun b σ => P σ /\ b = true).
Proof.
  intros P SP. apply triple_access; [exact SP|]. intros σ _ L0 I0 P0. cbn. split; [apply R_refl|auto].
Qed.

Lemma triple_is_file : forall (P : store -> Prop) k s i, stable P ->
  triple P (is_file k s i) (fun b σ => P σ /\ (b = true <-> present (gen_at σ k) s i)).
Proof.
  intros P k s i SP. eapply triple_bind;[apply triple_look; exact SP| ].
  intros d. apply triple_ret. intros σ _ _ [P0 E]. split; [exact P0|]. unfold present. rewrite E.
  destruct d; split; intros H; congruence.
Qed.

Lemma triple_read_file : forall (P : store -> Prop) k s i, stable P ->
  triple P (read_file k s i) (fun r σ => P σ /\
    forall b, r = Some b <-> lookup (gen_at σ k) s i = Some (Bytes b)).
Proof.
  intros P k s i SP. eapply triple_bind;[apply triple_look; exact SP| ].
  intros d. apply triple_ret. intros σ _ _ [P0 E]. split; [exact P0|]. intros b. rewrite E.
  destruct d as [[]|]; split; intros H; congruence.
Qed.

(** A loop that stops at the first success: [S0] holds after success, and [B]
    ensures success. *)
Lemma triple_any_of {A} (l : list A) (f : A -> M bool) (P S0 : store -> Prop) (B : A -> Prop) :
  stable P ->
  (forall x, In x l -> triple P (f x) (fun r σ => (r = true -> S0 σ) /\ (B x -> r = true))) ->
  triple P (any_of l f) (fun r σ => (r = true -> S0 σ) /\ ((exists x, In x l /\ B x) -> r = true)).
Proof.
  intros SP H. induction l as [|x l IH]; cbn [any_of].
  - apply triple_ret. intros σ _ _ _. split; [discriminate|]. intros (x & [] & _).
  - eapply triple_seq; [exact SP|apply H; now left|].
    + intros [|]; cbn beta.
      * apply triple_ret. intros σ _ _ (P0 & S1 & _). auto.
      * eapply triple_pre with (P' := fun σ => P σ /\ ~ B x).
        2:{ intros σ _ (P0 & _ & NB). split; [exact P0|]. intros Bx. discriminate (NB Bx). }
        apply triple_pure. intros NB.
        eapply triple_conseq; [apply IH|..].
        -- intros y Hy. apply H. now right.
        -- auto.
        -- intros r σ _ _ [Q1 Q2]. split; [exact Q1|]. intros (y & [<-|Hy] & By); [contradiction|].
           apply Q2. eauto.
Qed.

(** A loop that stops at the first failure. *)
Lemma triple_all_of {A} (l : list A) (f : A -> M bool) (P : store -> Prop) (S0 : A -> store -> Prop) (B : Prop) :
  stable P -> (forall x, stable (S0 x)) ->
  (forall x, In x l -> triple P (f x) (fun r σ => (r = true -> S0 x σ) /\ (B -> r = true))) ->
  triple P (all_of l f) (fun r σ => (r = true -> forall x, In x l -> S0 x σ) /\ (B -> r = true)).
Proof.
  intros SP SS H. induction l as [|x l IH]; cbn [all_of].
  - apply triple_ret. intros σ _ _ _. split; [intros _ x []|reflexivity].
  - eapply triple_seq; [exact SP|apply H; now left|].
    + intros [|]; cbn beta.
      * refine (triple_conseq _ _ _ _ _ (triple_frame (S0 x) P _ _ (SS x) (IH _)) _ _).
        -- intros y Hy. apply H. now right.
        -- intros σ _ _ (P0 & S1 & _). split; [now apply S1|exact P0].
        -- intros r σ _ _ (Sx & Q1 & Q2). split; [|exact Q2].
           intros Er y [<-|Hy]; [exact Sx|now apply Q1].
      * apply triple_ret. intros σ _ _ (P0 & _ & NB). split; [discriminate|exact NB].
Qed.

Lemma triple_num (P : store -> Prop) n : stable P -> (forall σ, P σ -> length (gens σ) = n) ->
  triple P num_generations (fun r _ => r = n).
Proof.
  intros SP H. apply triple_access; [exact SP|]. intros σ _ L0 I0 P0. cbn.
  split; [apply R_refl|]. auto.
Qed.

Lemma triple_generations (f : nat -> M bool) (P S0 : store -> Prop) (B : nat -> Prop) n :
  stable P -> (forall σ, P σ -> length (gens σ) = n) ->
  (forall k, k < n -> triple P (f k) (fun r σ => (r = true -> S0 σ) /\ (B k -> r = true))) ->
  triple P (generations f) (fun r σ => (r = true -> S0 σ) /\ ((exists k, k < n /\ B k) -> r = true)).
Proof.
  intros SP N H. unfold generations.
  eapply triple_seq; [exact SP|apply triple_num; [exact SP|exact N]|].
  intros n'. cbn beta. apply triple_pure. intros ->.
  eapply triple_conseq; [apply (triple_any_of (seq 0 n) f P S0 B SP)|auto|].
  - intros k Hk. apply H. apply in_seq in Hk. lia.
  - intros r σ _ _ [Q1 Q2]. split; [exact Q1|]. intros (k & Hk & Bk). apply Q2. exists k. split; [|exact Bk].
    apply in_seq. lia.
Qed.

End Triples.
