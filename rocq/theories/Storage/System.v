(** Invariants of executions. *)
From Coq Require Import String List Bool Arith Lia.
From Verif Require Import GitTree.Model Storage.Model Storage.Spec Storage.Addr Storage.Inv Storage.Hoare
  Storage.Uplink Storage.Gc Storage.Run.
Import ListNotations.

(** ** Running alone *)
Fixpoint run_rest {A} (m : M A) (oks : list bool) (σ : store) : option A * store * list bool :=
  match m with
  | Ret a => (Some a, σ, oks)
  | Act X act k =>
      match oks with
      | [] => (None, σ, [])
      | ok :: r => let '(x, σ') := act ok σ in run_rest (k x) r σ'
      end
  end.

Lemma run_rest_run {A} (m : M A) : forall oks σ, run m oks σ = fst (run_rest m oks σ).
Proof.
  induction m as [a|X act k IH]; intros oks σ; cbn [run run_rest]; [reflexivity|].
  destruct oks as [|ok oks]; [reflexivity|]. destruct (act ok σ) as [x σ']. apply IH.
Qed.

Lemma run_bind {A B} (m : M A) (f : A -> M B) : forall oks σ,
  run (bind m f) oks σ =
  match run_rest m oks σ with
  | (Some a, σ1, rest) => run (f a) rest σ1
  | (None, σ1, _) => (None, σ1)
  end.
Proof.
  induction m as [a|X act k IH]; intros oks σ; cbn [run run_rest bind]; [reflexivity|].
  destruct oks as [|ok oks]; [reflexivity|]. destruct (act ok σ) as [x σ']. apply IH.
Qed.

Lemma run_rest_in {A} (m : M A) : forall oks σ r σ' rest, run_rest m oks σ = (r, σ', rest) ->
  forall x, In x rest -> In x oks.
Proof.
  induction m as [a|X act k IH]; intros oks σ r σ' rest E; cbn [run_rest] in E.
  - injection E as <- <- <-. auto.
  - destruct oks as [|ok oks]; [injection E as <- <- <-; auto|]. destruct (act ok σ) as [x σ1].
    intros y Hy. right. eapply IH; eauto.
Qed.

(** ** Rotation *)

(** The generations from [j] on were moved. *)
Definition shifted (j : nat) (σ σ' : store) : Prop :=
  length (gens σ') = length (gens σ) /\ log σ' = log σ /\ j <= length (gens σ) /\
  forall k, k < length (gens σ) ->
    gen_at σ' k = if k <? j then gen_at σ k else if k =? j then [] else gen_at σ (k - 1).

Lemma shifted_start : forall σ, shifted (length (gens σ)) σ σ.
Proof.
  intros σ. repeat split; auto. intros k Hk. apply Nat.ltb_lt in Hk. now rewrite Hk.
Qed.

Lemma shifted_move : forall j σ σ', shifted (S j) σ σ' ->
  shifted j σ (mkStore (update_nth j (fun _ => []) (update_nth (S j) (fun _ => gen_at σ' j) (gens σ'))) (log σ')).
Proof.
  intros j σ σ' (A & B & D & E). split; [cbn [gens]; rewrite !update_nth_length; exact A|]. split; [exact B|].
  split; [lia|]. intros k Hk. rewrite gen_at_update.
  destruct (Nat.eqb_spec j k) as [<-|Hn].
  - rewrite update_nth_length, A. destruct (Nat.ltb_spec j j); [lia|]. rewrite Nat.eqb_refl.
    destruct (j <? length (gens σ)); reflexivity.
  - rewrite nth_update_nth. destruct (Nat.eqb_spec (S j) k) as [<-|Hn'].
    + rewrite A. destruct (Nat.ltb_spec (S j) (length (gens σ))); [|lia].
      rewrite E by lia. destruct (Nat.ltb_spec j (S j)); [|lia]. destruct (Nat.ltb_spec (S j) j); [lia|].
      destruct (Nat.eqb_spec (S j) j); [lia|]. now rewrite Nat.sub_succ, Nat.sub_0_r.
    + change (nth k (gens σ') []) with (gen_at σ' k). rewrite E by exact Hk.
      destruct (Nat.ltb_spec k (S j)), (Nat.ltb_spec k j); try lia; try reflexivity.
      destruct (Nat.eqb_spec k (S j)), (Nat.eqb_spec k j); try lia; reflexivity.
Qed.

Lemma rev_seq_S : forall j, rev (seq 0 (S j)) = j :: rev (seq 0 j).
Proof. intros j. rewrite seq_S, rev_app_distr. reflexivity. Qed.

Lemma run_moves : forall j oks σ σ' r σ'', shifted j σ σ' ->
  run (all_of (rev (seq 0 j)) move_generation) oks σ' = (r, σ'') ->
  exists j', shifted j' σ σ'' /\ (r = Some true -> j' = 0).
Proof.
  induction j as [|j IH]; intros oks σ σ' r σ'' SH E.
  - cbn in E. injection E as <- <-. exists 0. auto.
  - rewrite rev_seq_S in E. cbn [all_of] in E. rewrite run_bind in E. cbn [run_rest move_generation access] in E.
    destruct oks as [|ok oks]; [injection E as <- <-; exists (S j); split; [exact SH|discriminate]|].
    destruct ok.
    + apply shifted_move in SH. cbn [run_rest] in E. exact (IH _ _ _ _ _ SH E).
    + cbn in E. injection E as <- <-. exists (S j). split; [exact SH|discriminate].
Qed.

Lemma run_rotate : forall oks σ r σ', run rotate oks σ = (r, σ') ->
  exists j, shifted j σ σ' /\ (r = Some true -> j = 0).
Proof.
  intros oks σ r σ' E. unfold rotate in E. rewrite run_bind in E. cbn [run_rest num_generations access] in E.
  destruct oks as [|ok oks]; cbn [run_rest] in E.
  - injection E as <- <-. exists (length (gens σ)). split; [apply shifted_start|discriminate].
  - exact (run_moves _ _ _ _ _ _ (shifted_start σ) E).
Qed.

(** Generations were removed. *)
Definition dropped (σ σ' : store) : Prop :=
  length (gens σ') = length (gens σ) /\ log σ' = log σ /\
  forall k, gen_at σ' k = gen_at σ k \/ gen_at σ' k = [].

Lemma run_drops : forall l oks σ σ' r σ'', dropped σ σ' ->
  run (all_of l drop_generation) oks σ' = (r, σ'') -> dropped σ σ''.
Proof.
  induction l as [|j l IH]; intros oks σ σ' r σ'' SH E.
  - cbn in E. injection E as <- <-. exact SH.
  - cbn [all_of] in E. rewrite run_bind in E. cbn [run_rest drop_generation access] in E.
    destruct oks as [|ok oks]; [injection E as <- <-; exact SH|].
    destruct ok.
    + cbn [run_rest] in E. refine (IH _ _ _ _ _ _ E). destruct SH as (A & B & D).
      split; [cbn; rewrite update_nth_length; exact A|]. split; [exact B|]. intros k. rewrite gen_at_update.
      destruct (j =? k); [|apply D]. destruct (k <? length (gens σ')), (j <? length (gens σ')); now right.
    + cbn in E. injection E as <- <-. exact SH.
Qed.

Lemma run_drop_all : forall oks σ r σ', run drop_all oks σ = (r, σ') -> dropped σ σ'.
Proof.
  intros oks σ r σ' E. unfold drop_all in E. rewrite run_bind in E. cbn [run_rest num_generations access] in E.
  assert (D : dropped σ σ) by (repeat split; auto).
  destruct oks as [|ok oks]; cbn [run_rest] in E.
  - injection E as <- <-. exact D.
  - exact (run_drops _ _ _ _ _ _ D E).
Qed.

Lemma gen_at_out : forall σ k, length (gens σ) <= k -> gen_at σ k = [].
Proof. intros. now apply nth_overflow. Qed.

Section System.

Variable C : config.
Local Notation hash := (cfg_hash C).
Local Notation chunker := (cfg_chunker C).
Variable N : nat.
Hypothesis Npos : 0 < N.
Hypothesis chunker_concat : forall b, concat_bytes (chunker b) = b.
Hypothesis rechunk : forall b c, In c (chunker b) -> chunker c = [c].
Hypothesis names_valid : forall k b, cfg_valid_name C (hash k b) = true.
Local Notation sz := (sz N).
Local Notation ensures := (ensures C N).

Lemma empty_ok : forall L, gen_ok C L [].
Proof. intros L s i d E. discriminate E. Qed.

Lemma shifted_Inv : forall j σ σ', shifted j σ σ' -> Inv C σ -> Inv C σ'.
Proof.
  intros j σ σ' (A & B & D & E) [I1 I2]. split; [lia|]. intros k. rewrite B.
  destruct (Nat.lt_ge_cases k (length (gens σ))) as [H|H].
  - rewrite E by exact H. destruct (k <? j); [apply I2|]. destruct (k =? j); [apply empty_ok|apply I2].
  - rewrite gen_at_out by lia. apply empty_ok.
Qed.
Lemma dropped_Inv : forall σ σ', dropped σ σ' -> Inv C σ -> Inv C σ'.
Proof.
  intros σ σ' (A & B & D) [I1 I2]. split; [lia|]. intros k. rewrite B.
  destruct (D k) as [->| ->]; [apply I2|apply empty_ok].
Qed.

(** What running a safe computation alone gives. *)
Lemma run_safe {A} (Q : A -> store -> Prop) (m : M A) : forall oks σ r σ' rest,
  run_rest m oks σ = (r, σ', rest) -> (forall ok, In ok oks -> ok = true) ->
  (forall I, closed C I -> pres I m) ->
  limits C (log σ') -> Inv C σ -> safe C exclusive Q m σ ->
  weak σ σ' /\ Inv C σ' /\ (forall a, r = Some a -> Q a σ').
Proof.
  induction m as [a|X act k IH]; intros oks σ r σ' rest E OK PR L1 I0 S0; cbn [run_rest] in E.
  - injection E as <- <- <-. split; [apply weak_refl|]. split; [exact I0|]. intros a' Ea. injection Ea as <-. exact S0.
  - destruct oks as [|ok oks].
    { injection E as <- <- <-. split; [apply weak_refl|]. split; [exact I0|]. discriminate. }
    rewrite (OK ok (or_introl eq_refl)) in E.
    cbn [safe] in S0. specialize (S0 σ eq_refl I0).
    pose proof (fun I CI => proj1 (PR I CI) true σ) as PA. pose proof (fun I CI => proj2 (PR I CI)) as PK.
    destruct (act true σ) as [x σ1]. cbn [fst snd] in *.
    assert (G1 : grown (length (gens σ)) (log σ) σ1).
    { apply (PA _ (closed_grown C _ _)). split; [reflexivity|]. now exists []. }
    assert (G2 : grown (length (gens σ1)) (log σ1) σ').
    { assert (X0 := pres_run (grown (length (gens σ1)) (log σ1)) (k x) oks σ1
        (PK _ (closed_grown C _ _) x)). rewrite run_rest_run, E in X0. apply X0.
      split; [reflexivity|]. now exists []. }
    assert (LL1 : limits C (log σ1)) by (eapply limits_suffix; [apply G2|exact L1]).
    assert (LL0 : limits C (log σ)) by (eapply limits_suffix; [apply G1|exact LL1]).
    destruct (S0 LL0 LL1) as (A1 & A2 & A3).
    destruct (IH x oks σ1 r σ' rest E) as (B1 & B2 & B3); auto.
    + intros ok' H. apply OK. now right.
    + intros I CI. apply PK. exact CI.
    + split; [eapply weak_trans; eauto|]. auto.
Qed.

(** The effect of a garbage collection. *)
Definition collected (nr al : bool) (r : option bool) (σ σ1 σ' : store) : Prop :=
  if al then (nr = true /\ σ' = σ) \/ dropped σ σ'
  else exists j, weak σ σ1 /\ shifted j σ1 σ' /\
    (nr = true -> j = N) /\ (nr = false -> r = Some true -> j = 0).

Lemma compactify_weak : forall f e b oks σ r σ' rest,
  run_rest (Compactify C f e b) oks σ = (r, σ', rest) -> (forall ok, In ok oks -> ok = true) ->
  limits C (log σ') -> Inv C σ -> sz σ -> weak σ σ' /\ Inv C σ'.
Proof.
  intros f e b oks σ r σ' rest E OK L1 I0 S0.
  assert (G : grown (length (gens σ)) (log σ) σ').
  { assert (X0 := pres_run (grown (length (gens σ)) (log σ)) (Compactify C f e b) oks σ
       (pres_Compactify C _ (closed_grown C _ _) f e b)). rewrite run_rest_run, E in X0. apply X0.
    split; [reflexivity|]. now exists []. }
  assert (L0 : limits C (log σ)) by (eapply limits_suffix; [apply G|exact L1]).
  destruct (run_safe (fun _ _ => True) _ _ _ _ _ _ E OK) as (A1 & A2 & _); auto.
  - intros I CI. now apply pres_Compactify.
  - apply (x_Compactify C N Npos rechunk names_valid f e b σ L0 I0 S0).
Qed.

Lemma gc_run : forall nr al f e b oks σ r σ',
  run (TriggerGarbageCollection C nr al f e b) oks σ = (r, σ') ->
  (forall ok, In ok oks -> ok = true) -> limits C (log σ') -> Inv C σ -> sz σ ->
  Inv C σ' /\ sz σ' /\ collected nr al r σ (snd (run (Compactify C f e b) oks σ)) σ'.
Proof.
  intros nr al f e b oks σ r σ' E OK L1 I0 S0. unfold TriggerGarbageCollection in E.
  destruct al; [destruct nr|].
  - cbn in E. injection E as <- <-. split; [exact I0|]. split; [exact S0|]. now left.
  - cbn [andb] in E. apply run_drop_all in E. split; [eapply dropped_Inv; eauto|].
    split; [destruct E; unfold Uplink.sz in *; congruence|]. now right.
  - rewrite andb_false_r in E. rewrite run_bind in E.
    destruct (run_rest (Compactify C f e b) oks σ) as [[c σ1] rest] eqn:EC.
    assert (R1 : exists j, shifted j σ1 σ' /\ (nr = true -> j = length (gens σ1)) /\
       (nr = false -> r = Some true -> j = 0)).
    { destruct c as [[|]|]; [destruct nr| |].
      - cbn in E. injection E as <- <-. exists (length (gens σ1)). split; [apply shifted_start|]. split; [auto|discriminate].
      - destruct (run_rotate _ _ _ _ E) as (j & A & B). exists j. split; [exact A|]. split; [discriminate|auto].
      - cbn in E. injection E as <- <-. exists (length (gens σ1)). split; [apply shifted_start|]. split; [auto|discriminate].
      - injection E as <- <-. exists (length (gens σ1)). split; [apply shifted_start|]. split; [auto|discriminate]. }
    destruct R1 as (j & SH & J1 & J2).
    assert (LL : limits C (log σ1)) by (destruct SH as (_ & <- & _); exact L1).
    destruct (compactify_weak _ _ _ _ _ _ _ _ EC OK LL I0 S0) as [W I1].
    assert (S1 : sz σ1) by (destruct W; unfold Uplink.sz in *; congruence).
    split; [eapply shifted_Inv; eauto|]. split; [destruct SH; unfold Uplink.sz in *; congruence|].
    rewrite run_rest_run, EC. exists j. split; [exact W|]. split; [exact SH|]. split; [|exact J2].
    intros X. rewrite J1 by exact X. exact S1.
Qed.

(** ** The invariant of a system *)
Definition thread_ok (σ : store) (σ0 : store) (p : op * M answer) : Prop :=
  safe C shared (ensures σ0 (fst p)) (snd p) σ.
Definition sys (starts : list store) (Σ : system) : Prop :=
  Inv C (disk Σ) /\ sz (disk Σ) /\ Forall2 (thread_ok (disk Σ)) starts (threads Σ) /\
  forall I, closed C I -> pres_threads I (threads Σ).

Definition next_starts (starts : list store) (Σ : system) (a : action) : list store :=
  match a with Start _ => starts ++ [disk Σ] | Step _ _ => starts | Collect _ _ _ _ _ _ => [] end.

Definition transition (Σ : system) (a : action) : Prop :=
  match a with
  | Collect nr al f e b oks =>
      collected nr al (fst (run (TriggerGarbageCollection C nr al f e b) oks (disk Σ)))
        (disk Σ) (snd (run (Compactify C f e b) oks (disk Σ))) (disk (perform C Σ a))
  | _ => ext (disk Σ) (disk (perform C Σ a))
  end.

Lemma advance_sys : forall starts l t σ l' σ', Forall2 (thread_ok σ) starts l ->
  advance l t true σ = (l', σ') -> limits C (log σ) -> limits C (log σ') -> Inv C σ ->
  ext σ σ' /\ Inv C σ' /\ Forall2 (thread_ok σ') starts l'.
Proof.
  intros starts l t σ l' σ' F. revert t l' σ'. induction F as [|σ0 [o m] starts l TO F IH]; intros t l' σ' E L0 L1 I0.
  - cbn in E. injection E as <- <-. split; [apply ext_refl|]. auto.
  - cbn [advance] in E. destruct t as [|t].
    + destruct m as [a|X act k].
      * injection E as <- <-. split; [apply ext_refl|]. split; [exact I0|]. now constructor.
      * unfold thread_ok in TO. cbn [fst snd safe] in TO. specialize (TO σ (ext_refl σ) I0 L0).
        destruct (act true σ) as [x σ1]. injection E as <- <-. cbn [fst snd] in *.
        destruct (TO L1) as (A1 & A2 & A3). split; [exact A1|]. split; [exact A2|].
        constructor; [exact A3|]. clear IH. induction F as [|σ0' p' st' l'' T' F' IH']; constructor; auto.
        unfold thread_ok in *. eapply safe_env; [|exact A1|exact L1|exact I0|exact A2|exact T'].
        intros a. apply st_ensures.
    + destruct (advance l t true σ) as [r' σ1] eqn:EA.
      assert (l' = (o, m) :: r' /\ σ' = σ1) as [-> ->] by (destruct m; injection E as <- <-; auto).
      destruct (IH t r' σ1 EA L0 L1 I0) as (A1 & A2 & A3). split; [exact A1|]. split; [exact A2|].
      constructor; [|exact A3]. unfold thread_ok in *. cbn [fst snd] in *.
      eapply safe_env; [|exact A1|exact L1|exact I0|exact A2|exact TO]. intros a. apply st_ensures.
Qed.

Lemma perform_threads : forall Σ a, (forall I, closed C I -> pres_threads I (threads Σ)) ->
  forall I, closed C I -> pres_threads I (threads (perform C Σ a)).
Proof.
  intros Σ a PT I CI. specialize (PT I CI). destruct a as [o|t ok|nr al f e b oks]; cbn [perform].
  - intros o' m Hin. cbn [threads] in Hin. apply in_app_or in Hin.
    destruct Hin as [Hin|[E|[]]]; [exact (PT o' m Hin)|]. injection E as <- <-. now apply pres_program.
  - assert (H : forall l t σ, pres_threads I l -> pres_threads I (fst (advance l t ok σ))).
    { clear. induction l as [|[o1 m1] l IH]; intros t' σ PL; cbn [advance]; [auto|]. destruct t' as [|t'].
      - destruct m1 as [a|X act k]; [auto|].
        assert (P0 : pres I (Act X act k)) by (apply (PL o1); now left). destruct P0 as [P1 P2].
        destruct (act ok σ) as [x σ']. cbn [fst].
        intros o2 m2 [E|Hin]; [injection E as <- <-; apply P2|apply (PL o2); now right].
      - assert (PL' : pres_threads I l) by (intros o2 m2 Hin; apply (PL o2); now right).
        specialize (IH t' σ PL'). destruct (advance l t' ok σ) as [r' σ']. cbn [fst] in *.
        assert (G : pres_threads I ((o1, m1) :: r')).
        { intros o2 m2 [E|Hin]; [injection E as <- <-; apply (PL o1); now left|now apply (IH o2)]. }
        destruct m1; exact G. }
    specialize (H (threads Σ) t (disk Σ) PT). destruct (advance (threads Σ) t ok (disk Σ)) as [l σ]. exact H.
  - intros o m [].
Qed.

Lemma perform_sys : forall starts Σ a, sys starts Σ -> no_io_error a ->
  match a with Start o => contract C (disk Σ) o | _ => True end ->
  limits C (log (disk (perform C Σ a))) ->
  sys (next_starts starts Σ a) (perform C Σ a) /\ transition Σ a.
Proof.
  intros starts Σ a (I0 & S0 & F & PT) NE CT L1.
  assert (PT' := perform_threads Σ a PT).
  destruct a as [o|t ok|nr al f e b oks].
  - cbn [perform next_starts transition disk] in *. split; [|apply ext_refl].
    split; [exact I0|]. split; [exact S0|]. split; [|exact PT']. cbn [threads disk].
    apply Forall2_app; [exact F|]. constructor; [|constructor]. unfold thread_ok. cbn [fst snd].
    apply (program_safe C N Npos chunker_concat (disk Σ) L1 I0 S0 o CT).
  - cbn [no_io_error] in NE. subst ok. cbn [perform next_starts transition] in *.
    assert (L0 : limits C (log (disk Σ))).
    { eapply limits_suffix; [|exact L1].
      destruct (pres_advance (grown (length (gens (disk Σ))) (log (disk Σ))) (threads Σ) t true (disk Σ)) as [_ G].
      - apply PT, closed_grown.
      - split; [reflexivity|]. now exists [].
      - destruct (advance (threads Σ) t true (disk Σ)) as [l σ]. cbn in *. apply G. }
    destruct (advance (threads Σ) t true (disk Σ)) as [l σ] eqn:EA. cbn [disk threads] in *.
    destruct (advance_sys starts _ _ _ _ _ F EA L0 L1 I0) as (A1 & A2 & A3).
    split; [|exact A1]. split; [exact A2|]. split; [|split; [exact A3|exact PT']].
    destruct A1; unfold Uplink.sz in *; cbn; congruence.
  - cbn [perform next_starts transition disk] in *.
    destruct (run (TriggerGarbageCollection C nr al f e b) oks (disk Σ)) as [r σ'] eqn:ER. cbn [fst snd] in *.
    destruct (gc_run _ _ _ _ _ _ _ _ _ ER NE L1 I0 S0) as (A1 & A2 & A3).
    split; [|exact A3]. split; [exact A1|]. split; [exact A2|]. split; [constructor|exact PT'].
Qed.

Fixpoint all_starts (starts : list store) (acts : list action) (Σ : system) : list store :=
  match acts with
  | [] => starts
  | a :: r => all_starts (next_starts starts Σ a) r (perform C Σ a)
  end.

Lemma log_grows : forall acts Σ, (forall I, closed C I -> pres_threads I (threads Σ)) ->
  suffix (log (disk Σ)) (log (disk (perform_all C acts Σ))).
Proof.
  intros acts Σ PT.
  destruct (pres_perform_all C _ (closed_grown C (length (gens (disk Σ))) (log (disk Σ))) acts Σ) as [_ [_ G]].
  - apply PT, closed_grown.
  - split; [reflexivity|]. now exists [].
  - exact G.
Qed.

Lemma perform_all_sys : forall acts starts Σ, sys starts Σ ->
  (forall a, In a acts -> no_io_error a) -> contracts C acts Σ ->
  limits C (log (disk (perform_all C acts Σ))) ->
  sys (all_starts starts acts Σ) (perform_all C acts Σ).
Proof.
  induction acts as [|a acts IH]; intros starts Σ S0 NE CT L1; [exact S0|].
  cbn [perform_all fold_left all_starts contracts] in *. destruct CT as [CA CT].
  pose proof (perform_threads Σ a (proj2 (proj2 (proj2 S0)))) as PT.
  apply IH; auto.
  - apply perform_sys; auto; [apply NE; now left|]. eapply limits_suffix; [|exact L1]. apply (log_grows acts _ PT).
  - intros b Hb. apply NE. now right.
Qed.

End System.
