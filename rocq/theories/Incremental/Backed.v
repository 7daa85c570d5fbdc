(** Builds with commands that need not be deterministic, and commands that are not run again. *)
From Coq Require Import String Ascii List Bool Arith NArith ZArith Lia.
From Verif Require Import Common.Strs Describe.Model Executor.Wire Executor.Local Executor.LocalSpec Executor.LocalProofs Dag.Traverse Executor.Process Executor.Build
  Executor.BuildSpec Executor.BuildProofs Incremental.Model Incremental.Spec Incremental.Proofs.
Import ListNotations.
Local Open Scope string_scope.
Local Open Scope list_scope.

Section I.
Variable hash : string -> string.
Variable t : hash_type.
Variable legacy : bool.
Variable valid : digest -> option bool.
Variable rest : api.
Variable X : context.
Variable happens : local_action -> world -> Prop.
Variable keep : string -> Prop.
Variable acts : nat -> act.
Variable source : nat -> option object_info.
Variable U : local_action -> Prop.
Hypothesis TM : tame hash t U.
Notation local_api := (local_api hash t legacy valid rest).
Notation building := (building hash t legacy valid rest X happens keep acts source).
Notation by_others := (by_others hash t happens keep).
Notation proceed := (proceed hash t legacy rest X acts).
Notation asks := (asks t legacy rest X acts).
Notation asked := (asked t legacy rest X).
Notation digest_of := (CreateActionDigest hash t).
Notation ran := (ran t).
Notation sound := (sound hash t happens).
Notation made := (made hash t legacy valid rest X happens acts source).

Lemma proceed_build s e w b : y_build (proceed s e w b) = b.
Proof.
  destruct e as [[a|c]|[a|c] ok]; unfold proceed, Model.proceed; try reflexivity.
  - destruct (asks s _) as [[c0 [f a]]|]; reflexivity.
  - destruct (y_running s c) as [[[f a] o]|]; reflexivity.
Qed.

Lemma process_null A n ins f a : upload_tree A = upload_tree rest -> asked n ins = Some (f, a) ->
  (forall o, o_flag o = f -> action_of t legacy o = a -> execute A None o = None) -> Process X A n ins = (false, []).
Proof.
  intros U0 AS EX. unfold asked, Model.asked in AS. unfold Process, ExecuteAction. destruct (n_kind n); try discriminate.
  set (props := MergeProperties (x_props X) (n_props n)) in *. set (g := if n_no_cache n then DoNotCacheOutput else CacheOutput) in *.
  assert (CreateRootDigest A ins = CreateRootDigest rest ins) as -> by (unfold CreateRootDigest; now rewrite U0).
  destruct (CreateRootDigest rest ins) as [root|]; [|discriminate]. destruct (GetAlternativeEndpoint (x_dispatch X) props); [discriminate|].
  injection AS as Ef Ea. rewrite EX; [reflexivity|exact Ef|exact Ea].
Qed.

Definition inputs_made (c : nat) (ins : list (string * object_info)) : Prop :=
  Forall2 (fun (x : string * nat) (y : string * object_info) => fst x = fst y /\ made (snd x) (snd y)) (n_inputs (acts c)) ins.
Definition backed (b : build) : Prop :=
  (forall a i, b_infos b a = Some i -> made a i) /\
  (forall c ws, b_pending b c = Some (true, ws) -> exists ins w, inputs_made c ins /\
     (forall f b, asked (acts c) ins = Some (f, b) -> exists b', same_action b b' /\ happens b' w) /\
     Process X (local_api [] (fun _ => w)) (acts c) ins = (true, ws)).

Lemma read_made b c ins : backed b -> read_inputs (b_infos b) (n_inputs (acts c)) = Some ins -> inputs_made c ins.
Proof.
  intros [V _]. unfold inputs_made. revert ins. induction (n_inputs (acts c)) as [|[p a] l IH]; intros ins E; cbn [read_inputs] in E.
  - injection E as <-. constructor.
  - destruct (b_infos b a) as [i|] eqn:I; [|discriminate]. destruct (read_inputs _ l) as [r|]; [|discriminate]. injection E as <-.
    constructor; [split; [reflexivity|exact (V _ _ I)]|auto].
Qed.

Lemma answers_backed s w n ins ws : sound (y_cache s) -> (forall b v, happens b v -> U b) ->
  (forall f a, asked n ins = Some (f, a) -> U a /\ (runs_command hash t s f a w = true -> happens a w)) ->
  Process X (local_api (y_cache s) (fun _ => w)) n ins = (true, ws) ->
  exists v, (forall f b, asked n ins = Some (f, b) -> exists b', same_action b b' /\ happens b' v) /\
    Process X (local_api [] (fun _ => v)) n ins = (true, ws).
Proof.
  intros S HU HA P. destruct (asked n ins) as [[f a]|] eqn:AS.
  - assert (F : f = CacheOutput \/ f = DoNotCacheOutput).
    { unfold asked, Model.asked in AS. destruct (n_kind n); try discriminate. destruct (CreateRootDigest rest ins); [|discriminate].
      destruct (GetAlternativeEndpoint _ _); [discriminate|]. injection AS as <- _. destruct (n_no_cache n); auto. }
    destruct (HA f a eq_refl) as [Ua Hx]. unfold runs_command in Hx. destruct (Execute hash t (y_cache s) f a w) as [[r ac'] x] eqn:E. cbn [snd] in Hx.
    destruct (execute_backed hash t happens U TM _ _ _ _ _ _ _ F S Ua HU E Hx) as [(-> & _ & N)|(b & v & SA & Hb & Q)].
    + rewrite (process_null _ n ins f a) in P; [discriminate|reflexivity|exact AS|]. intros o <- <-. cbn [execute local_api Model.local_api]. now rewrite E.
    + exists v. split; [intros f' b' Z; injection Z as <- <-; eauto|]. rewrite <- P. symmetry. apply process_same with (rest := rest) (t := t) (legacy := legacy); try reflexivity.
      intros o A0 _. rewrite AS in A0. injection A0 as -> ->. cbn [execute local_api Model.local_api]. rewrite E. cbn [fst].
      destruct (fst (fst (Execute hash t [] (o_flag o) (action_of t legacy o) v))) as [p|], r as [q|]; try discriminate; [|reflexivity].
      cbn in Q. injection Q as Q. unfold reply_of. now rewrite Q.
  - exists w. split; [discriminate|]. rewrite <- P. apply process_same with (rest := rest) (t := t) (legacy := legacy); try reflexivity.
    intros o A0. congruence.
Qed.

Theorem all_made ac l s : building ac l s -> sound ac -> in_play happens s U -> backed (y_build s).
Proof.
  intros B S. induction B as [|l s ac' B IH O|l s e w b B IH Hw E]; intros [HU P].
  - split; discriminate.
  - apply IH. split; [exact HU|exact P].
  - assert (V : backed (y_build s)) by (apply IH; split; [exact HU|]; intros c f a x I; eapply P; apply asked_grows; exact I).
    rewrite proceed_build. destruct V as [V1 V2]. destruct e as [[a|c]|[a|c] ok]; cbn [replay_event] in E.
    + injection E as <-. split; assumption.
    + destruct (read_inputs _ _) as [ins|] eqn:R; [|discriminate]. injection E as <-. split; [exact V1|]. cbn [b_pending].
      intros y ws Q. destruct (Nat.eqb_spec y c) as [->|N]; [|exact (V2 _ _ Q)]. injection Q as Q.
      assert (HA : forall f a, asked (acts c) ins = Some (f, a) -> U a /\ (runs_command hash t s f a w = true -> happens a w)).
      { intros f a A. assert (AS : asks s (EStart (Act c)) = Some (c, (f, a))) by (unfold asks, Model.asks; rewrite R, A; reflexivity).
        split; [|exact (Hw c f a AS)]. apply (P c f a (runs_command hash t s f a w)). unfold proceed, Model.proceed. rewrite AS. now left. }
      destruct (answers_backed s w (acts c) ins ws (proj1 (building_fair _ _ _ _ _ _ _ _ _ _ _ _ _ B S)) HU HA Q) as (v & A1 & A2).
      exists ins, v. split; [exact (read_made _ _ _ (conj V1 V2) R)|]. split; assumption.
    + destruct (source a) as [i|] eqn:Sa; destruct ok; try discriminate; injection E as <-; (split; [|exact V2]); [|exact V1].
      cbn [b_infos]. intros y j Q. unfold write_info in Q. cbn [fst snd] in Q. destruct (Nat.eqb_spec y a) as [->|N]; [|exact (V1 _ _ Q)].
      injection Q as <-. now apply m_source.
    + destruct (b_pending (y_build s) c) as [[ok' ws]|] eqn:Pc; [|discriminate]. destruct (Bool.eqb ok ok') eqn:K; [|discriminate]. injection E as <-.
      split; [|exact V2]. cbn [b_infos]. intros y j Q.
      destruct (write_infos_spec ws (b_infos (y_build s)) y) as [(i & I & Ei)|[N Ei]]; rewrite Ei in Q; [|exact (V1 _ _ Q)].
      injection Q as <-. destruct ok'.
      * destruct (V2 _ _ Pc) as (ins & v & A1 & A2 & A3). exact (m_built _ _ _ _ _ _ _ _ _ y i c ins v ws A1 A2 A3 I).
      * exfalso. clear - B Pc I. assert (Z : forall c ws, b_pending (y_build s) c = Some (false, ws) -> ws = []).
        { clear Pc I c ws y i. induction B as [|l s ac' B IH O|l s e w b B IH Hw E].
          - discriminate.
          - exact IH.
          - rewrite proceed_build. destruct e as [[a|c]|[a|c] ok]; cbn [replay_event] in E.
            + injection E as <-. exact IH.
            + destruct (read_inputs _ _) as [ins|]; [|discriminate]. injection E as <-. cbn [b_pending]. intros y ws Q.
              destruct (Nat.eqb y c); [|exact (IH _ _ Q)]. injection Q as Q. exact (process_fail _ _ _ _ _ Q).
            + destruct (source a), ok; try discriminate; injection E as <-; exact IH.
            + destruct (b_pending (y_build s) c) as [[ok' ws]|]; [|discriminate]. destruct (Bool.eqb ok ok'); [|discriminate]. injection E as <-. exact IH. }
        rewrite (Z _ _ Pc) in I. destruct I.
Qed.

(** ** Commands are not run again *)
Section Again.
Variable a : local_action.
Hypothesis Ua : U a.
Hypothesis RL : reliable t happens a.
Hypothesis KP : forall id, digest_of a false = Some id -> keep (d_hash id).

Definition remembered (ac : cache) : Prop := exists id r, digest_of a false = Some id /\ alookup (d_hash id) ac = Some r /\
  r_exit r = 0%Z /\ contains a r = true.

Lemma ran_complete b w r : U b -> same_action a b -> happens b w -> ran b w r true -> r_exit r = 0%Z /\ contains a r = true.
Proof.
  intros Ub S Hb (code & E & N & C). destruct (RL b w S Hb) as (E0 & P & _). split.
  - apply outputs_exit in C. cbn in C. congruence.
  - destruct (outputs_complete hash t b w (mkResult code [] [] [] [] [] (w_stdout w) (w_stderr w)) P) as (r' & C' & K).
    rewrite C in C'. injection C' as <-. rewrite (contains_same a b r); auto; now apply TM.
Qed.

Lemma stored_remembered f b w ac : U b -> happens b w -> remembered ac -> remembered (stored hash t f b w ac).
Proof.
  intros Ub Hb (id & r & D & L & E & K). destruct (stored_spec hash t f b w ac) as [->|(id' & r' & -> & D' & R & ->)]; [now exists id, r|].
  destruct (String.eqb_spec (d_hash id) (d_hash id')) as [Q|N].
  - assert (SA : same_action a b) by (eapply one_id; eauto).
    destruct (ran_complete b w r' Ub SA Hb R) as [E' K']. exists id, r'. split; [exact D|]. split; [|auto].
    rewrite ainsert_lookup, Q, String.eqb_refl. reflexivity.
  - exists id, r. split; [exact D|]. split; [|auto]. rewrite ainsert_lookup. destruct (String.eqb_spec (d_hash id) (d_hash id')); [contradiction|exact L].
Qed.
Hypothesis HU : forall b v, happens b v -> U b.
Lemma others_remembered ac ac' : by_others ac ac' -> remembered ac -> remembered ac'.
Proof.
  induction 1 as [|ac' f b w O IH Hb|ac' id O IH Nk]; intros M; auto.
  - apply stored_remembered; eauto.
  - destruct (IH M) as (id' & r & D & L & K). exists id', r. split; [exact D|]. split; [|exact K].
    rewrite alookup_filter. destruct (String.eqb_spec (d_hash id') id) as [<-|N]; [destruct (Nk (KP _ D))|exact L].
Qed.
Lemma building_remembered ac l s : building ac l s -> sound ac -> remembered ac -> remembered (y_cache s).
Proof.
  intros B S M. induction B as [|l s ac' B IH O|l s e w b B IH Hw E]; auto.
  - eapply others_remembered; eauto.
  - pose proof (building_fair _ _ _ _ _ _ _ _ _ _ _ _ _ B S) as [_ Fr].
    destruct e as [[x|c]|[x|c] ok]; unfold proceed, Model.proceed; auto.
    + destruct (asks s _) as [[c0 [f x]]|]; exact IH.
    + destruct (y_running s c) as [[[f x] [w'|]]|] eqn:Z; cbn [y_cache]; auto. apply stored_remembered; eauto.
Qed.

Lemma remembered_hits ac b w : same_action a b -> U b -> remembered ac -> snd (Execute hash t ac CacheOutput b w) = false.
Proof.
  intros SA Ub (id & r & D & L & E & K). unfold Execute. cbn [CacheEnabled negb]. rewrite <- (same_digest hash t a b false SA), D, L.
  fold (contains b r). rewrite <- (contains_same a b r), K, E by (auto; now apply TM). reflexivity.
Qed.
Lemma hits_remembered ac b w o ac' : same_action a b -> U b -> Execute hash t ac CacheOutput b w = (o, ac', false) -> o <> None -> remembered ac.
Proof.
  intros SA Ub E N. destruct o as [p|]; [|congruence]. apply execute_hit in E as (_ & _ & _ & id & D & _ & L & E & K).
  exists id, (p_result p). rewrite (same_digest hash t a b false SA). repeat split; auto. rewrite (contains_same a b); auto; now apply TM.
Qed.

(** The id of [a] can be computed (its messages are not too long). *)
Hypothesis ID : digest_of a false <> None.
Definition progress (s : system) : Prop :=
  (forall c b, y_running s c = Some (CacheOutput, b, None) -> same_action a b -> U b -> remembered (y_cache s)) /\
  (forall c b, In (c, CacheOutput, b) (y_done s) -> same_action a b -> U b -> remembered (y_cache s)).
Hypothesis CM : a_command a <> [].

Lemma run_remembers b w ac : U b -> same_action a b -> happens b w -> remembered (stored hash t CacheOutput b w ac).
Proof.
  intros Ub SA Hb. destruct (RL b w SA Hb) as (E0 & P & St). destruct (digest_of a false) as [id|] eqn:D; [|congruence].
  assert (C0 : a_command b <> []) by (destruct SA as (_ & <- & _); exact CM).
  destruct (outputs_complete hash t b w (mkResult 0%Z [] [] [] [] [] (w_stdout w) (w_stderr w)) P) as (r & C & K).
  unfold stored. cbn [CacheEnabled negb]. rewrite <- (same_digest hash t a b false SA), D. unfold Run. rewrite E0.
  destruct (a_command b); [congruence|]. rewrite C, St. cbn [andb snd]. exists id, r. split; [exact D|]. split; [|split].
  - rewrite ainsert_lookup, String.eqb_refl. reflexivity.
  - apply outputs_exit in C. exact C.
  - rewrite (contains_same a b r); auto; now apply TM.
Qed.

Theorem done_remembered ac l s : building ac l s -> sound ac -> progress s.
Proof.
  intros B S. induction B as [|l s ac' B IH O|l s e w b B [IR ID'] Hw E].
  - split; [discriminate|intros c b []].
  - destruct IH as [IR ID']. split; intros; eapply others_remembered; eauto.
  - pose proof (building_fair _ _ _ _ _ _ _ _ _ _ _ _ _ B S) as [_ Fr].
    destruct e as [[x|c]|[x|c] ok]; unfold proceed, Model.proceed; try (split; assumption).
    + destruct (asks s (EStart (Act c))) as [[c0 [f x]]|] eqn:A.
      * split; [|exact ID']. cbn [y_running y_cache]. intros y b' Q SA Ub. destruct (Nat.eqb y c); [|eauto].
        injection Q as -> -> Q. destruct (runs_command hash t s CacheOutput b' w) eqn:Z; [discriminate|]. unfold runs_command in Z.
        destruct (Execute hash t (y_cache s) CacheOutput b' w) as [[o ac1] x1] eqn:Ex. cbn in Z. subst x1.
        eapply hits_remembered; [exact SA|exact Ub|exact Ex|]. intros ->. unfold Execute in Ex. cbn [CacheEnabled negb] in Ex.
        rewrite <- (same_digest hash t a b' false SA) in Ex. destruct (digest_of a false) as [id|]; [|congruence].
        destruct (match alookup _ _ with Some _ => _ | None => _ end); [discriminate|]. cbn [ExecutionEnabled] in Ex.
        destruct (Run t id CacheOutput b' w (y_cache s)) as [[?|] ?]; discriminate.
      * split; [|exact ID']. cbn [y_running]. intros y b' Q. destruct (Nat.eqb y c); [discriminate|eauto].
    + destruct (y_running s c) as [[[f x] o]|] eqn:Z; [|split; assumption]. destruct o as [w'|].
      * assert (Hx : happens x w') by eauto. split; cbn [y_running y_cache y_done].
        -- intros y b' Q SA Ub. apply stored_remembered; eauto.
        -- intros y b' [Q|Q] SA Ub; [|apply stored_remembered; eauto]. injection Q as -> -> ->. now apply run_remembers.
      * split; cbn [y_running y_cache y_done]; [exact IR|]. intros y b' [Q|Q] SA Ub; [|eauto]. injection Q as -> -> ->. eauto.
Qed.

(** Once remembered, an action is not run for a build. *)
Theorem not_run ac l s : building ac l s -> sound ac -> in_play happens s U -> remembered ac ->
  forall c b, same_action a b -> ~ In (c, CacheOutput, b, true) (y_asked s).
Proof.
  intros B S. induction B as [|l s ac' B IH O|l s e w b B IH Hw E]; intros [_ P] M c b0 SA; [intros []| |].
  - apply IH; auto. split; auto.
  - assert (IH' : ~ In (c, CacheOutput, b0, true) (y_asked s)).
    { apply IH; auto. split; [exact HU|]. intros c1 f1 a1 x1 I. eapply P. apply asked_grows. exact I. }
    revert P. destruct e as [[x|c1]|[x|c1] ok]; unfold proceed, Model.proceed; auto.
    + destruct (asks s (EStart (Act c1))) as [[c0 [f x]]|] eqn:A; cbn [y_asked]; auto. intros P [Q|Q]; [|auto].
      injection Q as -> -> -> Q. unfold runs_command in Q. rewrite remembered_hits in Q; [discriminate|exact SA| |].
      * eapply P. now left.
      * eapply building_remembered; eauto.
    + destruct (y_running s c1) as [[[f x] o]|]; auto.
Qed.
End Again.
End I.
