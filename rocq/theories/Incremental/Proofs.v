(** Invariants of builds on a cache. *)
From Coq Require Import String Ascii List Bool Arith NArith ZArith Lia.
From Verif Require Import Common.Strs Describe.Model Executor.Wire Executor.Local Executor.LocalSpec Executor.LocalProofs Dag.Traverse Executor.Process Executor.Build
  Executor.BuildSpec Executor.BuildProofs Incremental.Model Incremental.Spec.
Import ListNotations.
Local Open Scope string_scope.
Local Open Scope list_scope.

Lemma same_refl a : same_action a a.
Proof. unfold same_action. repeat split. Qed.
Lemma same_sym a b : same_action a b -> same_action b a.
Proof. unfold same_action. intros (?&?&?&?&?&?&?&?&?). repeat split; congruence. Qed.
Lemma same_trans a b c : same_action a b -> same_action b c -> same_action a c.
Proof. unfold same_action. intros (?&?&?&?&?&?&?&?&?) (?&?&?&?&?&?&?&?&?). repeat split; congruence. Qed.

Lemma sort_nil l : sort l = [] -> l = [].
Proof. intros E. apply Permutation.Permutation_nil. rewrite <- E. symmetry. apply sort_perm. Qed.

(** The same action has the same mode, or no outputs. *)
Lemma same_mode a b : constructed a -> constructed b -> same_action a b ->
  a_mode a = a_mode b \/ (a_files a = [] /\ a_dirs a = [] /\ a_paths a = []).
Proof.
  intros [(r1&c1&d1&f1&g1&e1&p1&t1&b1&->)|(r1&c1&d1&f1&e1&p1&t1&->)] [(r2&c2&d2&f2&g2&e2&p2&t2&b2&->)|(r2&c2&d2&f2&e2&p2&t2&->)]
    (_ & _ & _ & F & D & P & _); unfold new_action, new_action_paths in *; cbn [a_files a_dirs a_paths a_mode] in *.
  - destruct b1, b2; try (now left); right.
    + apply sort_nil, app_eq_nil in P as [-> ->]. auto.
    + symmetry in P. apply sort_nil, app_eq_nil in P as [Q1 Q2]. rewrite Q1, Q2 in *. auto.
  - right. rewrite F, D in *. destruct b1; cbn in P; auto.
  - right. symmetry in F, D. rewrite F, D in P. destruct b2; cbn in P; rewrite P; auto.
  - now left.
Qed.

Section I.
Variable hash : string -> string.
Variable t : hash_type.
Variable legacy : bool.
Variable valid : digest -> option bool.
Variable rest : api.
Variable X : context.
Variable happens : local_action -> world -> Prop.
Variable keep : string -> Prop.
Variable acts : nat -> act.
Variable source : nat -> option object_info.
Notation local_api := (local_api hash t legacy valid rest).
Notation building := (building hash t legacy valid rest X happens keep acts source).
Notation by_others := (by_others hash t happens keep).
Notation proceed := (proceed hash t legacy rest X acts).
Notation asks := (asks t legacy rest X acts).
Notation asked := (asked t legacy rest X).
Notation digest_of := (CreateActionDigest hash t).
Notation ran := (ran t).

Lemma collect_same a b w r : constructed a -> constructed b -> same_action a b -> CollectAndStoreOutputs t a w r = CollectAndStoreOutputs t b w r.
Proof.
  intros A B S. destruct (same_mode a b A B S) as [M|(F & D & P)]; destruct S as (_ & _ & _ & SF & SD & SP & _); unfold CollectAndStoreOutputs.
  - now rewrite M, SF, SD, SP.
  - rewrite <- SF, <- SD, <- SP, F, D, P. destruct (a_mode a), (a_mode b); reflexivity.
Qed.
Lemma contains_same a b r : constructed a -> constructed b -> same_action a b -> contains a r = contains b r.
Proof.
  intros A B S. destruct (same_mode a b A B S) as [M|(F & D & P)]; destruct S as (_ & _ & _ & SF & SD & SP & _); unfold contains.
  - now rewrite M, SF, SD, SP.
  - rewrite <- SF, <- SD, <- SP, F, D, P. destruct (a_mode a), (a_mode b); reflexivity.
Qed.
Lemma same_digest a b x : same_action a b -> digest_of a x = digest_of b x.
Proof. intros (A1&A2&A3&A4&A5&A6&A7&A8&A9). unfold CreateActionDigest, request_of. now rewrite A1, A2, A3, A4, A5, A6, A7, A8, A9. Qed.

Lemma stored_spec f a w ac : stored hash t f a w ac = ac \/
  exists id r, f = CacheOutput /\ digest_of a false = Some id /\ ran a w r true /\ stored hash t f a w ac = ainsert (d_hash id) r ac.
Proof.
  unfold stored. destruct (digest_of a (negb (CacheEnabled f))) as [id|] eqn:D; [|now left].
  destruct (Run t id f a w ac) as [o ac'] eqn:R. apply run_spec in R. cbn [snd]. destruct o as [r|]; [|now left].
  destruct R as (ok & Q & [->|(-> & -> & _ & ->)]); [now left|]. right. exists id, r. auto.
Qed.

(** Entries of the cache are results of executions. *)
Definition sound (ac : cache) : Prop := forall k r, alookup k ac = Some r ->
  exists a w id, happens a w /\ digest_of a false = Some id /\ d_hash id = k /\ ran a w r true.
Lemma stored_sound f a w ac : sound ac -> happens a w -> sound (stored hash t f a w ac).
Proof.
  intros S E. destruct (stored_spec f a w ac) as [->|(id & r & -> & D & R & ->)]; [exact S|].
  intros k r' L. rewrite ainsert_lookup in L. destruct (String.eqb_spec k (d_hash id)) as [->|N]; [|exact (S _ _ L)].
  injection L as <-. exists a, w, id. auto.
Qed.
Lemma others_sound ac ac' : by_others ac ac' -> sound ac -> sound ac'.
Proof.
  induction 1 as [|ac' f a w O IH E|ac' id O IH K]; intros S; auto using stored_sound.
  intros k r L. rewrite alookup_filter in L. destruct (String.eqb k id); [discriminate|]. exact (IH S _ _ L).
Qed.

Definition fair (s : system) : Prop := sound (y_cache s) /\ forall c f a w, y_running s c = Some (f, a, Some w) -> happens a w.
Lemma proceed_fair s e w b : fair s -> (forall c f a, asks s e = Some (c, (f, a)) -> runs_command hash t s f a w = true -> happens a w) ->
  fair (proceed s e w b).
Proof.
  intros [S R] Hw. destruct e as [[a|c]|[a|c] ok]; unfold proceed, Model.proceed; try (split; assumption).
  - destruct (asks s (EStart (Act c))) as [[c0 [f a]]|] eqn:E.
    + split; [exact S|]. cbn [y_running]. intros y f' a' w' Q. destruct (Nat.eqb y c); [|eauto].
      destruct (runs_command hash t s f a w) eqn:Z; [|discriminate]. injection Q as <- <- <-. exact (Hw c0 f a eq_refl Z).
    + split; [exact S|]. cbn [y_running]. intros y f' a' w' Q. destruct (Nat.eqb y c); [discriminate|eauto].
  - destruct (y_running s c) as [[[f a] [w'|]]|] eqn:E; (split; [|cbn [y_running]; auto]); cbn [y_cache]; auto.
    apply stored_sound; eauto.
Qed.
Lemma building_fair ac l s : building ac l s -> sound ac -> fair s.
Proof.
  intros B S. induction B as [|l s ac' B [IS IR] O|l s e w b B IH Hw E].
  - split; [exact S|discriminate].
  - split; [eapply others_sound; eauto|exact IR].
  - now apply proceed_fair.
Qed.

(** What was asked stays recorded. *)
Lemma asked_grows s e w b x : In x (y_asked s) -> In x (y_asked (proceed s e w b)).
Proof.
  intros I. destruct e as [[a|c]|[a|c] ok]; unfold proceed, Model.proceed; auto.
  - destruct (asks s _) as [[c0 [f a]]|]; cbn [y_asked]; auto with datatypes.
  - destruct (y_running s c) as [[[f a] o]|]; auto.
Qed.

(** What is asked of the api is what [asked] says. *)
Lemma process_same n ins A A' : upload_tree A = upload_tree rest -> upload_tree A' = upload_tree rest ->
  empty_tree A = empty_tree A' -> tree_overlay A = tree_overlay A' -> sync A = sync A' ->
  (forall e o, execute A (Some e) o = execute A' (Some e) o) ->
  (forall o, asked n ins = Some (o_flag o, action_of t legacy o) -> (o_flag o = CacheOutput \/ o_flag o = DoNotCacheOutput) ->
     execute A None o = execute A' None o) ->
  Process X A n ins = Process X A' n ins.
Proof.
  intros U U' E T S EX EL. unfold Process. set (props := MergeProperties (x_props X) (n_props n)).
  set (f := if n_no_cache n then DoNotCacheOutput else CacheOutput).
  assert (ExecuteAction X A n props f ins = ExecuteAction X A' n props f ins) as ->; [|reflexivity].
  unfold ExecuteAction. destruct (n_kind n) as [d| |] eqn:K.
  - unfold ExecuteTreeOverlayAction. rewrite E. assert (forall l e, overlays A d e l = overlays A' d e l) as O.
    { induction l as [|[p i] l IH]; intros e; cbn [overlays]; [reflexivity|]. rewrite T. destruct (tree_overlay A' d e i); [apply IH|reflexivity]. }
    destruct (empty_tree A'); [rewrite O|]; reflexivity.
  - assert (CreateRootDigest A ins = CreateRootDigest A' ins) as -> by (unfold CreateRootDigest; now rewrite U, U'). reflexivity.
  - assert (CreateRootDigest A ins = CreateRootDigest rest ins) as -> by (unfold CreateRootDigest; now rewrite U).
    assert (CreateRootDigest A' ins = CreateRootDigest rest ins) as -> by (unfold CreateRootDigest; now rewrite U').
    destruct (CreateRootDigest rest ins) as [root|] eqn:R; [|reflexivity].
    destruct (GetAlternativeEndpoint (x_dispatch X) props) as [e|] eqn:G; [rewrite S, EX; reflexivity|].
    assert (execute A None (order_of n props f root) = execute A' None (order_of n props f root)) as ->; [|reflexivity].
    apply EL; [|cbn; unfold f; destruct (n_no_cache n); auto]. unfold asked, Model.asked. rewrite K. fold props f. rewrite R, G. reflexivity.
Qed.

(** ** Commands that are deterministic *)
Section Deterministic.
Variable U : local_action -> Prop.
Hypothesis TM : tame hash t U.

Lemma ran_same a b w r ok : U a -> U b -> same_action a b -> ran a w r ok -> ran b w r ok.
Proof.
  intros A B S (code & E & N & C). exists code. split; [exact E|]. split; [destruct S as (_ & <- & _); exact N|].
  rewrite <- (collect_same a b); auto; now apply TM.
Qed.
Lemma one_id a b da db : U a -> U b -> digest_of a false = Some da -> digest_of b false = Some db -> d_hash da = d_hash db -> same_action a b.
Proof.
  intros A B DA DB E. destruct (proj1 TM a A) as [OA _], (proj1 TM b B) as [OB _].
  destruct (same_id hash t a b false false da db OA OB DA DB E) as [[S _]|C]; [exact S|]. destruct (proj2 TM a b A B). exact C.
Qed.

(** Executing without a cache. *)
Lemma execute_fresh f a w id r ok : (f = CacheOutput \/ f = DoNotCacheOutput) -> digest_of a (negb (CacheEnabled f)) = Some id -> ran a w r ok ->
  exists p, fst (fst (Execute hash t [] f a w)) = Some p /\ p_result p = r.
Proof.
  intros F D (code & E & N & C). unfold Execute. rewrite D. cbn [alookup].
  assert ((if CacheEnabled f then None else None) = @None response) as -> by now destruct (CacheEnabled f).
  assert (ExecutionEnabled f = true) as -> by (destruct F as [-> | ->]; reflexivity).
  unfold Run. rewrite E. destruct (a_command a) as [|x xs]; [congruence|]. rewrite C.
  destruct F as [-> | ->]; eexists; split; reflexivity.
Qed.
Lemma execute_miss ac f a w o ac' : (f = CacheOutput \/ f = DoNotCacheOutput) -> Execute hash t ac f a w = (o, ac', true) ->
  fst (fst (Execute hash t [] f a w)) = o.
Proof.
  intros F. unfold Execute. destruct (digest_of a (negb (CacheEnabled f))) as [id|] eqn:D; [|discriminate].
  destruct (if CacheEnabled f then _ else _) as [h|] eqn:Hh; [discriminate|].
  cbn [alookup]. assert ((if CacheEnabled f then None else None) = @None response) as -> by now destruct (CacheEnabled f).
  destruct (ExecutionEnabled f); [|discriminate]. unfold Run. destruct (w_exit w); [|intros E; injection E as <- _; reflexivity].
  destruct (a_command a); [intros E; injection E as <- _; reflexivity|].
  destruct (CollectAndStoreOutputs t a w _) as [r ok]. destruct F as [-> | ->]; intros E; injection E as <- _; reflexivity.
Qed.
Lemma execute_none ac f a w w' ac' : (f = CacheOutput \/ f = DoNotCacheOutput) -> Execute hash t ac f a w = (None, ac', false) ->
  fst (fst (Execute hash t [] f a w')) = None.
Proof.
  intros F. unfold Execute. destruct (digest_of a (negb (CacheEnabled f))) as [id|] eqn:D; [|reflexivity].
  destruct (if CacheEnabled f then _ else _) as [h|] eqn:Hh; [discriminate|].
  assert (ExecutionEnabled f = true) as -> by (destruct F as [-> | ->]; reflexivity).
  destruct (Run t id f a w ac) as [[r|] ac1]; [destruct F as [-> | ->]|]; discriminate.
Qed.
Definition results (o : option response) : option result := match o with Some p => Some (p_result p) | None => None end.
(** What is answered is what an execution without cache answers, in one of the executions that took place. *)
Lemma execute_backed ac f a w o ac' x : (f = CacheOutput \/ f = DoNotCacheOutput) -> sound ac -> U a -> (forall b v, happens b v -> U b) ->
  Execute hash t ac f a w = (o, ac', x) -> (x = true -> happens a w) ->
  o = None /\ x = false /\ (forall v, fst (fst (Execute hash t [] f a v)) = None) \/
  exists b v, same_action a b /\ happens b v /\ results (fst (fst (Execute hash t [] f a v))) = results o.
Proof.
  intros F S Ua HU E Hx. destruct x.
  - right. exists a, w. split; [apply same_refl|]. split; [auto|]. now rewrite (execute_miss _ _ _ _ _ _ F E).
  - destruct o as [p|]; [right|left; split; [reflexivity|]; split; [reflexivity|]; intros v; exact (execute_none _ _ _ _ v _ F E)].
    apply execute_hit in E as (CE & _ & _ & id & D & _ & L & _).
    destruct (S _ _ L) as (b & v & id' & Hb & D' & K & R). assert (SA : same_action a b) by (eapply one_id; eauto).
    exists b, v. split; [exact SA|]. split; [exact Hb|].
    destruct (execute_fresh f a v id (p_result p) true F) as (q & -> & Q).
    + rewrite CE. exact D.
    + eapply ran_same; [| |apply same_sym, SA|exact R]; eauto.
    + cbn. now rewrite Q.
Qed.

Variable does : local_action -> world.
Hypothesis DT : deterministic happens U does.

Lemma answers_same s w n ins : sound (y_cache s) -> (forall b v, happens b v -> U b) ->
  (forall f a, asked n ins = Some (f, a) -> U a /\ (runs_command hash t s f a w = true -> happens a w)) ->
  Process X (local_api (y_cache s) (fun _ => w)) n ins = Process X (local_api [] does) n ins.
Proof.
  intros S HU HA. apply process_same; try reflexivity. intros o A F. destruct (HA _ _ A) as [Ua Hx].
  cbn [execute local_api Model.local_api]. unfold runs_command in Hx. set (a := action_of t legacy o) in *.
  destruct (Execute hash t (y_cache s) (o_flag o) a w) as [[r ac'] x] eqn:E. cbn [fst snd] in *.
  destruct (execute_backed _ _ _ _ _ _ _ F S Ua HU E Hx) as [(-> & _ & N)|(b & v & SA & Hb & Q)].
  - now rewrite N.
  - assert (v = does a) as ->. { rewrite (proj1 DT b v Hb). apply DT; eauto. now apply same_sym. }
    destruct (fst (fst (Execute hash t [] (o_flag o) a (does a)))) as [p|], r as [q|]; try discriminate; [|reflexivity].
    cbn in Q. injection Q as Q. unfold reply_of. now rewrite Q.
Qed.

Theorem same_replay ac l s : building ac l s -> sound ac -> in_play happens s U ->
  replay X (local_api [] does) acts source l = Fine (y_build s).
Proof.
  intros B S. induction B as [|l s ac' B IH O|l s e w b B IH Hw E]; intros [HU P]; [reflexivity| |].
  - apply IH. split; [exact HU|exact P].
  - cbn [replay]. rewrite IH by (split; [exact HU|]; intros c f a x I; eapply P; apply asked_grows; exact I).
    assert (y_build (proceed s e w b) = b) as ->.
    { destruct e as [[a|c]|[a|c] ok]; unfold proceed, Model.proceed; try reflexivity.
      - destruct (asks s _) as [[c0 [f a]]|]; reflexivity.
      - destruct (y_running s c) as [[[f a] o]|]; reflexivity. }
    rewrite <- E. destruct e as [[a|c]|[a|c] ok]; try reflexivity. cbn [replay_event].
    destruct (read_inputs _ _) as [ins|] eqn:R; [|reflexivity]. do 2 f_equal.
    assert (PS : Process X (local_api (y_cache s) (fun _ => w)) (acts c) ins = Process X (local_api [] does) (acts c) ins).
    { apply answers_same; [exact (proj1 (building_fair _ _ _ B S))|exact HU|]. intros f a A.
      assert (AS : asks s (EStart (Act c)) = Some (c, (f, a))) by (unfold asks, Model.asks; rewrite R, A; reflexivity).
      split; [|exact (Hw c f a AS)]. apply (P c f a (runs_command hash t s f a w)).
      unfold proceed, Model.proceed. rewrite AS. now left. }
    now rewrite PS.
Qed.
End Deterministic.
End I.
