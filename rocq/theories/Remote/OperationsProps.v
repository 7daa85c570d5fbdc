(** C88: the operations a server remembers. *)
From Coq Require Import String ZArith List Bool Arith Permutation Sorted Lia.
From Verif Require Import Hex.Model Remote.Operations Remote.OperationsSpec Remote.OperationsProofs.
Import ListNotations.
Local Open Scope string_scope.
Local Open Scope list_scope.
Local Open Scope nat_scope.

(** C88. For every sequence of executions, whatever is collected in between: a
    server knows of each operation what was said last about it; only operations
    that are done can be forgotten. *)
Theorem C88_remembered : forall sorted threshold es x, sorts sorted -> 0 < threshold ->
  Query (happened sorted threshold es) x = last_said x (rev es) \/
  (Query (happened sorted threshold es) x = None /\ exists o, last_said x (rev es) = Some o /\ o_done o = true).
Proof. intros sorted threshold es x SO TP. exact (remembered sorted SO threshold TP es x). Qed.
Print Assumptions C88_remembered.

(** C88. The number of operations remembered is bounded by twice the threshold,
    or by the number of operations that were running at the same time, if this
    is larger; plus one. *)
Theorem C88_bounded : forall sorted threshold es U, sorts sorted -> 0 < threshold ->
  (forall es1 es2, es = es1 ++ es2 -> running_entries (happened sorted threshold es1) <= U) ->
  length (happened sorted threshold es) <= S (Nat.max (2 * threshold) U).
Proof. intros sorted threshold es U SO TP H. exact (bounded sorted SO threshold TP es U H). Qed.
Print Assumptions C88_bounded.

(** C88. When an operation is forgotten, all operations that are done and not
    forgotten are at least as recent; and at most as many are forgotten at once
    as the threshold says. *)
Theorem C88_oldest_first : forall sorted threshold es n new x o y p, sorts sorted -> 0 < threshold ->
  let c := happened sorted threshold es in
  let c' := Set_ sorted threshold c n new in
  Query c x = Some o -> Query c' x = None ->
  Query c y = Some p -> o_done p = true -> Query c' y <> None -> y <> n ->
  (o_seconds o <= o_seconds p)%Z.
Proof.
  intros sorted threshold es n new x o y p SO TP c c' QX GX QY DP GY YN.
  unfold c' in GX, GY. rewrite query_set in GX, GY. destruct (String.eqb_spec n x) as [->|NX]; [discriminate GX|].
  destruct (String.eqb_spec n y) as [->|NY]; [now destruct YN|].
  exact (oldest sorted SO threshold TP c x o y p (nodup_happened sorted threshold TP es) QX GX QY DP GY).
Qed.
Print Assumptions C88_oldest_first.
Theorem C88_forgets_few : forall sorted threshold es, sorts sorted -> 0 < threshold ->
  let c := happened sorted threshold es in
  length c <= length (GarbageCollection sorted threshold c) + threshold.
Proof.
  intros sorted threshold es SO TP c. exact (at_most sorted threshold TP c (nodup_happened sorted threshold TP es)).
Qed.
Print Assumptions C88_forgets_few.

(** C88. What a client waiting for an operation receives is the response of an
    execution of this action that finished, whenever the server looks. *)
Theorem C88_waited : forall sorted threshold times x o, sorts sorted -> 0 < threshold ->
  WaitExecution (map (happened sorted threshold) times) x = Some (Written o) ->
  exists es r s, In es times /\ In (Finish x r s) es /\ o = mkOperation x s true (Some r).
Proof.
  intros sorted threshold times x o SO TP H. unfold WaitExecution in H. destruct (IsHexString x); [|discriminate H].
  apply wait_written in H. destruct H as (c & HC & Q & D). apply in_map_iff in HC. destruct HC as (es & <- & HE).
  destruct (remembered sorted SO threshold TP es x) as [R|[R _]]; [|congruence]. rewrite Q in R. symmetry in R.
  apply last_said_from in R. destruct R as (e & He & N & S0). rewrite <- in_rev in He.
  destruct e as [y s|y r s|y]; cbn in N, S0; subst y; [injection S0 as <-; discriminate D| |discriminate S0]. injection S0 as <-. eauto 6.
Qed.
Print Assumptions C88_waited.

(** C88 (full statement): once all executions of an action have ended, a client
    that waits for it gets an answer. Proved if none of them failed. *)
Theorem C88_wait_ends_partial : forall sorted threshold es times x s, sorts sorted -> 0 < threshold ->
  possible es [] -> In (Begin x s) es -> ~ In (Fail x) es ->
  WaitExecution (map (happened sorted threshold) (es :: times)) x <> None.
Proof.
  intros sorted threshold es times x s SO TP P B NF. unfold WaitExecution. destruct (IsHexString x); [|discriminate].
  cbn [map wait_polls]. destruct (remembered sorted SO threshold TP es x) as [R|[R _]]; rewrite R; [|discriminate].
  destruct (last_said x (rev es)) as [o|] eqn:L; [|discriminate]. destruct (o_done o) eqn:D; [discriminate|].
  exfalso. refine (unended x es [] P NF _). eauto.
Qed.
Print Assumptions C88_wait_ends_partial.

(** C88. After an execution that failed the client waits for ever, whatever
    other actions are executed; even if the same action was executed
    successfully before. The entry is never removed. *)
Theorem C88_wait_ends_refuted : forall sorted threshold x s times, sorts sorted -> 0 < threshold -> IsHexString x = true ->
  forall before, possible before [] -> ~ In (Fail x) before ->
  let es := before ++ [Begin x s; Fail x] in
  (forall more e, In more times -> In e more -> event_name e <> x) ->
  possible es [] /\
  (forall more, In more times -> Query (happened sorted threshold (es ++ more)) x = Some (mkOperation x s false None)) /\
  WaitExecution (map (fun more => happened sorted threshold (es ++ more)) times) x = None.
Proof.
  intros sorted threshold x s times SO TP HX before PB NB es OT.
  assert (L : forall more, (forall e, In e more -> event_name e <> x) -> last_said x (rev (es ++ more)) = Some (mkOperation x s false None)).
  { induction more as [|e more IH] using rev_ind; intros H.
    - rewrite app_nil_r. unfold es. rewrite rev_app_distr. cbn. now rewrite String.eqb_refl.
    - rewrite app_assoc, last_said_app. destruct (String.eqb_spec (event_name e) x) as [E|N].
      + exfalso. apply (H e); [apply in_or_app; right; now left|exact E].
      + apply IH. intros y Hy. apply H. apply in_or_app. now left. }
  assert (Q : forall more, In more times -> Query (happened sorted threshold (es ++ more)) x = Some (mkOperation x s false None)).
  { intros more Hm. specialize (L more (fun e => OT more e Hm)).
    destruct (remembered sorted SO threshold TP (es ++ more) x) as [R|(_ & o & R & D)]; rewrite L in R; [exact R|].
    injection R as <-. discriminate D. }
  split; [|split; [exact Q|]].
  - unfold es. change [Begin x s; Fail x] with ([Begin x s] ++ [Fail x]). rewrite app_assoc.
    apply (possible_fail (before ++ [Begin x s]) [] [] x). now apply possible_begin.
  - unfold WaitExecution. rewrite HX. apply wait_none. intros c Hc. apply in_map_iff in Hc. destruct Hc as (more & <- & Hm).
    rewrite (Q more Hm). eexists. split; reflexivity.
Qed.
Print Assumptions C88_wait_ends_refuted.

(** A way of sorting. *)
Fixpoint insert (e : string * operation) (l : cache) : cache :=
  match l with
  | [] => [e]
  | f :: r => if (o_seconds (snd e) <=? o_seconds (snd f))%Z then e :: l else f :: insert e r
  end.
Definition by_time (c : cache) : cache := fold_right insert [] c.
Lemma insert_perm : forall e l, Permutation (e :: l) (insert e l).
Proof.
  induction l as [|f l IH]; cbn; [reflexivity|]. destruct (_ <=? _)%Z; [reflexivity|].
  rewrite perm_swap. now constructor.
Qed.
Lemma by_time_sorts : sorts by_time.
Proof.
  intros c. induction c as [|e c [P S0]]; cbn; [split; constructor|]. split; [rewrite P at 1; apply insert_perm|].
  fold (by_time c). clear P. induction (by_time c) as [|f l IH]; cbn; [repeat constructor|].
  apply StronglySorted_inv in S0. destruct S0 as [S1 S2].
  destruct (Z.leb_spec (o_seconds (snd e)) (o_seconds (snd f))) as [L|L].
  - constructor; [now constructor|]. constructor; [exact L|]. rewrite Forall_forall in *. intros y Hy. specialize (S2 y Hy). lia.
  - constructor; [now apply IH|]. rewrite Forall_forall in *. intros y Hy.
    apply (Permutation_in y (Permutation_sym (insert_perm e l))) in Hy. destruct Hy as [<-|Hy]; [lia|auto].
Qed.

(** Five actions with threshold 2: when the fifth has finished the server forgets
    the two oldest ones that are done, but not the older one that runs. *)
Example C88_nonvacuous :
  let es := [Begin "a0" 1; Begin "a1" 2; Finish "a1" "r1" 3; Begin "a2" 4; Finish "a2" "r2" 5; Begin "a3" 6; Finish "a3" "r3" 7;
             Begin "a4" 8] in
  sorts by_time /\ possible es ["a4"; "a0"] /\
  map fst (happened by_time 2 es) = ["a4"; "a3"; "a2"; "a1"; "a0"] /\
  map fst (happened by_time 2 (es ++ [Finish "a4" "r4" 10])) = ["a4"; "a3"; "a0"] /\
  WaitExecution (map (happened by_time 2) [es; es ++ [Finish "a0" "r0" 11]]) "a0" =
    Some (Written (mkOperation "a0" 11 true (Some "r0"))).
Proof.
  cbv zeta. split; [exact by_time_sorts|]. split; [|repeat split; vm_compute; reflexivity].
  assert (F : forall es run x s r s', possible es run -> possible (es ++ [Begin x s; Finish x r s']) run).
  { intros es run x s r s' P. change [Begin x s; Finish x r s'] with ([Begin x s] ++ [Finish x r s']). rewrite app_assoc.
    apply (possible_finish (es ++ [Begin x s]) [] run x r s'). now apply possible_begin. }
  apply (possible_begin [Begin "a0" 1%Z; Begin "a1" 2%Z; Finish "a1" "r1" 3%Z; Begin "a2" 4%Z; Finish "a2" "r2" 5%Z; Begin "a3" 6%Z; Finish "a3" "r3" 7%Z]).
  apply (F [Begin "a0" 1%Z; Begin "a1" 2%Z; Finish "a1" "r1" 3%Z; Begin "a2" 4%Z; Finish "a2" "r2" 5%Z]).
  apply (F [Begin "a0" 1%Z; Begin "a1" 2%Z; Finish "a1" "r1" 3%Z]).
  apply (F [Begin "a0" 1%Z]).
  apply (possible_begin [] [] "a0" 1%Z). constructor.
Qed.
