(** Cycle detection of the asynchronous map.

    Model of [AsyncMapConsumer::DetectCycle] and [DetectCycleForCaller],
    src/buildtool/multithreading/async_map_consumer.hpp 124-138 and 317-344. *)

From Coq Require Import List Arith Bool Lia Relations.
Import ListNotations.

(** Keys are numbers.  Only their equality is used by the code. *)
Definition key := nat.

(** [NodeRequests] (async_map_consumer.hpp 144): for each caller the set of
    keys it waits for, in the (arbitrary) iteration order of the unordered
    containers. *)
Definition requests := list (key * list key).

(** [requests.find(caller)], async_map_consumer.hpp 323. *)
Fixpoint find_request (r : requests) (k : key) : option (list key) :=
  match r with
  | [] => None
  | (k', ds) :: r' => if Nat.eqb k k' then Some ds else find_request r' k
  end.

Definition mem (k : key) (l : list key) : bool := existsb (Nat.eqb k) l.

(** Assignment [calls[pos] = k] to an element of the vector,
    async_map_consumer.hpp 325 and 330; [None] is an access beyond the end. *)
Fixpoint write (l : list key) (pos : nat) (k : key) : option (list key) :=
  match l, pos with
  | [], _ => None
  | _ :: l', 0 => Some (k :: l')
  | x :: l', S p => match write l' p k with
                    | Some l'' => Some (x :: l'')
                    | None => None
                    end
  end.

(** Outcome of the search: [Fault] is a write beyond the end of the vector,
    [NoFuel] means that the recursion bound of the model was too small. *)
Inductive outcome :=
  | Fault
  | NoFuel
  | Ret (found : bool) (calls : list key) (known : list key).

(** [DetectCycleForCaller], async_map_consumer.hpp 317-344.  The recursion is
    bounded by [fuel].  [static_cast<int>(pos)] is taken to be exact. *)
Fixpoint detect (fuel : nat) (r : requests) (calls known : list key)
    (caller : key) (pos : nat) {struct fuel} : outcome :=
  match fuel with
  | 0 => NoFuel
  | S f =>
    if mem caller known then Ret false calls known
    else
      match find_request r caller with
      | None => Ret false calls (caller :: known)
      | Some deps =>
        match write calls pos caller with
        | None => Fault
        | Some calls1 =>
          let pos1 := S pos in
          (fix loop (ds : list key) (calls known : list key) : outcome :=
             match ds with
             | [] => Ret false calls (caller :: known)
             | d :: ds' =>
               if mem d (firstn pos1 calls) then
                 match write calls pos1 d with
                 | None => Fault
                 | Some calls2 => Ret true (firstn (S pos1) calls2) known
                 end
               else
                 match detect f r calls known d pos1 with
                 | Ret false calls' known' => loop ds' calls' known'
                 | o => o
                 end
             end) deps calls1 known
        end
      end
  end.

(** The loop over the dependencies of [caller], by itself. *)
Fixpoint loop (f : nat) (r : requests) (caller : key) (pos1 : nat)
    (ds : list key) (calls known : list key) : outcome :=
  match ds with
  | [] => Ret false calls (caller :: known)
  | d :: ds' =>
    if mem d (firstn pos1 calls) then
      match write calls pos1 d with
      | None => Fault
      | Some calls2 => Ret true (firstn (S pos1) calls2) known
      end
    else
      match detect f r calls known d pos1 with
      | Ret false calls' known' => loop f r caller pos1 ds' calls' known'
      | o => o
      end
  end.

(** The loop over all callers in [DetectCycle], async_map_consumer.hpp
    131-135. *)
Fixpoint detect_callers (fuel : nat) (r : requests) (cs : requests)
    (calls known : list key) : outcome :=
  match cs with
  | [] => Ret false calls known
  | (caller, _) :: cs' =>
    match detect fuel r calls known caller 0 with
    | Ret false calls' known' => detect_callers fuel r cs' calls' known'
    | o => o
    end
  end.

(** [DetectCycle], async_map_consumer.hpp 124-138: the vector has one element
    more than there are callers, each initialised with the default key. *)
Definition detect_cycle_outcome (r : requests) : outcome :=
  detect_callers (S (S (length r))) r r (repeat 0 (S (length r))) [].

Definition detect_cycle (r : requests) : option (list key) :=
  match detect_cycle_outcome r with
  | Ret true calls _ => Some calls
  | _ => None
  end.

(** ** Specification *)

(** [a] has requested [b] and [b] has no value yet. *)
Definition waits_for (r : requests) (a b : key) : Prop :=
  exists ds, In (a, ds) r /\ In b ds.

(** Consecutive keys of the list wait for each other. *)
Fixpoint chain (R : key -> key -> Prop) (l : list key) : Prop :=
  match l with
  | a :: (b :: _) as l' => R a b /\ chain R l'
  | _ => True
  end.

Definition has_cycle (r : requests) : Prop :=
  exists k, clos_trans key (waits_for r) k k.

(** A call order that ends in a cycle: the last key occurs before. *)
Definition is_lasso (r : requests) (calls : list key) : Prop :=
  chain (waits_for r) calls /\
  exists pre k mid, calls = pre ++ k :: mid ++ [k].

(** ** Proofs *)

Lemma mem_In : forall k l, mem k l = true <-> In k l.
Proof.
  intros k l. unfold mem. rewrite existsb_exists. split.
  - intros [x [H E]]. apply Nat.eqb_eq in E. subst. exact H.
  - intros H. exists k. split; [exact H | apply Nat.eqb_refl].
Qed.

Lemma mem_not_In : forall k l, mem k l = false <-> ~ In k l.
Proof.
  intros k l. rewrite <- mem_In. destruct (mem k l); split; congruence.
Qed.

Lemma find_request_In : forall r k ds,
  find_request r k = Some ds -> In (k, ds) r.
Proof.
  induction r as [|[k' ds'] r IH]; cbn; intros k ds H; [discriminate|].
  destruct (Nat.eqb k k') eqn:E.
  - apply Nat.eqb_eq in E. injection H as <-. subst. now left.
  - right. now apply IH.
Qed.

Lemma find_request_NoDup : forall r k ds,
  NoDup (map fst r) -> In (k, ds) r -> find_request r k = Some ds.
Proof.
  induction r as [|[k' ds'] r IH]; cbn; intros k ds N H; [contradiction|].
  inversion N; subst.
  destruct H as [E|H].
  - injection E as <- <-. now rewrite Nat.eqb_refl.
  - destruct (Nat.eqb k k') eqn:E.
    + apply Nat.eqb_eq in E. subst. exfalso. apply H2.
      change k' with (fst (k', ds)). now apply in_map.
    + now apply IH.
Qed.

Lemma write_length : forall l p k l', write l p k = Some l' -> length l' = length l.
Proof.
  induction l as [|x l IH]; cbn; intros p k l' H; [destruct p; discriminate|].
  destruct p.
  - injection H as <-. reflexivity.
  - destruct (write l p k) eqn:E; [|discriminate]. injection H as <-.
    cbn. f_equal. eapply IH; eauto.
Qed.

Lemma write_some : forall l p k, p < length l ->
  exists l', write l p k = Some l' /\ firstn (S p) l' = firstn p l ++ [k]
             /\ length l' = length l.
Proof.
  induction l as [|x l IH]; cbn; intros p k H; [lia|].
  destruct p.
  - eexists. split; [reflexivity|]. split; reflexivity.
  - destruct (IH p k) as [l' [E [F L]]]; [lia|]. rewrite E.
    eexists. split; [reflexivity|]. split.
    + change (firstn (S (S p)) (x :: l')) with (x :: firstn (S p) l').
      rewrite F. reflexivity.
    + cbn. lia.
Qed.

Section Proofs.
Variable r : requests.
Hypothesis nodup : NoDup (map fst r).

Notation E := (waits_for r).

(** The keys of [known] are closed under requests and lie on no cycle. *)
Definition closed (known : list key) : Prop :=
  forall a b, In a known -> E a b -> In b known.

Definition acyclic_in (known : list key) : Prop :=
  forall a, In a known -> ~ clos_trans key E a a.

Lemma closed_trans : forall known, closed known ->
  forall a b, clos_trans key E a b -> In a known -> In b known.
Proof.
  intros known C a b H. induction H; intros I.
  - eapply C; eauto.
  - auto.
Qed.

Lemma closed_add : forall known c, closed known ->
  (forall b, E c b -> In b known) -> closed (c :: known).
Proof.
  intros known c C S a b [->|I] H; right; [now apply S | eapply C; eauto].
Qed.

Lemma acyclic_add : forall known c, closed known -> acyclic_in known ->
  (forall b, E c b -> In b known) -> acyclic_in (c :: known).
Proof.
  intros known c C A S a [->|I] H; [|now apply (A a)].
  assert (exists b, E a b /\ (b = a \/ clos_trans key E b a)) as (b & Hb & Hc).
  { apply clos_trans_t1n in H. inversion H; subst.
    - exists a. split; [assumption|]. now left.
    - exists y. split; [assumption|]. right. now apply clos_t1n_trans. }
  pose proof (S b Hb) as Ib.
  assert (In a known) as Ia.
  { destruct Hc as [->|Hc]; [exact Ib|]. eapply closed_trans; eauto. }
  apply (A a Ia). exact H.
Qed.

(** The current call stack. *)
Definition stack_ok (stack : list key) : Prop :=
  NoDup stack /\ incl stack (map fst r) /\ chain E stack.

Lemma chain_app_one : forall R l a b,
  chain R (l ++ [a]) -> R a b -> chain R (l ++ [a] ++ [b]).
Proof.
  intros R l. induction l as [|x l IH]; intros a b C H.
  - cbn. auto.
  - destruct l as [|y l].
    + cbn in *. tauto.
    + cbn [app chain] in C. cbn [app]. cbn [chain]. destruct C as [C1 C2].
      split; [exact C1|]. apply (IH a b); assumption.
Qed.

Lemma NoDup_incl_len : forall l, stack_ok l -> length l <= length r.
Proof.
  intros l [N [I _]]. pose proof (NoDup_incl_length N I).
  now rewrite map_length in H.
Qed.

Record good (calls known stack : list key) : Prop := {
  g_len : length calls = S (length r);
  g_stack : firstn (length stack) calls = stack;
  g_closed : closed known;
  g_acyclic : acyclic_in known;
  g_disjoint : forall k, In k stack -> ~ In k known
}.

(** A call with a sound stack either finds a lasso, or extends [known] by the
    caller. *)
Definition call_post (stack : list key) (caller : key) (known0 : list key)
    (o : outcome) : Prop :=
  match o with
  | Ret true calls _ => is_lasso r calls
  | Ret false calls known =>
      good calls known stack /\ In caller known /\ incl known0 known
  | _ => False
  end.

Lemma firstn_stack : forall (calls stack : list key) c,
  firstn (S (length stack)) calls = stack ++ [c] ->
  firstn (length (stack ++ [c])) calls = stack ++ [c].
Proof.
  intros. rewrite app_length. cbn. now rewrite Nat.add_1_r.
Qed.

Lemma firstn_prefix : forall (calls stack : list key) c,
  firstn (length (stack ++ [c])) calls = stack ++ [c] ->
  firstn (length stack) calls = stack.
Proof.
  intros calls stack c H.
  assert (firstn (length stack) (firstn (length (stack ++ [c])) calls)
          = firstn (length stack) (stack ++ [c])) as E1 by now rewrite H.
  rewrite firstn_firstn in E1. rewrite app_length in E1. cbn in E1.
  replace (min (length stack) (length stack + 1)) with (length stack) in E1 by lia.
  rewrite E1. rewrite firstn_app, Nat.sub_diag, firstn_all. cbn.
  apply app_nil_r.
Qed.

Lemma detect_unfold : forall f calls known caller pos,
  detect (S f) r calls known caller pos =
    if mem caller known then Ret false calls known
    else match find_request r caller with
         | None => Ret false calls (caller :: known)
         | Some deps =>
           match write calls pos caller with
           | None => Fault
           | Some calls1 => loop f r caller (S pos) deps calls1 known
           end
         end.
Proof.
  intros. cbn [detect].
  destruct (mem caller known); [reflexivity|].
  destruct (find_request r caller) as [deps|]; [|reflexivity].
  destruct (write calls pos caller) as [calls1|]; [|reflexivity].
  generalize calls1 known. clear.
  induction deps as [|d ds IH]; intros calls known; [reflexivity|].
  cbn [loop].
  destruct (mem d (firstn (S pos) calls)); [reflexivity|].
  destruct (detect f r calls known d (S pos)) as [| |[] c k]; try reflexivity.
  apply IH.
Qed.

Lemma good_pop : forall calls known stack c,
  good calls known (stack ++ [c]) -> (forall b, E c b -> In b known) ->
  ~ In c stack ->
  good calls (c :: known) stack.
Proof.
  intros calls known stack c [L S C A D] H N. constructor.
  - exact L.
  - eapply firstn_prefix; eauto.
  - now apply closed_add.
  - now apply acyclic_add.
  - intros k I [->|J].
    + contradiction.
    + eapply (D k); [apply in_or_app; now left | exact J].
Qed.

Lemma detect_correct : forall f stack caller calls known,
  stack_ok stack ->
  good calls known stack ->
  ~ In caller stack ->
  (stack = [] \/ exists s0 p, stack = s0 ++ [p] /\ E p caller) ->
  length r + 2 <= f + length stack ->
  call_post stack caller known (detect f r calls known caller (length stack)).
Proof.
  induction f as [|f IH]; intros stack caller calls known SO G NI Top F.
  - pose proof (NoDup_incl_len _ SO). lia.
  - rewrite detect_unfold.
    destruct (mem caller known) eqn:MK.
    { cbn. apply mem_In in MK. split; [exact G|]. split; [exact MK|]. intros x; auto. }
    apply mem_not_In in MK.
    destruct (find_request r caller) as [deps|] eqn:FR.
    2:{ cbn. split; [|split; [now left | intros x; now right]].
        assert (forall b, E caller b -> In b known) as NoOut.
        { intros b [ds [I _]]. rewrite (find_request_NoDup r caller ds nodup I) in FR.
          discriminate. }
        destruct G as [L S C A D]. constructor; auto.
        - now apply closed_add.
        - now apply acyclic_add.
        - intros k I [->|J]; [contradiction|]. eapply D; eauto. }
    pose proof (find_request_In _ _ _ FR) as InR.
    assert (stack_ok (stack ++ [caller])) as SO'.
    { destruct SO as [N [I C]]. split; [|split].
      - clear - N NI. induction stack as [|x s IH]; cbn.
        + constructor; [intros []|constructor].
        + inversion N; subst. constructor.
          * rewrite in_app_iff. cbn. intros [J|[->|[]]]; [contradiction|].
            apply NI. now left.
          * apply IH; [assumption|]. intros J. apply NI. now right.
      - intros x J. apply in_app_iff in J. destruct J as [J|[->|[]]]; [now apply I|].
        change x with (fst (x, deps)). now apply in_map.
      - destruct Top as [->|[s0 [p [-> HE]]]]; [cbn; auto|].
        rewrite <- app_assoc. apply chain_app_one; assumption. }
    pose proof (NoDup_incl_len _ SO') as LB. rewrite app_length in LB. cbn in LB.
    destruct (write_some calls (length stack) caller) as [calls1 [W [Fst L1]]].
    { rewrite (g_len _ _ _ G). lia. }
    rewrite W.
    assert (good calls1 known (stack ++ [caller])) as G1.
    { destruct G as [L S C A D]. constructor; auto.
      - rewrite L1. exact L.
      - apply firstn_stack. rewrite Fst, S. reflexivity.
      - intros k I J. apply in_app_iff in I. destruct I as [I|[->|[]]].
        + eapply D; eauto.
        + contradiction. }
    assert (forall b, In b deps -> E caller b) as Deps.
    { intros b Ib. exists deps. auto. }
    assert (forall b, E caller b -> In b deps) as Deps'.
    { intros b [ds [I Ib]]. rewrite (find_request_NoDup r caller ds nodup I) in FR.
      injection FR as <-. exact Ib. }
    clear W Fst L1 G InR FR.
    (* loop invariant: the dependencies handled so far are known *)
    assert (forall ds done calls known1,
               deps = done ++ ds ->
               good calls known1 (stack ++ [caller]) ->
               incl known known1 ->
               (forall b, In b done -> In b known1) ->
               call_post stack caller known
                 (loop f r caller (S (length stack)) ds calls known1)) as Loop.
    { induction ds as [|d ds IHds]; intros done calls' known1 DE GD Inc Done.
      - cbn. rewrite app_nil_r in DE. subst done.
        split; [|split; [now left | intros x J; right; now apply Inc]].
        apply good_pop; [exact GD | | exact NI].
        intros b Hb. apply Done. now apply Deps'.
      - cbn [loop].
        assert (firstn (S (length stack)) calls' = stack ++ [caller]) as Fs.
        { pose proof (g_stack _ _ _ GD) as GS. rewrite app_length in GS.
          cbn [length] in GS. rewrite Nat.add_1_r in GS. exact GS. }
        rewrite Fs.
        assert (E caller d) as Ed.
        { apply Deps. rewrite DE. apply in_or_app. right. now left. }
        destruct (mem d (stack ++ [caller])) eqn:MD.
        + apply mem_In in MD.
          destruct (write_some calls' (S (length stack)) d) as [calls2 [W2 [F2 L2]]].
          { rewrite (g_len _ _ _ GD). lia. }
          rewrite W2. unfold call_post. rewrite F2, Fs.
          split.
          * destruct SO' as [_ [_ C]].
            rewrite <- app_assoc. apply chain_app_one; assumption.
          * apply in_split in MD. destruct MD as [pre [mid EQ]].
            exists pre, d, mid. rewrite EQ. rewrite <- app_assoc. reflexivity.
        + apply mem_not_In in MD.
          assert (length (stack ++ [caller]) = S (length stack)) as LS
            by (rewrite app_length; cbn; lia).
          pose proof (IH (stack ++ [caller]) d calls' known1 SO' GD MD) as Call.
          rewrite LS in Call.
          assert (call_post (stack ++ [caller]) d known1
                    (detect f r calls' known1 d (S (length stack)))) as CP.
          { apply Call; [|lia]. right. exists stack, caller. auto. }
          destruct (detect f r calls' known1 d (S (length stack))) as [| |[] c k];
            try contradiction.
          * exact CP.
          * destruct CP as [GD' [Id Inc']].
            apply (IHds (done ++ [d])).
            -- rewrite <- app_assoc. exact DE.
            -- exact GD'.
            -- intros x J. now apply Inc', Inc.
            -- intros b J. apply in_app_iff in J. destruct J as [J|[->|[]]].
               ++ now apply Inc', Done.
               ++ exact Id. }
    apply (Loop deps []); auto.
    + intros x; auto.
    + intros b [].
Qed.

Lemma detect_callers_correct : forall cs done calls known,
  r = done ++ cs ->
  good calls known [] ->
  (forall k ds, In (k, ds) done -> In k known) ->
  match detect_callers (S (S (length r))) r cs calls known with
  | Ret true calls' _ => is_lasso r calls'
  | Ret false _ known' =>
      closed known' /\ acyclic_in known' /\
      (forall k ds, In (k, ds) r -> In k known')
  | _ => False
  end.
Proof.
  induction cs as [|[c ds] cs IH]; intros done calls known DE G Done.
  - cbn. rewrite app_nil_r in DE. subst done.
    split; [apply G|]. split; [apply G|]. exact Done.
  - cbn [detect_callers].
    pose proof (detect_correct (S (S (length r))) [] c calls known) as DC.
    cbn [length] in DC.
    assert (call_post [] c known (detect (S (S (length r))) r calls known c 0)) as CP.
    { apply DC; auto.
      - split; [constructor|]. split; [intros x []|exact I].
      - lia. }
    destruct (detect (S (S (length r))) r calls known c 0) as [| |[] c' k'];
      try contradiction; [exact CP|].
    destruct CP as [G' [Ic Inc]].
    apply (IH (done ++ [(c, ds)])).
    + rewrite <- app_assoc. exact DE.
    + exact G'.
    + intros k ds0 J. apply in_app_iff in J. destruct J as [J|[J|[]]].
      * apply Inc. eapply Done; eauto.
      * injection J as <- <-. exact Ic.
Qed.

Lemma detect_outcome :
  match detect_cycle_outcome r with
  | Ret true calls _ => is_lasso r calls
  | Ret false _ _ => ~ has_cycle r
  | _ => False
  end.
Proof.
  unfold detect_cycle_outcome.
  pose proof (detect_callers_correct r [] (repeat 0 (S (length r))) [] eq_refl) as H.
  assert (good (repeat 0 (S (length r))) [] []) as G.
  { constructor.
    - apply repeat_length.
    - reflexivity.
    - intros a b [].
    - intros a [].
    - intros k []. }
  specialize (H G). 
  assert (forall k ds, In (k, ds) (@nil (key * list key)) -> In k []) as D by (intros k ds []).
  specialize (H D).
  destruct (detect_callers (S (S (length r))) r r (repeat 0 (S (length r))) [])
    as [| |[] c k]; try contradiction; [exact H|].
  destruct H as [C [A All]].
  intros [x Hx]. apply (A x); [|exact Hx].
  apply clos_trans_t1n in Hx.
  assert (exists b, E x b) as [b [ds [J _]]] by (inversion Hx; subst; eauto).
  eapply All; eauto.
Qed.

End Proofs.

(** Specification-level fact: a lasso witnesses a cycle. *)
Lemma chain_mid : forall (R : key -> key -> Prop) pre k mid k',
  chain R (pre ++ k :: mid ++ [k']) -> clos_trans key R k k'.
Proof.
  intros R pre. induction pre as [|x pre IH].
  - intros k mid. revert k. induction mid as [|y mid IH]; intros k k' C.
    + cbn in C. apply t_step, C.
    + cbn [app chain] in C. destruct C as [C1 C2].
      eapply t_trans; [apply t_step, C1|]. apply IH. exact C2.
  - intros k mid k' C. apply (IH k mid k').
    destruct pre; cbn [app chain] in C; cbn [app]; tauto.
Qed.

Lemma lasso_cycle : forall r calls, is_lasso r calls -> has_cycle r.
Proof.
  intros r calls [C [pre [k [mid ->]]]]. exists k.
  apply (chain_mid _ pre k mid k C).
Qed.
