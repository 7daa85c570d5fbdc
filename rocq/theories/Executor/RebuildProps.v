(** Properties of rebuilding. *)
From Coq Require Import String List Bool Arith NArith ZArith.
From Verif Require Import Common.Strs Describe.Model Dag.Traverse Executor.Local Executor.Process Executor.Build Executor.BuildSpec
  Executor.BuildProofs Executor.Rebuild.
Import ListNotations.
Local Open Scope string_scope.
Local Open Scope list_scope.

(** ** Specification *)

(** The paths, as seen from the working directory, of the declared outputs. *)
Definition output_path (n : act) (p : string) : Prop := exists q a, In (q, a) (n_files n ++ n_dirs n) /\ p = rebase (n_cwd n) q.

(** ** C59 *)

Lemma info_eqb_eq i j : info_eqb i j = true <-> i = j.
Proof.
  unfold info_eqb, digest_eqb. rewrite !andb_true_iff, String.eqb_eq, !eqb_true_iff, N.eqb_eq.
  destruct i as [[h t s] ty f], j as [[h' t' s'] ty' f']; cbn. split.
  - intros [[[[-> ->] ->] T] ->]. destruct ty, ty'; try discriminate; reflexivity.
  - intros E. injection E as -> -> -> -> ->. destruct ty'; auto.
Qed.

Lemma compare_spec m m' l : compare m m' = Some l ->
  (forall p i, In (p, i) m -> exists j, alookup p m' = Some j) /\
  (forall p i j, In (p, (i, j)) l <-> In (p, i) m /\ alookup p m' = Some j /\ i <> j).
Proof.
  revert l. induction m as [|[q k] m IH]; intros l E; cbn [compare] in E.
  - injection E as <-. cbn. split; intros; tauto.
  - destruct (alookup q m') as [k'|] eqn:L; [|discriminate]. destruct (compare m m') as [l0|]; [|discriminate].
    destruct (IH l0 eq_refl) as [I1 I2]. injection E as E. split.
    + intros p i [J|J]; [injection J as <- <-; eauto|eauto].
    + intros p i j. destruct (info_eqb k k') eqn:Q.
      * apply info_eqb_eq in Q. subst l. rewrite I2. cbn. split; [tauto|]. intros ([J|J] & H & N); [|tauto].
        injection J as <- <-. congruence.
      * assert (k <> k') as NK by (intros C; apply info_eqb_eq in C; congruence). subst l. cbn. rewrite I2. split.
        -- intros [J|J]; [injection J as <- <- <-; auto|tauto].
        -- intros ([J|J] & H & N); [injection J as <- <-; left; congruence|tauto].
Qed.

(** If rebuilding an action succeeds, its outputs are those of the new run. If the cache has the action, with the
    same id, it has all the outputs, and exactly the outputs that differ are recorded as flaky; otherwise
    a cache miss is recorded. *)
Theorem C59_rebuild : forall E n ins ws f,
  (forall z m, rebuilt E ins = Some z -> y_artifacts (z_reply z) = Some m -> NoDup (map fst m)) ->
  RebuilderProcess E n ins = (true, ws, f) ->
  exists z m, rebuilt E ins = Some z /\ y_artifacts (z_reply z) = Some m /\
    (forall a i, In (a, i) ws -> exists p j, In (p, a) (n_files n ++ n_dirs n) /\ alookup (rebase (n_cwd n) p) m = Some j /\
       i_digest i = i_digest j /\ i_type i = i_type j) /\
    (forall p, output_path n p -> exists i, alookup p m = Some i) /\
    match looked_up E ins with
    | Some z' =>
        (z_id z' <> z_id z /\ f = Some Miss) \/
        (z_id z' = z_id z /\ exists m' l, y_artifacts (z_reply z') = Some m' /\ f = Some (Compared l) /\
           (forall p, output_path n p -> exists j, alookup p m' = Some j) /\
           forall p i j, In (p, (i, j)) l <-> alookup p m = Some i /\ alookup p m' = Some j /\ i <> j)
    | None => f = Some Miss
    end.
Proof.
  intros E n ins ws f ND H. unfold RebuilderProcess in H.
  destruct (DetectFlakyAction (rebuilt E ins) (looked_up E ins)) as [f0|] eqn:D; [|discriminate].
  destruct (rebuilt E ins) as [z|] eqn:R; [|discriminate].
  destruct (ParseResponse n ins (z_reply z)) as [ok ws0] eqn:P. injection H as -> -> <-.
  apply parse_ok in P. destruct P as (_ & m & AM & NE & CF & CD & ->). exists z, m.
  split; [reflexivity|]. split; [exact AM|].
  assert (forall p, output_path n p -> exists i, alookup p m = Some i) as OUT.
  { intros p (q & a & J & ->). apply in_app_iff in J. destruct J as [J|J].
    - destruct (check_save false m (n_cwd n) false _ CF) as [_ C]. destruct (C _ _ J) as (i & L & _). eauto.
    - destruct (check_save true m (n_cwd n) false _ CD) as [_ C]. destruct (C _ _ J) as (i & L & _). eauto. }
  split; [|split; [exact OUT|]].
  - intros a i J. apply save_in in J. destruct J as (p & j & J & L & ->). exists p, j. repeat split; auto;
      unfold set_info; now destruct (any_failed ins || negb (y_exit (z_reply z) =? 0)%Z).
  - unfold DetectFlakyAction in D. destruct (looked_up E ins) as [z'|]; [|congruence].
    destruct (String.eqb_spec (z_id z') (z_id z)) as [ID|ID]; [right|left; split; [exact ID|congruence]].
    split; [exact ID|]. rewrite AM in D. destruct (y_artifacts (z_reply z')) as [m'|]; [|discriminate].
    destruct (compare m m') as [l|] eqn:C; [|discriminate]. injection D as <-. exists m', l.
    destruct (compare_spec m m' l C) as [C1 C2]. specialize (ND z m eq_refl AM).
    assert (forall p i, In (p, i) m <-> alookup p m = Some i) as LK.
    { clear -ND. intros p i. induction m as [|[q k] m IH]; cbn; [split; [intros []|discriminate]|].
      cbn in ND. inversion ND as [|? ? N1 N2]; subst. destruct (String.eqb_spec p q) as [->|NE].
      - split; [|intros [=->]; now left]. intros [J|J]; [congruence|]. exfalso. apply N1. apply in_map_iff. exists (q, i). auto.
      - rewrite <- IH by assumption. split; [intros [J|J]; [congruence|exact J]|auto]. }
    split; [reflexivity|]. split; [reflexivity|]. split.
    + intros p O. destruct (OUT p O) as (i & L). apply LK in L. exact (C1 p i L).
    + intros p i j. rewrite C2, LK. reflexivity.
Qed.

(** Concrete case: one output differs, one does not. *)
Definition ex_info (s : string) : object_info := mkInfo (mkDigest s false 1%N) File false.
Definition ex_ends : endpoints :=
  mkEnds (fun _ => Some (mkFull "id" (mkReply 0%Z (Some [("o", ex_info "1"); ("p", ex_info "2")]) (Some false))))
         (fun _ => Some (mkFull "id" (mkReply 0%Z (Some [("p", ex_info "3"); ("o", ex_info "1")]) (Some false)))).
Definition ex_act : act := mkAct Command [] [("o", 0); ("p", 1)] [] ["c"] "" [] [] 1%Z false false.

Example C59_nonvacuous :
  RebuilderProcess ex_ends ex_act [] =
  (true, [(0, ex_info "1"); (1, ex_info "2")], Some (Compared [("p", (ex_info "2", ex_info "3"))])).
Proof. vm_compute. reflexivity. Qed.

Print Assumptions C59_rebuild.
