(** Properties of processing actions and of builds. *)
From Coq Require Import String List Bool Arith ZArith Permutation Lia.
From Verif Require Import Common.Strs Path.Model Path.Spec Describe.Model Executor.Local Dag.Traverse Dag.TraverseInv Dag.TraverseProps
  Executor.Process Executor.Build Executor.BuildSpec Executor.BuildProofs Executor.Rebase.
Import ListNotations.
Local Open Scope string_scope.
Local Open Scope list_scope.

(** * C57: processing one action *)

Lemma merge_lookup base over k : sorted_keys over ->
  alookup k (MergeProperties base over) = match alookup k over with Some v => Some v | None => alookup k base end.
Proof.
  unfold MergeProperties. revert base. induction over as [|[x v] r IH]; intros base S; cbn [fold_left fst snd alookup]; [reflexivity|].
  rewrite IH by (eapply sorted_keys_tail; eauto). rewrite ainsert_lookup.
  destruct (String.eqb_spec k x) as [->|]; [|reflexivity].
  destruct (alookup x r) as [w|] eqn:L; [|reflexivity]. exfalso.
  assert (In (x, w) r) as J.
  { clear -L. induction r as [|[y z] r IH]; cbn in L; [discriminate|]. destruct (String.eqb_spec x y); [left; congruence|right; auto]. }
  pose proof (sorted_keys_head _ _ _ S J) as K. cbn in K. exact (str_lt_irrefl _ K).
Qed.

Lemma merge_sorted base over : sorted_keys base -> sorted_keys (MergeProperties base over).
Proof.
  unfold MergeProperties. revert base. induction over as [|[x v] r IH]; intros base S; cbn [fold_left]; [exact S|].
  apply IH, ainsert_sorted, S.
Qed.

Lemma matches_holds props c : matches props c = true <-> holds props c.
Proof.
  unfold matches, holds. rewrite forallb_forall. split.
  - intros H k v J. specialize (H (k, v) J). cbn in H. destruct (alookup k props) as [w|]; [|discriminate].
    apply String.eqb_eq in H. now subst.
  - intros H [k v] J. cbn. rewrite (H k v J). apply String.eqb_refl.
Qed.

Lemma endpoint_spec dispatch props e : GetAlternativeEndpoint dispatch props = e <-> endpoint_for dispatch props e.
Proof.
  unfold GetAlternativeEndpoint. split.
  - intros <-. induction dispatch as [|[c x] r IH]; cbn [find]; [intros c y []|].
    cbn [fst]. destruct (matches props c) eqn:M.
    + exists [], c, r. split; [reflexivity|]. split; [now apply matches_holds|intros ? ? []].
    + assert (~ holds props c) as N by (intros H; apply matches_holds in H; congruence).
      destruct (find _ r) as [[c' x']|]; cbn in *.
      * destruct IH as (b & c1 & l & -> & H & B). exists ((c, x) :: b), c1, l. split; [reflexivity|]. split; [exact H|].
        intros c2 y [E|J]; [injection E as <- <-; exact N|exact (B _ _ J)].
      * intros c2 y [E|J]; [injection E as <- <-; exact N|exact (IH _ _ J)].
  - intros H. destruct e as [x|]; cbn in H.
    + destruct H as (b & c & l & -> & H & B). induction b as [|[c0 y] b IH]; cbn [app find fst].
      * apply matches_holds in H. now rewrite H.
      * assert (matches props c0 = false) as ->.
        { destruct (matches props c0) eqn:M; [|reflexivity]. apply matches_holds in M. exfalso. exact (B c0 y (or_introl eq_refl) M). }
        apply IH. intros c1 z J. apply (B c1 z). now right.
    + induction dispatch as [|[c x] r IH]; cbn [find fst]; [reflexivity|].
      assert (matches props c = false) as ->.
      { destruct (matches props c) eqn:M; [|reflexivity]. apply matches_holds in M. exfalso. exact (H c x (or_introl eq_refl) M). }
      apply IH. intros c1 y J. apply (H c1 y). now right.
Qed.

Lemma any_failed_spec ins : any_failed ins = true <-> input_failed ins.
Proof.
  unfold any_failed, input_failed. rewrite existsb_exists. split.
  - intros ([p i] & J & F). eauto.
  - intros (p & i & J & F). exists (p, i). auto.
Qed.

Lemma check_files m outs base : CheckOutputsExist false m outs base = true <->
  forall p a, In (p, a) outs -> exists i, alookup (rebase base p) m = Some i /\ i_type i <> Tree.
Proof.
  unfold CheckOutputsExist. rewrite forallb_forall. split.
  - intros H p a J. specialize (H _ J). cbn in H. destruct (alookup (rebase base p) m) as [i|]; [|discriminate].
    exists i. split; [reflexivity|]. destruct (i_type i); discriminate.
  - intros H [p a] J. destruct (H _ _ J) as (i & L & T). cbn. rewrite L. destruct (i_type i); try reflexivity. congruence.
Qed.
Lemma check_dirs m outs base : CheckOutputsExist true m outs base = true <->
  forall p a, In (p, a) outs -> exists i, alookup (rebase base p) m = Some i /\ (i_type i = Tree \/ i_type i = Symlink).
Proof.
  unfold CheckOutputsExist. rewrite forallb_forall. split.
  - intros H p a J. specialize (H _ J). cbn in H. destruct (alookup (rebase base p) m) as [i|]; [|discriminate].
    exists i. split; [reflexivity|]. destruct (i_type i); auto; discriminate.
  - intros H [p a] J. destruct (H _ _ J) as (i & L & T). cbn. rewrite L. destruct T as [-> | ->]; reflexivity.
Qed.

(** Processing a command succeeds exactly if there is an acceptable answer from the right endpoint; then
    exactly the declared outputs are written, as answered, and failures are passed on. *)
Theorem C57_command : forall X A n ins ok ws, n_kind n = Command -> sorted_keys (n_props n) -> sorted_keys (x_props X) ->
  Process X A n ins = (ok, ws) ->
  (ok = true <-> exists e root y m, acceptable X A n ins e root y m) /\
  (ok = true -> exists e root y m, acceptable X A n ins e root y m /\ forall a i, In (a, i) ws <-> output_info n ins y m a i) /\
  (ok = false -> ws = []).
Proof.
  intros X A n ins ok ws K S SX P.
  set (props := MergeProperties (x_props X) (n_props n)).
  assert (merged X n props) as MG by (split; [apply merge_sorted, SX|intros k; apply merge_lookup, S]).
  assert (ok = true -> exists e root y m, acceptable X A n ins e root y m /\ forall a i, In (a, i) ws <-> output_info n ins y m a i) as FW.
  { intros ->. unfold Process in P. fold props in P.
    destruct (ExecuteAction X A n props _ ins) as [d f| |y] eqn:E; [|discriminate|].
    - exfalso. pose proof (execute_kind X A n props (if n_no_cache n then DoNotCacheOutput else CacheOutput) ins K) as F.
      rewrite E in F. exact F.
    - apply execute_response in E. destruct E as (_ & root & R & SY & EX & UP). apply root_spec in R.
      apply parse_ok in P. destruct P as (XC & m & AM & NE & CF & CD & ->).
      exists (GetAlternativeEndpoint (x_dispatch X) props), root, y, m. split.
      + constructor; auto.
        * eexists. split; [exact EX|]. cbn. do 6 (split; [reflexivity|]). split; [exact MG|]. split; [now apply endpoint_spec|]. split; reflexivity.
        * now apply check_files with (m := m) (base := n_cwd n).
        * now apply check_dirs with (m := m) (base := n_cwd n).
      + assert (forall j, i_failed (set_info j (any_failed ins || negb (y_exit y =? 0)%Z)) = true <->
                          i_failed j = true \/ input_failed ins \/ y_exit y <> 0%Z) as SI.
        { intros j. rewrite <- any_failed_spec. unfold set_info. destruct (any_failed ins) eqn:AF; cbn [orb].
          - cbn. tauto.
          - destruct (Z.eqb_spec (y_exit y) 0) as [Z0|Z0]; cbn [negb i_failed]; intuition congruence. }
        assert (forall b j, i_digest (set_info j b) = i_digest j /\ i_type (set_info j b) = i_type j) as DT
          by (intros [|] j; split; reflexivity).
        intros a i. split.
        * intros J. apply save_in in J. destruct J as (p & j & J & L & ->). exists p, j.
          destruct (DT (any_failed ins || negb (y_exit y =? 0)%Z) j) as [D T]. repeat split; auto; apply SI.
        * intros (p & j & J & L & D & T & F).
          assert (i = set_info j (any_failed ins || negb (y_exit y =? 0)%Z)) as ->.
          { destruct (DT (any_failed ins || negb (y_exit y =? 0)%Z) j) as [D' T']. rewrite <- SI in F.
            destruct i as [i1 i2 i3], (set_info j _) as [k1 k2 k3]. cbn in *. subst. f_equal.
            destruct i3, k3; intuition congruence. }
          rewrite save_app. apply in_app_iff in J. apply in_app_iff. destruct J as [J|J]; [left|right].
          -- destruct (check_save false m (n_cwd n) (any_failed ins || negb (y_exit y =? 0)%Z) _ CF) as [_ C].
             destruct (C _ _ J) as (j' & L' & H). assert (j' = j) as -> by congruence. exact H.
          -- destruct (check_save true m (n_cwd n) (any_failed ins || negb (y_exit y =? 0)%Z) _ CD) as [_ C].
             destruct (C _ _ J) as (j' & L' & H). assert (j' = j) as -> by congruence. exact H. }
  split; [split|split; [exact FW|]].
  - intros T. destruct (FW T) as (e & root & y & m & AC & _). eauto.
  - intros (e & root & y & m & [R SY (o & EX & O1 & O2 & O3 & O4 & O5 & O6 & O7 & O8 & O9 & O10) XC UP [AM NE] CF CD]).
    assert (o_props o = props) as OP by (apply sorted_ext; [apply O7|apply MG|intros k; rewrite (proj2 O7), (proj2 MG); reflexivity]).
    assert (o = order_of n props (if n_no_cache n then DoNotCacheOutput else CacheOutput) root) as ->.
    { destruct o; cbn in *; subst; reflexivity. }
    cbn [order_of o_props] in O8. apply endpoint_spec in O8. subst e.
    apply root_spec in R. unfold Process, ExecuteAction in P. fold props in P. rewrite K, R in P.
    assert (ParseResponse n ins y = (true, save m (n_cwd n) (any_failed ins || negb (y_exit y =? 0)%Z) (n_files n ++ n_dirs n))) as PR.
    { unfold ParseResponse.
      assert (negb (y_exit y =? 0)%Z && negb (n_may_fail n) = false) as ->.
      { destruct XC as [-> | ->]; [reflexivity|apply andb_false_r]. }
      rewrite AM. destruct m as [|x m]; [congruence|].
      rewrite (proj2 (check_files (x :: m) (n_files n) (n_cwd n)) CF), (proj2 (check_dirs (x :: m) (n_dirs n) (n_cwd n)) CD). reflexivity. }
    destruct (GetAlternativeEndpoint (x_dispatch X) props) as [e|].
    + rewrite (SY e eq_refl), EX in P. destruct (x_type X).
      * rewrite AM, PR in P. congruence.
      * rewrite (UP eq_refl), AM, PR in P. congruence.
    + rewrite EX in P. destruct (x_type X).
      * rewrite PR in P. congruence.
      * rewrite (UP eq_refl), PR in P. congruence.
  - intros ->. exact (process_fail X A n ins ws P).
Qed.

(** Actions that make trees: the digest of the tree of the inputs, or of their overlay; failures are passed
    on. *)
Theorem C57_tree : forall X A n ins p a, n_kind n = TreeAction -> n_dirs n = [(p, a)] ->
  (forall d, input_root A ins d -> exists f, (f = true <-> input_failed ins) /\
     Process X A n ins = (true, [(a, mkInfo d Tree f)])) /\
  ((forall d, ~ input_root A ins d) -> Process X A n ins = (false, [])).
Proof.
  intros X A n ins p a K D. unfold Process, ExecuteAction. rewrite K, D. split.
  - intros d R. apply root_spec in R. rewrite R. exists (any_failed ins). split; [apply any_failed_spec|reflexivity].
  - intros N. destruct (CreateRootDigest A ins) as [d|] eqn:R; [|reflexivity]. apply root_spec in R. destruct (N d R).
Qed.

Lemma insert_input_comm x y l : fst x <> fst y -> insert_input x (insert_input y l) = insert_input y (insert_input x l).
Proof.
  intros N. assert (forall u v : string, str_ltb u v = false -> u <> v -> str_ltb v u = true) as T.
  { intros u v H D. apply str_ltb_lt. destruct (str_trichotomy u v) as [[L|E]|G]; [|contradiction|exact G].
    apply str_ltb_lt in L. congruence. }
  assert (forall u v : string, str_ltb u v = true -> str_ltb v u = false) as AS.
  { intros u v H. destruct (str_ltb v u) eqn:V; [|reflexivity]. apply str_ltb_lt in H, V. exfalso. exact (str_lt_asym _ _ H V). }
  assert (forall u v w : string, str_ltb u v = true -> str_ltb u w = false -> str_ltb w v = true) as TR.
  { intros u v w H1 H2. destruct (string_dec w u) as [->|D]; [exact H1|].
    assert (str_ltb w u = true) as H3 by (apply T; congruence). apply str_ltb_lt in H1, H3. apply str_ltb_lt.
    exact (str_lt_trans _ _ _ H3 H1). }
  induction l as [|z r IH]; cbn [insert_input].
  - destruct (str_ltb (fst y) (fst x)) eqn:L.
    + now rewrite (AS _ _ L).
    + now rewrite (T _ _ L (fun E => N (eq_sym E))).
  - destruct (str_ltb (fst z) (fst y)) eqn:ZY; destruct (str_ltb (fst z) (fst x)) eqn:ZX; cbn [insert_input]; rewrite ?ZX, ?ZY.
    + now rewrite IH.
    + now rewrite (TR _ _ _ ZY ZX).
    + now rewrite (TR _ _ _ ZX ZY).
    + destruct (str_ltb (fst y) (fst x)) eqn:L.
      * now rewrite (AS _ _ L).
      * now rewrite (T _ _ L (fun E => N (eq_sym E))).
Qed.

Lemma sort_inputs_perm l l' : Permutation l l' -> NoDup (map fst l) -> sort_inputs l = sort_inputs l'.
Proof.
  induction 1 as [|x l l' P IH|x y l|l l' l'' P1 IH1 P2 IH2]; intros N; cbn; [reflexivity| | |].
  - cbn in N. inversion N. f_equal. auto.
  - cbn in N. inversion N as [|? ? N1 N2]; subst. apply insert_input_comm. intros E. apply N1. left. congruence.
  - rewrite IH1 by assumption. apply IH2. eapply Permutation_NoDup; [|exact N]. now apply Permutation_map.
Qed.

Lemma existsb_perm {T} (f : T -> bool) l l' : Permutation l l' -> existsb f l = existsb f l'.
Proof.
  induction 1 as [|x l l' P IH|x y l|l l' l'' P1 IH1 P2 IH2]; cbn; [reflexivity|now rewrite IH| |congruence].
  destruct (f x), (f y); reflexivity.
Qed.

(** Overlays: from the empty tree, in the order of the paths, however the inputs are listed. *)
Theorem C57_overlay : forall X A n disjoint ins ins' p a, n_kind n = Overlay disjoint -> n_dirs n = [(p, a)] ->
  Permutation ins ins' -> sorted_keys ins' ->
  Process X A n ins =
  match empty_tree A with
  | None => (false, [])
  | Some e =>
      match fold_left (fun t i => match t with Some d => tree_overlay A disjoint d (snd i) | None => None end) ins' (Some e) with
      | Some d => (true, [(a, mkInfo d Tree (any_failed ins))])
      | None => (false, [])
      end
  end.
Proof.
  intros X A n disjoint ins ins' p a K D P S. unfold Process, ExecuteAction. rewrite K. unfold ExecuteTreeOverlayAction.
  destruct (empty_tree A) as [e|]; [|reflexivity].
  assert (NoDup (map fst ins')) as N'.
  { clear -S. induction S as [|x l S IH F]; cbn; constructor; [|exact IH]. intros J. apply in_map_iff in J.
    destruct J as (y & E & J). apply (proj1 (Forall_forall _ _) F) in J. unfold key_lt in J. rewrite E in J. exact (str_lt_irrefl _ J). }
  assert (sort_inputs ins = ins') as ->.
  { rewrite <- (sort_inputs_perm ins' ins (Permutation_sym P) N'). clear -S. induction S as [|x l S IH F]; [reflexivity|].
    cbn. unfold sort_inputs in IH. rewrite IH. destruct l as [|y l]; [reflexivity|]. cbn.
    inversion F as [|? ? L _]; subst. unfold key_lt in L.
    destruct (str_ltb (fst y) (fst x)) eqn:B; [|reflexivity]. apply str_ltb_lt in B. exfalso. exact (str_lt_asym _ _ L B). }
  assert (forall l e, fold_left (fun t i => match t with Some d => tree_overlay A disjoint d (snd i) | None => None end) l (Some e) =
                      overlays A disjoint e l) as E.
  { assert (forall l, fold_left (fun t (i : string * object_info) => match t with Some d => tree_overlay A disjoint d (snd i) | None => None end) l None = None) as E0
      by (induction l; cbn; auto).
    induction l as [|[q i] l IH]; intros d; cbn; [reflexivity|]. destruct (tree_overlay A disjoint d i); [apply IH|apply E0]. }
  rewrite E. destruct (overlays A disjoint e ins'); [|reflexivity]. rewrite D. reflexivity.
Qed.

(** ** The paths of outputs *)

(** The place asked of the endpoint for an output, relative to the working directory of the action, is the
    place of the declared output, provided no component of the working directory is "..". *)
Theorem C57_output_paths_partial : forall cwd out, is_absolute cwd = false -> is_absolute out = false ->
  Forall (fun c => c <> "..") (split_slash cwd) ->
  is_absolute (rebase cwd out) = false /\ place_of (append cwd (rebase cwd out)) = place_of out.
Proof. exact rebase_place. Qed.

(** Without that condition it is not: working directories are only checked to be non-upwards. *)
Theorem C57_output_paths_refuted : exists cwd out, PathIsNonUpwards cwd = true /\ PathIsNonUpwards out = true /\
  place_of (append cwd (rebase cwd out)) <> place_of out.
Proof.
  exists "a/../b", "a/x". split; [reflexivity|]. split; [reflexivity|]. vm_compute. discriminate.
Qed.

(** * C58: results of builds *)

Section Reachable.
Context (X : context) (A : api) (g : graph) (acts : nat -> act) (source : nat -> option object_info).
Context (W : wf g) (LK : linked g acts) (TS : forall c, tree_shape (acts c)).

Lemma reach_ok targets l s : run g (init g targets) l = Some s ->
  ordered g (log s) /\ (forall a ok, In (EEnd (Art a) ok) (log s) -> builder g a = None).
Proof.
  intros R. split.
  - intros l1 c l2 E d J. exact (C35_inputs_first g targets l s l2 c l1 W R E d J).
  - intros a ok J. destruct (C35_only_needed g targets l s (Art a) W R) as [_ B]; [|exact (B a eq_refl)].
    pose proof (C35_ends_once g targets l s (Art a) W R) as C.
    apply (count_occ_In event_dec). apply (count_occ_In event_dec) in J. destruct ok; lia.
Qed.
End Reachable.

(** No action is processed before all its inputs have their infos. *)
Theorem C58_inputs_known : forall X A g acts source targets l s, wf g -> linked g acts -> (forall c, tree_shape (acts c)) ->
  run g (init g targets) l = Some s -> replay X A acts source (log s) <> Undefined.
Proof.
  intros X A g acts source targets l s W LK TS R. destruct (reach_ok g W targets l s R) as [O L].
  apply (replay_inv X A g acts source W LK TS (log s) O L).
Qed.

(** Whatever the schedule: an artifact that is provided has its value. *)
Theorem C58_values : forall X A g acts source targets l s m a, wf g -> linked g acts -> (forall c, tree_shape (acts c)) ->
  run g (init g targets) l = Some s -> infos_after X A acts source (log s) m -> provided g (log s) a ->
  exists i, m a = Some i /\ value X A g acts source a i.
Proof.
  intros X A g acts source targets l s m a W LK TS R [pend E] P. destruct (reach_ok g W targets l s R) as [O L].
  destruct (replay_inv X A g acts source W LK TS (log s) O L) as [_ V]. destruct (V _ E) as [V1 _]. exact (V1 a P).
Qed.

(** An artifact has at most one value. *)
Theorem C58_value_unique : forall X A g acts source a i j, wf g -> linked g acts -> (forall c, tree_shape (acts c)) ->
  value X A g acts source a i -> value X A g acts source a j -> i = j.
Proof. intros X A g acts source a i j W LK TS V V'. exact (value_unique X A g acts source W LK TS a i V j V'). Qed.

(** So two builds agree on everything both provide, even if they are for different targets, and whether or
    not they complete. *)
Theorem C58_schedule_independent : forall X A g acts source targets l s m targets' l' s' m' a,
  wf g -> linked g acts -> (forall c, tree_shape (acts c)) ->
  run g (init g targets) l = Some s -> infos_after X A acts source (log s) m -> provided g (log s) a ->
  run g (init g targets') l' = Some s' -> infos_after X A acts source (log s') m' -> provided g (log s') a ->
  m a = m' a.
Proof.
  intros X A g acts source targets l s m targets' l' s' m' a W LK TS R I1 P R' I2 P'.
  destruct (C58_values X A g acts source targets l s m a W LK TS R I1 P) as (i & -> & V).
  destruct (C58_values X A g acts source targets' l' s' m' a W LK TS R' I2 P') as (j & -> & V').
  f_equal. exact (value_unique X A g acts source W LK TS a i V j V').
Qed.

(** Success does not depend on the schedule either: if one complete build for the targets succeeds, so does
    every other one, with the same results. *)
Theorem C58_same_outcome : forall X A g acts source targets l s m l' s' m',
  wf g -> linked g acts -> (forall c, tree_shape (acts c)) -> acyclic g ->
  run g (init g targets) l = Some s -> infos_after X A acts source (log s) m -> finished s -> success s ->
  run g (init g targets) l' = Some s' -> infos_after X A acts source (log s') m' -> finished s' ->
  success s' /\ forall a, In a targets -> m' a = m a /\ m a <> None.
Proof.
  intros X A g acts source targets l s m l' s' m' W LK TS AC R I1 FI SU R' I2 FI'.
  destruct (C36_all_built g targets l s W AC R FI SU) as (_ & ART & ACT).
  destruct (C36_result g targets l s W R FI) as [RES _]. destruct (RES SU) as [_ KN].
  assert (success s') as SU'.
  { apply (C36_result g targets l' s' W R' FI'). split; [|exact KN]. intros n J.
    destruct (reach_ok g W targets l s R) as [O L]. destruct (reach_ok g W targets l' s' R') as [O' L'].
    destruct I1 as [pd E1], I2 as [pd' E2].
    assert (needed g targets n) as ND.
    { apply (C35_only_needed g targets l' s' n W R'). apply (count_occ_In event_dec) in J.
      pose proof (C35_ends_once g targets l' s' n W R'). apply (count_occ_In event_dec). lia. }
    destruct n as [a|c].
    - destruct (ART a ND) as [_ P]. unfold provided in P. rewrite (L' a false J) in P.
      pose proof (proj1 (replay_end_source X A acts source _ a true _ E1 P) eq_refl) as S1.
      pose proof (proj2 (replay_end_source X A acts source _ a false _ E2 J) S1). discriminate.
    - destruct (replay_end X A g acts source W LK TS _ c true _ O L E1 (ACT c ND)) as (ins & ws & F & P).
      destruct (replay_end X A g acts source W LK TS _ c false _ O' L' E2 J) as (ins' & ws' & F' & P').
      pose proof (inputs_fun X A g acts source W LK TS c ins ins' F F') as <-. congruence. }
  split; [exact SU'|]. intros a T.
  destruct (C36_all_built g targets l' s' W AC R' FI' SU') as (_ & ART' & _).
  destruct (ART a (n_target g targets a T)) as [_ P]. destruct (ART' a (n_target g targets a T)) as [_ P'].
  destruct (C58_values X A g acts source targets l s m a W LK TS R I1 P) as (i & E & V).
  destruct (C58_values X A g acts source targets l' s' m' a W LK TS R' I2 P') as (j & E' & V').
  rewrite E, E', (value_unique X A g acts source W LK TS a i V j V'). split; [reflexivity|discriminate].
Qed.

(** Exactly the artifacts that depend on a command that failed are marked as failed. *)
Theorem C58_tainted : forall X A g acts source targets l s m a i,
  wf g -> linked g acts -> (forall c, tree_shape (acts c)) ->
  (forall a i, source a = Some i -> i_failed i = false) ->
  (forall e o y m p i, execute A e o = Some y -> y_artifacts y = Some m -> alookup p m = Some i -> i_failed i = false) ->
  run g (init g targets) l = Some s -> infos_after X A acts source (log s) m -> provided g (log s) a -> m a = Some i ->
  (i_failed i = true <-> tainted X A g acts source a).
Proof.
  intros X A g acts source targets l s m a i W LK TS SF EF R I1 P M.
  destruct (C58_values X A g acts source targets l s m a W LK TS R I1 P) as (j & E & V).
  assert (j = i) as -> by congruence. split.
  - exact (value_tainted X A g acts source W LK TS SF EF a i V).
  - intros T. exact (tainted_value X A g acts source W LK TS EF a T i V).
Qed.

(** ** A concrete build *)

(** Artifact 0 is a source file; action 0 makes file 1 from it, its command exits with 1 but may fail; action 1
    makes tree 2 of file 1. *)
Definition ex_graph : graph :=
  mkG (fun a => Nat.ltb a 3) (fun a => match a with 1 => Some 0 | 2 => Some 1 | _ => None end)
      (fun a => match a with 0 => [0] | 1 => [1] | _ => [] end)
      (fun c => match c with 0 => [0] | 1 => [1] | _ => [] end)
      (fun c => match c with 0 => [1] | 1 => [2] | _ => [] end).
Definition ex_acts (c : nat) : act :=
  match c with
  | 0 => mkAct Command [("in", 0)] [("w/out", 1)] [] ["sh"] "w" [] [] 1%Z true false
  | 1 => mkAct TreeAction [("t", 1)] [] [("", 2)] [] "" [] [] 1%Z false false
  | _ => mkAct Command [] [] [] [] "" [] [] 1%Z false false
  end.
Definition ex_digest (s : string) (t : bool) : digest := mkDigest s t 1%N.
Definition ex_api : api :=
  mkApi (fun ins => match ins with [(p, i)] => Some (ex_digest ("tree " ++ p ++ d_hash (i_digest i))%string true) | _ => None end)
    (Some (ex_digest "empty" true)) (fun _ _ _ => None) (fun _ _ => true)
    (fun _ o => Some (mkReply 1%Z (Some (map (fun p => (p, mkInfo (ex_digest p false) File false)) (o_files o))) (Some false))).
Definition ex_context : context := mkContext GitSHA1 [] [].
Definition ex_source (a : nat) : option object_info :=
  match a with 0 => Some (mkInfo (ex_digest "src" false) File false) | _ => None end.

Lemma ex_wf : wf ex_graph /\ linked ex_graph ex_acts /\ (forall c, tree_shape (ex_acts c)) /\ acyclic ex_graph.
Proof.
  split; [constructor|split; [|split]].
  - intros [|[|[|a]]] [|[|c]]; reflexivity.
  - intros [|[|[|a]]] [|[|c]]; cbn; intuition congruence.
  - intros [|[|c]]; cbn; repeat constructor; cbn; tauto.
  - intros [|[|c]]; split; reflexivity.
  - intros [|[|c]]; cbn; auto. split; [reflexivity|eauto].
  - exists (fun c => c). intros [|[|c]] d c'; cbn; [intros [<-|[]] E|intros [<-|[]] E|intros []]; cbn in E; try discriminate.
    injection E as <-. lia.
Qed.

Example C58_nonvacuous :
  wf ex_graph /\ linked ex_graph ex_acts /\ (forall c, tree_shape (ex_acts c)) /\ acyclic ex_graph /\
  (forall a i, ex_source a = Some i -> i_failed i = false) /\
  exists l s m, run ex_graph (init ex_graph [2]) l = Some s /\ finished s /\ success s /\
    infos_after ex_context ex_api ex_acts ex_source (log s) m /\ provided ex_graph (log s) 2 /\
    m 0 = Some (mkInfo (ex_digest "src" false) File false) /\
    m 2 = Some (mkInfo (ex_digest "tree tout" true) Tree true).
Proof.
  destruct ex_wf as (W & L & T & AC). repeat (split; [assumption|]). split.
  { intros [|a] i E; [|discriminate]. injection E as <-. reflexivity. }
  exists (play ex_graph 100 (init ex_graph [2])). eexists. eexists. split; [vm_compute; reflexivity|].
  split; [intros t J; cbn in J; repeat (destruct J as [<-|J]; [reflexivity|]); destruct J|].
  split; [reflexivity|]. split; [eexists; vm_compute; reflexivity|]. split; [cbn; tauto|]. split; reflexivity.
Qed.

Example C57_nonvacuous : exists ws,
  n_kind (ex_acts 0) = Command /\ sorted_keys (n_props (ex_acts 0)) /\ sorted_keys (x_props ex_context) /\
  Process ex_context ex_api (ex_acts 0) [("in", mkInfo (ex_digest "src" false) File false)] = (true, ws) /\
  ws = [(1, mkInfo (ex_digest "out" false) File true)].
Proof. eexists. split; [reflexivity|]. split; [constructor|]. split; [constructor|]. split; vm_compute; reflexivity. Qed.

Example C57_paths_nonvacuous :
  Forall (fun c => c <> "..") (split_slash "a/./b/") /\ rebase "a/./b/" "a/c/x" = "../c/x" /\
  place_of (append "a/./b/" "../c/x") = mkPlace 0 ["x"; "c"; "a"].
Proof. split; [cbn; repeat (constructor; [discriminate|]); constructor|split; vm_compute; reflexivity]. Qed.

Print Assumptions C57_command.
Print Assumptions C57_tree.
Print Assumptions C57_overlay.
Print Assumptions C57_output_paths_partial.
Print Assumptions C57_output_paths_refuted.
Print Assumptions C58_inputs_known.
Print Assumptions C58_values.
Print Assumptions C58_value_unique.
Print Assumptions C58_schedule_independent.
Print Assumptions C58_same_outcome.
Print Assumptions C58_tainted.
