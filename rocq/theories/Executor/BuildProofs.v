(** Proofs about processing actions and about builds. *)
From Coq Require Import String List Bool Arith ZArith Lia.
From Verif Require Import Common.Strs Describe.Model Executor.Local Dag.Traverse Dag.TraverseInv Dag.TraverseProps
  Executor.Process Executor.Build Executor.BuildSpec.
Import ListNotations.

(** ** Processing one action *)

Lemma check_save tr m base fail outs : CheckOutputsExist tr m outs base = true ->
  map fst (save m base fail outs) = map snd outs /\
  forall p a, In (p, a) outs -> exists i, alookup (rebase base p) m = Some i /\ In (a, set_info i fail) (save m base fail outs).
Proof.
  unfold CheckOutputsExist. induction outs as [|[p a] r IH]; cbn; intros H; [split; [reflexivity|intros p a []]|].
  apply andb_true_iff in H. destruct H as [H1 H2]. destruct (IH H2) as [E F].
  destruct (alookup (rebase base p) m) as [i|] eqn:L; [|discriminate]. cbn. split; [now f_equal|].
  intros q b [Q|Q].
  - injection Q as <- <-. exists i. split; [exact L|now left].
  - destruct (F q b Q) as (j & J1 & J2). exists j. split; [exact J1|now right].
Qed.

Lemma save_app m base fail l l' : save m base fail (l ++ l') = save m base fail l ++ save m base fail l'.
Proof.
  induction l as [|[p a] r IH]; cbn; [reflexivity|]. destruct (alookup (rebase base p) m); cbn; now rewrite IH.
Qed.

Lemma save_in m base fail outs a i : In (a, i) (save m base fail outs) ->
  exists p j, In (p, a) outs /\ alookup (rebase base p) m = Some j /\ i = set_info j fail.
Proof.
  induction outs as [|[p b] r IH]; cbn; [intros []|].
  destruct (alookup (rebase base p) m) as [j|] eqn:L; cbn.
  - intros [E|H]; [injection E as <- <-; exists p, j; auto|].
    destruct (IH H) as (q & k & H1 & H2 & H3). exists q, k. auto.
  - intros H. destruct (IH H) as (q & k & H1 & H2 & H3). exists q, k. auto.
Qed.

(** When a response is accepted. *)
Lemma parse_ok n ins y ws : ParseResponse n ins y = (true, ws) ->
  (y_exit y = 0%Z \/ n_may_fail n = true) /\ exists m, y_artifacts y = Some m /\ m <> [] /\
  CheckOutputsExist false m (n_files n) (n_cwd n) = true /\ CheckOutputsExist true m (n_dirs n) (n_cwd n) = true /\
  ws = save m (n_cwd n) (any_failed ins || negb (Z.eqb (y_exit y) 0)) (n_files n ++ n_dirs n).
Proof.
  unfold ParseResponse. intros H.
  assert (y_exit y = 0%Z \/ n_may_fail n = true) as X.
  { destruct (Z.eqb_spec (y_exit y) 0); [now left|]. destruct (n_may_fail n); [now right|discriminate]. }
  split; [exact X|].
  assert (negb (Z.eqb (y_exit y) 0) && negb (n_may_fail n) = false) as C.
  { destruct X as [-> | ->]; [reflexivity|]. now rewrite andb_false_r. }
  rewrite C in H. destruct (y_artifacts y) as [[|e m]|]; [discriminate| |discriminate].
  destruct (CheckOutputsExist false _ _ _ && _) eqn:K; [|discriminate]. apply andb_true_iff in K. destruct K.
  injection H as <-. exists (e :: m). repeat split; auto. discriminate.
Qed.

Lemma parse_fail n ins y ws : ParseResponse n ins y = (false, ws) -> ws = [].
Proof.
  unfold ParseResponse. destruct (_ && _); [congruence|]. destruct (y_artifacts y) as [[|e m]|]; try congruence.
  destruct (_ && _); congruence.
Qed.

Lemma process_fail X A n ins ws : Process X A n ins = (false, ws) -> ws = [].
Proof.
  unfold Process. destruct (ExecuteAction _ _ _ _ _ _); [discriminate|congruence|]. apply parse_fail.
Qed.

Lemma root_spec A ins root : CreateRootDigest A ins = Some root <-> input_root A ins root.
Proof.
  assert (N : (forall d, ~ only_a_tree ins d) -> forall r, input_root A ins r <-> upload_tree A ins = Some r).
  { intros N r. unfold input_root. split; [intros [O|[_ O]]; [destruct (N _ O)|exact O]|auto]. }
  unfold CreateRootDigest. destruct ins as [|[p i] [|x l]].
  - rewrite N; [reflexivity|]. intros d (q & j & E & _). discriminate.
  - destruct ((String.eqb p "." || String.eqb p "") && match i_type i with Tree => true | _ => false end)%bool eqn:E.
    + apply andb_prop in E as [E1 E2]. apply orb_prop in E1.
      assert (only_a_tree [(p, i)] (i_digest i)) as O.
      { exists p, i. split; [reflexivity|]. split; [|split; [now destruct (i_type i)|reflexivity]].
        destruct E1 as [E1|E1]; apply String.eqb_eq in E1; auto. }
      split; [intros [= <-]; now left|]. intros [(q & j & Eq & _ & _ & ->)|[M _]]; [|destruct (M _ O)]. now injection Eq as -> ->.
    + rewrite N; [reflexivity|]. intros d (q & j & Eq & Q & T & _). injection Eq as -> ->. rewrite T, andb_true_r in E.
      destruct Q as [-> | ->]; discriminate.
  - rewrite N; [reflexivity|]. intros d (q & j & E & _). discriminate.
Qed.

Lemma execute_kind X A n props flag ins : n_kind n = Command ->
  match ExecuteAction X A n props flag ins with NoResponse _ _ => False | _ => True end.
Proof.
  intros K. unfold ExecuteAction. rewrite K. destruct (CreateRootDigest A ins) as [root|]; [|exact I].
  destruct (match GetAlternativeEndpoint _ _ with Some _ => _ | None => _ end); [|exact I].
  destruct (execute A _ _) as [y|]; [|exact I].
  destruct (match x_type X with GitSHA1 => _ | _ => _ end); [|exact I].
  destruct (GetAlternativeEndpoint _ _); [|exact I]. destruct (y_artifacts y); exact I.
Qed.

Lemma execute_tree X A n props flag ins : n_kind n <> Command ->
  match ExecuteAction X A n props flag ins with Response _ => False | NoResponse _ f => f = any_failed ins | _ => True end.
Proof.
  intros K. unfold ExecuteAction. destruct (n_kind n); [| |congruence].
  - unfold ExecuteTreeOverlayAction. destruct (empty_tree A); [|exact I]. destruct (overlays _ _ _ _); [reflexivity|exact I].
  - destruct (CreateRootDigest A ins); [reflexivity|exact I].
Qed.

Lemma execute_response X A n props flag ins y : ExecuteAction X A n props flag ins = Response y ->
  n_kind n = Command /\ exists root, CreateRootDigest A ins = Some root /\
    (forall e, GetAlternativeEndpoint (x_dispatch X) props = Some e -> sync A e root = true) /\
    execute A (GetAlternativeEndpoint (x_dispatch X) props) (order_of n props flag root) = Some y /\
    (x_type X = PlainSHA256 -> y_upwards y = Some false).
Proof.
  intros H. assert (n_kind n = Command) as K.
  { destruct (n_kind n) eqn:K; [| |reflexivity]; exfalso;
      assert (n_kind n <> Command) as N by congruence; pose proof (execute_tree X A n props flag ins N) as F;
      rewrite H in F; exact F. }
  split; [exact K|]. unfold ExecuteAction in H. rewrite K in H.
  destruct (CreateRootDigest A ins) as [root|]; [|discriminate]. exists root. split; [reflexivity|].
  destruct (GetAlternativeEndpoint (x_dispatch X) props) as [e|].
  - destruct (sync A e root) eqn:S; [|discriminate]. destruct (execute A _ _) as [y'|]; [|discriminate].
    destruct (x_type X) eqn:T.
    + destruct (y_artifacts y'); [|discriminate]. injection H as <-. repeat split; congruence.
    + destruct (y_upwards y') as [[|]|] eqn:U; try discriminate. destruct (y_artifacts y'); [|discriminate].
      injection H as <-. repeat split; congruence.
  - destruct (execute A _ _) as [y'|]; [|discriminate].
    destruct (x_type X) eqn:T.
    + injection H as <-. repeat split; congruence.
    + destruct (y_upwards y') as [[|]|] eqn:U; try discriminate. injection H as <-. repeat split; congruence.
Qed.

Lemma process_outs X A n ins ws : tree_shape n -> Process X A n ins = (true, ws) ->
  map fst ws = map snd (n_files n ++ n_dirs n).
Proof.
  intros S H. unfold Process in H. destruct (ExecuteAction _ _ _ _ _ _) as [d f| |y] eqn:E; [|discriminate|].
  - injection H as <-. unfold tree_shape in S.
    pose proof (execute_kind X A n (MergeProperties (x_props X) (n_props n))
      (if n_no_cache n then DoNotCacheOutput else CacheOutput) ins) as K.
    rewrite E in K. destruct (n_kind n); [| |destruct (K eq_refl)]; destruct S as [-> [[p a] ->]]; reflexivity.
  - apply parse_ok in H. destruct H as (_ & m & _ & _ & F & D & ->). rewrite save_app, !map_app.
    f_equal; eapply check_save; eassumption.
Qed.

(** ** Values *)

Section Values.
Variable X : context.
Variable A : api.
Variable g : graph.
Variable acts : nat -> act.
Variable source : nat -> option object_info.
Notation value := (value X A g acts source).
Notation inputs_value c ins :=
  (Forall2 (fun (x : string * nat) (y : string * object_info) => fst x = fst y /\ value (snd x) (snd y))
     (n_inputs (acts c)) ins).

Lemma value_ind' (P : nat -> object_info -> Prop) :
  (forall a i, builder g a = None -> source a = Some i -> P a i) ->
  (forall a i c ins ws, builder g a = Some c -> inputs_value c ins ->
     Forall2 (fun (x : string * nat) (y : string * object_info) => P (snd x) (snd y)) (n_inputs (acts c)) ins ->
     Process X A (acts c) ins = (true, ws) -> In (a, i) ws -> P a i) ->
  forall a i, value a i -> P a i.
Proof.
  intros HS HB. fix go 3. intros a i V. destruct V as [a i B S|a i c ins ws B F Q J].
  - exact (HS a i B S).
  - refine (HB a i c ins ws B F _ Q J).
    clear Q J. revert F. generalize (n_inputs (acts c)) ins. clear -go. fix walk 3.
    intros l ins F. destruct F as [|x y l ins E F]; constructor; [|exact (walk _ _ F)].
    destruct E as [_ E]. exact (go _ _ E).
Qed.

Context (W : wf g) (LK : linked g acts) (TS : forall c, tree_shape (acts c)).

Lemma inputs_unique c ins : 
  Forall2 (fun (x : string * nat) (y : string * object_info) => forall j, value (snd x) j -> snd y = j) (n_inputs (acts c)) ins ->
  inputs_value c ins -> forall ins', inputs_value c ins' -> ins = ins'.
Proof.
  generalize (n_inputs (acts c)) as l. intros l U V. revert U. induction V as [|[p a] [q i] l ins [E V] F IH]; intros U ins' F'.
  - inversion F'. reflexivity.
  - inversion F' as [|x [q' i'] l' ins'' [E' V'] F'']; subst. inversion U as [|? ? ? ? U1 U2]; subst. cbn in *.
    rewrite (U1 i' V'). subst q q'. f_equal. apply IH; assumption.
Qed.

Lemma writes_unique c ins ws a i j : Process X A (acts c) ins = (true, ws) -> In (a, i) ws -> In (a, j) ws -> i = j.
Proof.
  intros P H K. apply process_outs in P; [|apply TS].
  assert (NoDup (map fst ws)) as N by (rewrite P; destruct (LK c) as [_ <-]; apply (wf_nodup _ W)).
  clear P. induction ws as [|[b k] ws IH]; [destruct H|]. cbn in N. inversion N as [|? ? N1 N2]; subst.
  destruct H as [H|H], K as [K|K].
  - congruence.
  - injection H as -> ->. exfalso. apply N1. apply in_map_iff. exists (a, j). auto.
  - injection K as -> ->. exfalso. apply N1. apply in_map_iff. exists (a, i). auto.
  - exact (IH H K N2).
Qed.

Lemma value_unique : forall a i, value a i -> forall j, value a j -> i = j.
Proof.
  apply (value_ind' (fun a i => forall j, value a j -> i = j)).
  - intros a i B S j V. inversion V; congruence.
  - intros a i c ins ws B F IH P H j V. inversion V as [|? ? c' ins' ws' B' F' P' H']; subst; [congruence|].
    assert (c' = c) as -> by congruence. pose proof (inputs_unique c ins IH F ins' F') as <-.
    assert (ws' = ws) as -> by congruence. exact (writes_unique c ins ws a i j P H H').
Qed.

Lemma inputs_fun c ins ins' : inputs_value c ins -> inputs_value c ins' -> ins = ins'.
Proof.
  intros V V'. apply (inputs_unique c ins); auto. clear V'. revert V. generalize (n_inputs (acts c)) as l.
  induction 1 as [|[p a] [q i] l ins [_ V] F IH]; constructor; [|assumption]. cbn in *. intros j J. exact (value_unique a i V j J).
Qed.

(** ** Replaying *)

Definition inv (l : list event) (b : build) : Prop :=
  (forall a, provided g l a -> exists i, b_infos b a = Some i /\ value a i) /\
  (forall c r, b_pending b c = Some r -> exists ins, inputs_value c ins /\ r = Process X A (acts c) ins).

Lemma write_infos_spec ws : forall m a, 
  (exists i, In (a, i) ws /\ write_infos m ws a = Some i) \/ (~ In a (map fst ws) /\ write_infos m ws a = m a).
Proof.
  induction ws as [|[b k] ws IH]; intros m a; cbn; [right; auto|].
  destruct (IH (write_info m (b, k)) a) as [(i & H & E)|[N E]].
  - left. exists i. auto.
  - unfold write_infos in E. rewrite E. unfold write_info. cbn. destruct (Nat.eqb_spec a b) as [->|D].
    + left. exists k. auto.
    + right. split; [intros [K|K]; [congruence|contradiction]|reflexivity].
Qed.

Lemma read_inputs_value b l : inv l b -> forall c, (forall d, In d (deps g c) -> provided g l d) ->
  exists ins, read_inputs (b_infos b) (n_inputs (acts c)) = Some ins /\ inputs_value c ins.
Proof.
  intros [V _] c D. destruct (LK c) as [E _]. rewrite E in D. clear E. revert D. generalize (n_inputs (acts c)) as ps.
  induction ps as [|[p a] ps IH]; intros D; cbn; [eexists; split; [reflexivity|constructor]|].
  destruct (V a (D a (or_introl eq_refl))) as (i & -> & Vi).
  destruct IH as (ins & -> & F); [intros d H; apply D; now right|].
  eexists. split; [reflexivity|]. constructor; [split; [reflexivity|exact Vi]|exact F].
Qed.

Lemma provided_cons e l a : provided g (e :: l) a ->
  e = EEnd (match builder g a with Some c => Act c | None => Art a end) true \/ provided g l a.
Proof. unfold provided. cbn. intuition. Qed.

Lemma inv_event e past b : inv past b ->
  (forall c, e = EStart (Act c) -> forall d, In d (deps g c) -> provided g past d) ->
  (forall a ok, e = EEnd (Art a) ok -> builder g a = None) ->
  replay_event X A acts source b e <> Undefined /\
  forall b', replay_event X A acts source b e = Fine b' -> inv (e :: past) b'.
Proof.
  intros V D L. destruct e as [[a|c]|[a|c] ok]; cbn [replay_event].
  - split; [discriminate|]. intros b' E. injection E as <-. destruct V as [V1 V2]. split; [|exact V2].
    intros x H. apply provided_cons in H. destruct H as [H|H]; [discriminate|exact (V1 _ H)].
  - destruct (read_inputs_value b past V c (D c eq_refl)) as (ins & R & F). rewrite R.
    split; [discriminate|]. intros b' E. injection E as <-. destruct V as [V1 V2]. split.
    + intros x H. apply provided_cons in H. destruct H as [H|H]; [discriminate|exact (V1 _ H)].
    + intros x r. cbn [b_pending]. destruct (Nat.eqb_spec x c) as [->|N]; [|apply V2].
      intros E. injection E as <-. eauto.
  - destruct V as [V1 V2]. destruct (source a) as [i|] eqn:S; destruct ok; try (split; discriminate).
    + split; [discriminate|]. intros b' E. injection E as <-. split; [|exact V2].
      intros x H. cbn [b_infos]. unfold write_info. cbn [fst snd]. destruct (Nat.eqb_spec x a) as [->|N].
      * exists i. split; [reflexivity|]. apply v_source; [exact (L a true eq_refl)|exact S].
      * apply provided_cons in H. destruct H as [H|H]; [|exact (V1 _ H)].
        destruct (builder g x); injection H as H; congruence.
    + split; [discriminate|]. intros b' E. injection E as <-. split; [|exact V2].
      intros x H. apply provided_cons in H. destruct H as [H|H]; [discriminate|exact (V1 _ H)].
  - destruct V as [V1 V2]. destruct (b_pending b c) as [[ok' ws]|] eqn:P; [|split; discriminate].
    destruct (Bool.eqb ok ok') eqn:K; [|split; discriminate]. apply eqb_prop in K. subst ok'.
    split; [discriminate|]. intros b' E. injection E as <-.
    split; [|intros x r H; cbn [b_pending] in H; exact (V2 _ _ H)].
    destruct (V2 _ _ P) as (ins & F & Q). intros x H. cbn [b_infos].
    destruct ok.
    + pose proof (process_outs X A (acts c) ins ws (TS c) (eq_sym Q)) as O.
      destruct (LK c) as [_ LO]. rewrite <- LO in O.
      destruct (write_infos_spec ws (b_infos b) x) as [(i & H1 & ->)|[N ->]].
      * exists i. split; [reflexivity|]. apply (v_built _ _ _ _ _ x i c ins ws); auto.
        apply (wf_outs _ W). rewrite <- O. apply in_map_iff. exists (x, i). auto.
      * apply provided_cons in H. destruct H as [H|H]; [|exact (V1 _ H)]. exfalso. apply N. rewrite O.
        apply (wf_outs _ W). destruct (builder g x); congruence.
    + pose proof (process_fail X A (acts c) ins ws (eq_sym Q)) as ->. cbn.
      apply provided_cons in H. destruct H as [H|H]; [|exact (V1 _ H)]. destruct (builder g x); discriminate.
Qed.

Lemma replay_inv l : ordered g l -> (forall a ok, In (EEnd (Art a) ok) l -> builder g a = None) ->
  replay X A acts source l <> Undefined /\ forall b, replay X A acts source l = Fine b -> inv l b.
Proof.
  induction l as [|e past IH]; intros O L; cbn [replay].
  - split; [discriminate|]. intros b E. injection E as <-. split; [intros a []|intros c r; discriminate].
  - destruct IH as [U V].
    { intros l1 c l2 E. apply (O (e :: l1) c l2). now rewrite E. }
    { intros a ok H. apply (L a ok). now right. }
    destruct (replay X A acts source past) as [| |b]; [contradiction|split; discriminate|].
    apply inv_event; [apply V; reflexivity| |].
    + intros c -> d J. exact (O [] c past eq_refl d J).
    + intros a ok ->. apply (L a ok). now left.
Qed.

(** Pieces of a log that can be replayed. *)
Lemma replay_suffix l1 l2 b : replay X A acts source (l1 ++ l2) = Fine b -> exists b', replay X A acts source l2 = Fine b'.
Proof.
  revert b. induction l1 as [|e l1 IH]; intros b; cbn [app replay]; [eauto|].
  destruct (replay X A acts source (l1 ++ l2)) as [| |b1]; [discriminate|discriminate|]. intros _. eauto.
Qed.

Lemma replay_end l c ok b : ordered g l -> (forall a ok, In (EEnd (Art a) ok) l -> builder g a = None) ->
  replay X A acts source l = Fine b -> In (EEnd (Act c) ok) l ->
  exists ins ws, inputs_value c ins /\ Process X A (acts c) ins = (ok, ws).
Proof.
  intros O L R J. apply in_split in J. destruct J as (l1 & l2 & ->).
  destruct (replay_suffix _ _ _ R) as (b1 & E1). cbn [replay] in E1.
  assert (ordered g l2) as O2.
  { intros k1 d k2 E. apply (O (l1 ++ EEnd (Act c) ok :: k1) d k2). rewrite E, <- app_assoc. reflexivity. }
  assert (forall a ok, In (EEnd (Art a) ok) l2 -> builder g a = None) as L2.
  { intros a o H. apply (L a o). apply in_app_iff. right. now right. }
  destruct (replay_inv l2 O2 L2) as [_ V].
  destruct (replay X A acts source l2) as [| |b2]; [discriminate|discriminate|]. destruct (V b2 eq_refl) as [_ V2].
  cbn [replay_event] in E1. destruct (b_pending b2 c) as [[ok' ws]|] eqn:P; [|discriminate].
  destruct (Bool.eqb ok ok') eqn:K; [|discriminate]. apply eqb_prop in K. subst ok'.
  destruct (V2 _ _ P) as (ins & F & Q). eauto.
Qed.

Lemma replay_end_source l a ok b : replay X A acts source l = Fine b -> In (EEnd (Art a) ok) l ->
  (ok = true <-> source a <> None).
Proof.
  intros R J. apply in_split in J. destruct J as (l1 & l2 & ->).
  destruct (replay_suffix _ _ _ R) as (b1 & E1). cbn [replay] in E1.
  destruct (replay X A acts source l2) as [| |b2]; [discriminate|discriminate|]. cbn [replay_event] in E1.
  destruct (source a), ok; try discriminate; split; congruence.
Qed.

(** ** Failures *)

Context (SF : forall a i, source a = Some i -> i_failed i = false).
Context (EF : forall e o y m p i, execute A e o = Some y -> y_artifacts y = Some m -> alookup p m = Some i -> i_failed i = false).

Lemma any_failed_in ins : any_failed ins = true <-> exists p i, In (p, i) ins /\ i_failed i = true.
Proof.
  unfold any_failed. rewrite existsb_exists. split.
  - intros ([p i] & J & F). eauto.
  - intros (p & i & J & F). exists (p, i). auto.
Qed.

(** When an output is marked as failed. *)
Lemma process_failed c ins ws a i : inputs_value c ins -> Process X A (acts c) ins = (true, ws) -> In (a, i) ws ->
  (i_failed i = true <-> any_failed ins = true \/ command_fails X A g acts source c).
Proof.
  intros F P J. set (n := acts c) in *. set (props := MergeProperties (x_props X) (n_props n)) in *.
  unfold Process in P. fold props in P.
  destruct (ExecuteAction X A n props _ ins) as [d f| |y] eqn:E; [|discriminate|].
  - assert (n_kind n <> Command) as NK.
    { intros K. pose proof (execute_kind X A n props (if n_no_cache n then DoNotCacheOutput else CacheOutput) ins K) as H.
      rewrite E in H. exact H. }
    pose proof (execute_tree X A n props (if n_no_cache n then DoNotCacheOutput else CacheOutput) ins NK) as H.
    rewrite E in H. subst f. injection P as <-. destruct (n_dirs n) as [|[q b] r]; [destruct J|].
    destruct J as [J|[]]. injection J as <- <-. cbn. split; [auto|]. intros [H|H]; [exact H|].
    exfalso. destruct H as (? & ? & ? & _ & K & _). exact (NK K).
  - apply execute_response in E. destruct E as (K & root & R & _ & EX & _). pose proof R as R2. apply root_spec in R2.
    apply parse_ok in P. destruct P as (_ & m & AM & _ & _ & _ & ->). apply save_in in J.
    destruct J as (q & j & _ & L & ->). pose proof (EF _ _ _ _ _ _ EX AM L) as NF.
    assert (i_failed (set_info j (any_failed ins || negb (y_exit y =? 0)%Z)) = true <->
            any_failed ins = true \/ y_exit y <> 0%Z) as SI.
    { unfold set_info. destruct (any_failed ins); cbn [orb]; [cbn; tauto|].
      destruct (Z.eqb_spec (y_exit y) 0); cbn [negb i_failed]; intuition congruence. }
    rewrite SI. split; (intros [H|H]; [now left|right]).
    + exists ins, root, y. repeat split; assumption.
    + destruct H as (ins' & root' & y' & F' & _ & R' & EX' & N). pose proof (inputs_fun c ins ins' F F') as <-.
      apply root_spec in R'. fold n in EX'. fold props in EX'. assert (root' = root) as -> by congruence. congruence.
Qed.

Lemma inputs_lookup c ins : inputs_value c ins -> forall p i, In (p, i) ins -> exists d, In (p, d) (n_inputs (acts c)) /\ value d i.
Proof.
  generalize (n_inputs (acts c)) as l. induction 1 as [|[q d] [q' i'] l ins [E V] F IH]; intros p i J; [destruct J|].
  destruct J as [J|J].
  - injection J as -> ->. cbn in *. subst. exists d. split; [now left|exact V].
  - destruct (IH p i J) as (d' & J' & V'). exists d'. split; [now right|exact V'].
Qed.
Lemma inputs_lookup' c ins : inputs_value c ins -> forall p d, In (p, d) (n_inputs (acts c)) -> exists i, In (p, i) ins /\ value d i.
Proof.
  generalize (n_inputs (acts c)) as l. induction 1 as [|[q d0] [q' i'] l ins [E V] F IH]; intros p d J; [destruct J|].
  destruct J as [J|J].
  - injection J as -> ->. cbn in *. subst. exists i'. split; [now left|exact V].
  - destruct (IH p d J) as (i & J' & V'). exists i. split; [now right|exact V'].
Qed.

Lemma value_tainted : forall a i, value a i -> i_failed i = true -> tainted X A g acts source a.
Proof.
  apply (value_ind' (fun a i => i_failed i = true -> tainted X A g acts source a)).
  - intros a i B S H. rewrite (SF a i S) in H. discriminate.
  - intros a i c ins ws B F IH P J H. apply (process_failed c ins ws a i F P J) in H. destruct H as [H|H].
    + apply any_failed_in in H. destruct H as (p & k & K & KF).
      assert (exists d, In (p, d) (n_inputs (acts c)) /\ (i_failed k = true -> tainted X A g acts source d)) as (d & D1 & D2).
      { clear -F IH K. revert F IH. generalize (n_inputs (acts c)) as l. intros l F. revert p k K.
        induction F as [|[q d0] [q' i'] l ins [E V] F IHF]; intros p k K IH; [destruct K|].
        inversion IH as [|? ? ? ? I1 I2]; subst. destruct K as [K|K].
        - injection K as -> ->. cbn in *. subst. exists d0. split; [now left|exact I1].
        - destruct (IHF p k K I2) as (d & D1 & D2). exists d. split; [now right|exact D2]. }
      apply (t_input _ _ _ _ _ a c p d B D1 (D2 KF)).
    + exact (t_fails _ _ _ _ _ a c B H).
Qed.

Lemma tainted_value : forall a, tainted X A g acts source a -> forall i, value a i -> i_failed i = true.
Proof.
  induction 1 as [a c B CF|a c p d B D T IH]; intros i V; inversion V as [|? ? c' ins ws B' F P J]; subst; try congruence;
    (assert (c' = c) as -> by congruence); apply (process_failed c ins ws a i F P J).
  - now right.
  - left. apply any_failed_in. destruct (inputs_lookup' c ins F p d D) as (k & K & VK). exists p, k. split; [exact K|exact (IH k VK)].
Qed.
End Values.
