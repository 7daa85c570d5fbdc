(** C107, C108, C109: executing actions at a remote endpoint (native mode). *)
From Coq Require Import String Ascii List Bool Arith NArith ZArith Permutation Lia.
From Verif Require Import Common.Strs Hex.Model Hex.Proofs Describe.Model Executor.Wire Executor.Local Executor.LocalSpec Executor.LocalProofs Dag.Traverse Dag.TraverseInv Dag.TraverseProps
  Executor.Process Executor.Build Executor.BuildSpec Executor.BuildProofs Executor.BuildProps Rehash.Examples Remote.Names
  Incremental.Model Incremental.Proofs Service.Messages Service.Model Service.Spec Service.Proofs Service.Backed Service.Build Service.BuildProofs.
Import ListNotations.
Local Open Scope string_scope.
Local Open Scope list_scope.

(** ** C107: whatever the history of the service and of the storage it uses, a response is the result of an execution that took
    place, of just this work, and tells the client what the local execution would have told. *)
Theorem C107_as_executed : forall hash utf8 make_tree valid happens text z f root command cwd files dirs env props timeout legacy p,
  good_hash hash GitSHA1 utf8 text -> well_stored GitSHA1 text happens ->
  history hash GitSHA1 utf8 make_tree valid happens text z ->
  let a := CreateAction GitSHA1 root command cwd files dirs env props timeout legacy in
  texts_of hash GitSHA1 text a -> expressible GitSHA1 utf8 a -> responds hash GitSHA1 z f a p ->
  exists b w p' ac, same_work a b /\ happens b w /\
    Execute hash GitSHA1 [] (match f with CacheOutput | FromCacheOnly => CacheOutput | _ => DoNotCacheOutput end) a w = (Some p', ac, true) /\
    r_exit (p_result p) = r_exit (p_result p') /\
    client_artifacts hash GitSHA1 (p_result p) = Some (artifacts_of hash (p_result p')).
Proof.
  intros hash utf8 make_tree valid happens text z f root command cwd files dirs env props timeout legacy p GH WS Hz a T EX R.
  exact (responds_executed hash utf8 make_tree valid happens text GH WS z f a p Hz (usual_create _ _ _ _ _ _ _ _ legacy) EX T R).
Qed.

(** A response from the cache has exit code zero, and all outputs that were asked for. *)
Theorem C107_cached_complete : forall hash utf8 make_tree valid happens text z root command cwd files dirs env props timeout legacy p,
  good_hash hash GitSHA1 utf8 text -> well_stored GitSHA1 text happens ->
  history hash GitSHA1 utf8 make_tree valid happens text z ->
  let a := CreateAction GitSHA1 root command cwd files dirs env props timeout legacy in
  texts_of hash GitSHA1 text a -> expressible GitSHA1 utf8 a -> responds hash GitSHA1 z FromCacheOnly a p ->
  r_exit (p_result p) = 0%Z /\ exists m, client_artifacts hash GitSHA1 (p_result p) = Some m /\
    (forall q, In q files -> exists i, alookup q m = Some i /\ i_type i <> Tree) /\
    (forall q, In q dirs -> exists i, alookup q m = Some i /\ i_type i = Tree).
Proof.
  intros hash utf8 make_tree valid happens text z root command cwd files dirs env props timeout legacy p GH WS Hz a T EX R.
  assert (U : usual a) by apply usual_create.
  destruct (responds_backed hash utf8 make_tree valid happens text GH WS z _ a p Hz U EX T R) as (b & w & S & Hb & F).
  pose proof (client_same hash happens text WS _ _ _ Hb F) as CS. destruct F as (_ & _ & _ & _ & SE & _).
  inversion R as [id r CE D KN E0 EO EQ|id r EE|id id' r FP]; subst; try discriminate. cbn [p_result] in *. split; [exact E0|].
  eexists. split; [exact CS|]. unfold expected in EO. change (a_mode a) with V2_0 in EO. cbv match in EO. apply contains_outputs_spec in EO. destruct EO as [O1 O2].
  assert (SN : forall q i, In (q, i) (populate_entries hash r) -> alookup q (artifacts_of hash r) = Some i).
  { intros q i I. rewrite artifacts_lookup. destruct (alookup_In_key q (populate_entries hash r)) as [i' L]; [apply in_map_iff; exists (q, i); auto|].
    rewrite L. f_equal. apply alookup_In_pair in L. eapply seen_fun; eauto. }
  split; intros q I.
  - destruct (has_file_entry hash q r) as (i & IE & TY); [apply O1; unfold a, CreateAction, new_action; cbn; now apply sort_In|]. eauto.
  - destruct (has_dir_entry hash q r) as (i & IE & TY); [apply O2; unfold a, CreateAction, new_action; cbn; now apply sort_In|]. eauto.
Qed.

(** Requests with the mark that the result is not to be cached never get into the cache. *)
Theorem C107_never_cached : forall hash utf8 make_tree valid happens text z root command cwd files dirs env props timeout legacy id,
  good_hash hash GitSHA1 utf8 text -> well_stored GitSHA1 text happens ->
  history hash GitSHA1 utf8 make_tree valid happens text z ->
  let a := CreateAction GitSHA1 root command cwd files dirs env props timeout legacy in
  texts_of hash GitSHA1 text a -> expressible GitSHA1 utf8 a -> CreateActionDigest hash GitSHA1 a true = Some id ->
  alookup (d_hash id) (st_ac (z_store z)) = None.
Proof.
  intros hash utf8 make_tree valid happens text z root command cwd files dirs env props timeout legacy id GH WS Hz a T EX D.
  destruct (alookup (d_hash id) (st_ac (z_store z))) as [r|] eqn:L; [|reflexivity].
  destruct (history_fair hash utf8 make_tree valid happens text GH WS z Hz) as (_ & K & _). destruct (K _ _ L) as (a' & b & w & N & _).
  destruct (named_fun hash utf8 text GH a true id false a' (usual_create _ _ _ _ _ _ _ _ legacy) EX D T N) as [_ E]. discriminate.
Qed.

(** ** C108: with deterministic commands, a remote build that succeeds gives what a local build from scratch gives. *)
Theorem C108_remote_as_local : forall hash legacy utf8 make_tree valid happens text rest X acts source does g targets l gs b a,
  good_hash hash GitSHA1 utf8 text -> well_stored GitSHA1 text happens ->
  (forall a w, happens a w -> w = does a) -> (forall a b, same_work a b -> does a = does b) ->
  wf g -> linked g acts -> (forall c, tree_shape (acts c)) -> acyclic g ->
  run g (init g targets) l = Some gs -> finished gs -> success gs ->
  remote_building hash GitSHA1 legacy utf8 make_tree valid happens text rest X acts source (log gs) b ->
  In a targets ->
  exists i, b_infos b a = Some i /\ value X (local_api hash GitSHA1 legacy valid rest [] does) g acts source a i.
Proof.
  intros hash legacy utf8 make_tree valid happens text rest X acts source does g targets l gs b a GH WS D1 D2 W LK TS AC R FI SU B I.
  destruct (C36_result g targets l gs W R FI) as [RES _]. destruct (RES SU) as [NF KN].
  destruct (remote_replay hash legacy utf8 make_tree valid happens text rest X acts source GH WS does D1 D2 _ _ B (fun c => NF (Act c))) as (pend & E & _).
  destruct (C36_all_built g targets l gs W AC R FI SU) as (_ & ART & _). destruct (ART a (n_target g targets a I)) as [_ P].
  exact (C58_values X (local_api hash GitSHA1 legacy valid rest [] does) g acts source targets l gs (b_infos b) a W LK TS R (ex_intro _ pend E) P).
Qed.

(** ** A service that executes one action, whose output is a link; the build for it, and the response from the cache afterwards. *)
Fixpoint sx_sum (s : string) (k : N) : N :=
  match s with EmptyString => 0%N | String c r => (k * N_of_ascii c + sx_sum r (k + 1))%N end.
Definition sx_hash (s : string) : string := ToHexString (bytes 20 (sx_sum s 1)).
Lemma sx_valid s b : valid_input GitSHA1 (sx_hash s) b = true.
Proof.
  unfold valid_input, sx_hash. destruct (hex_encode_shape (bytes 20 (sx_sum s 1))) as [L F]. rewrite L, bytes_length. destruct b; cbn [andb negb IsTreeAllowed hash_length Nat.mul Nat.eqb];
    apply IsHexString_iff; (eapply Forall_impl; [|exact F]); intros c (m & Hm); exists m; now left.
Qed.
Definition sx_rest : api :=
  mkApi (fun ins => match ins with [(p, i)] => Some (mkDigest (sx_hash ("tree " ++ p ++ d_hash (i_digest i))%string) true 9) | _ => None end)
    None (fun _ _ _ => None) (fun _ _ => true) (fun _ _ => None).
Definition sx_context : context := mkContext GitSHA1 [("os", "linux")] [].
Definition sx_root : digest := mkDigest (sx_hash "tree insrc") true 9.
Definition sx_order : order := order_of (ex_acts 0) [("os", "linux")] CacheOutput sx_root.
Definition sx_action : local_action := action_of GitSHA1 true sx_order.
Definition sx_world : world := mkWorld (Some 0%Z) (fun p => if String.eqb p "out" then Some (FLink (Some "in") true) else None) None None true.
Definition sx_happens (a : local_action) (w : world) : Prop := a = served sx_action /\ w = sx_world.
Definition sx_texts : list string :=
  ["in"; command_message sx_action; action_message sx_hash GitSHA1 sx_action false; action_message sx_hash GitSHA1 sx_action true;
   command_message (served sx_action); action_message sx_hash GitSHA1 (served sx_action) false; action_message sx_hash GitSHA1 (served sx_action) true].
Definition sx_text (s : string) : Prop := In s sx_texts.
Definition sx_make (s : store) (d : digest) : option string := None.
Definition sx_any (d : digest) : option bool := None.
Notation sx_history := (history sx_hash GitSHA1 any sx_make sx_any sx_happens sx_text).

Lemma sx_good : good_hash sx_hash GitSHA1 any sx_text.
Proof.
  split; [|split; [intros x; apply sx_valid|reflexivity]]. intros x y Tx Ty E.
  exact (distinct_free sx_hash sx_texts sx_text ltac:(vm_compute; reflexivity) (fun x T => T) x y Tx Ty E).
Qed.
Lemma sx_stored : well_stored GitSHA1 sx_text sx_happens.
Proof. intros a w p [_ ->]. cbn [w_at sx_world]. destruct (String.eqb p "out"); [|exact Logic.I]. left. reflexivity. Qed.
Lemma sx_in1 s : In s [command_message sx_action; action_message sx_hash GitSHA1 sx_action false; action_message sx_hash GitSHA1 sx_action true] -> sx_text s.
Proof. intros I. right. apply (in_or_app [_; _; _]). left. exact I. Qed.
Lemma sx_in2 s : In s [command_message (served sx_action); action_message sx_hash GitSHA1 (served sx_action) false; action_message sx_hash GitSHA1 (served sx_action) true] -> sx_text s.
Proof. intros I. right. apply (in_or_app [_; _; _]). right. exact I. Qed.
Lemma sx_of_action : texts_of sx_hash GitSHA1 sx_text sx_action /\ texts_of sx_hash GitSHA1 sx_text (served sx_action).
Proof.
  repeat split.
  - apply sx_in1. exact (or_introl eq_refl).
  - intros [|]; apply sx_in1; right; [right|]; exact (or_introl eq_refl).
  - apply sx_in2. exact (or_introl eq_refl).
  - intros [|]; apply sx_in2; right; [right|]; exact (or_introl eq_refl).
Qed.
Lemma sx_expressible : expressible GitSHA1 any sx_action.
Proof.
  split; [repeat split; repeat constructor|]. split; [constructor|]. split; [apply sx_valid|]. split; [reflexivity|]. split; vm_compute; [discriminate|reflexivity].
Qed.

Definition sx_digest : digest := blob_digest sx_hash (action_message sx_hash GitSHA1 sx_action false).
Definition sx_result : result := mkResult 0 [] [] [("out", "in")] [] [] None None.
Definition sx_local : result := sx_result.
Definition sx_job : job := mkJob sx_digest false true CacheOutput (served sx_action)
  (mkResponse (sx_hash (action_message sx_hash GitSHA1 (served sx_action) false)) sx_local false) (Some sx_world).
Definition sx_blobs : list string := ["in"; action_message sx_hash GitSHA1 sx_action false; command_message sx_action].
Definition sx_store (ac : cache) : store := mkStore sx_blobs [d_hash sx_root] ac.
Definition sx_before : system := mkService (sx_store []) [sx_job] [].
Definition sx_after : system := mkService (sx_store [(d_hash sx_digest, sx_result)]) [sx_job] [(sx_digest, sx_result)].

Lemma sx_reach : sx_history sx_before.
Proof.
  assert (H0 : sx_history (mkService (sx_store []) [] [])).
  { apply (h_tree _ _ _ _ _ _ _ (mkService (mkStore sx_blobs [] []) [] []) (d_hash sx_root)).
    apply (h_put _ _ _ _ _ _ _ (mkService (mkStore (tl sx_blobs) [] []) [] [])); [|exact (or_introl eq_refl)].
    apply (h_put _ _ _ _ _ _ _ (mkService (mkStore (tl (tl sx_blobs)) [] []) [] [])); [|apply sx_in1; right; exact (or_introl eq_refl)].
    apply (h_put _ _ _ _ _ _ _ (mkService (mkStore [] [] []) [] [])); [|apply sx_in1; exact (or_introl eq_refl)]. constructor. }
  refine (h_begin sx_hash GitSHA1 any sx_make sx_any sx_happens sx_text (mkService (sx_store []) [] []) (ToBazel GitSHA1 sx_digest) sx_digest false true CacheOutput
    (served sx_action) sx_world (j_response sx_job) _ true H0 _ (proj2 sx_of_action) _ _).
  - vm_compute. reflexivity.
  - vm_compute. reflexivity.
  - intros _. split; reflexivity.
Qed.
Lemma sx_done : sx_history sx_after.
Proof.
  refine (h_finish sx_hash GitSHA1 any sx_make sx_any sx_happens sx_text sx_before sx_job _ _ _ sx_result [] sx_reach _ _ (Permutation_refl _) _ _).
  - left. reflexivity.
  - vm_compute. reflexivity.
  - vm_compute. reflexivity.
  - intros c [].
Qed.
Lemma sx_answer : responds sx_hash GitSHA1 sx_after CacheOutput sx_action (mkResponse (d_hash sx_digest) sx_result true) /\
  responds sx_hash GitSHA1 sx_after FromCacheOnly sx_action (mkResponse (d_hash sx_digest) sx_result true) /\
  responds sx_hash GitSHA1 sx_after CacheOutput sx_action (mkResponse (d_hash sx_digest) sx_result false).
Proof.
  split; [|split].
  1,2: apply (r_cached sx_hash GitSHA1 sx_after _ sx_action sx_digest sx_result); [reflexivity|vm_compute; reflexivity|unfold known_result; vm_compute; reflexivity|reflexivity|vm_compute; reflexivity].
  apply (r_executed sx_hash GitSHA1 sx_after CacheOutput sx_action sx_digest sx_result); [reflexivity|discriminate|vm_compute; reflexivity|].
  exists sx_digest. split; [left; reflexivity|reflexivity].
Qed.

Example C107_nonvacuous : good_hash sx_hash GitSHA1 any sx_text /\ well_stored GitSHA1 sx_text sx_happens /\ sx_history sx_after /\
  sx_action = CreateAction GitSHA1 sx_root ["sh"] "w" ["out"] [] [] [("os", "linux")] 1%Z true /\
  texts_of sx_hash GitSHA1 sx_text sx_action /\ expressible GitSHA1 any sx_action /\
  responds sx_hash GitSHA1 sx_after CacheOutput sx_action (mkResponse (d_hash sx_digest) sx_result false) /\
  responds sx_hash GitSHA1 sx_after FromCacheOnly sx_action (mkResponse (d_hash sx_digest) sx_result true) /\
  client_artifacts sx_hash GitSHA1 sx_result = Some [("out", mkInfo (mkDigest (sx_hash "in") false 2) Symlink false)] /\
  CreateActionDigest sx_hash GitSHA1 sx_action true <> None.
Proof.
  split; [exact sx_good|]. split; [exact sx_stored|]. split; [exact sx_done|]. split; [reflexivity|]. split; [apply sx_of_action|]. split; [exact sx_expressible|].
  split; [apply sx_answer|]. split; [apply sx_answer|]. split; [vm_compute; reflexivity|]. vm_compute. discriminate.
Qed.

(** ** C109: the platform properties and the timeout of an action are part of what makes the execution. They are not: the response
    can be that of an execution with other properties and another timeout. *)
Theorem C109_properties_refuted : ~ forall hash utf8 make_tree valid happens text z f root command cwd files dirs env props timeout legacy p,
  good_hash hash GitSHA1 utf8 text -> well_stored GitSHA1 text happens ->
  history hash GitSHA1 utf8 make_tree valid happens text z ->
  let a := CreateAction GitSHA1 root command cwd files dirs env props timeout legacy in
  texts_of hash GitSHA1 text a -> expressible GitSHA1 utf8 a -> responds hash GitSHA1 z f a p ->
  exists b w, happens b w /\ (a_props b = props \/ a_timeout b = timeout).
Proof.
  intros Q. destruct (Q sx_hash any sx_make sx_any sx_happens sx_text sx_after CacheOutput sx_root ["sh"] "w" ["out"] [] [] [("os", "linux")] 1%Z true
    (mkResponse (d_hash sx_digest) sx_result false) sx_good sx_stored sx_done (proj1 sx_of_action) sx_expressible (proj2 (proj2 sx_answer))) as (b & w & [-> _] & [P|T]); discriminate.
Qed.

(** ** The build for the tree with that link. *)
Definition sx_same_order (o o' : order) : {o = o'} + {o <> o'}.
Proof.
  decide equality; try apply Z.eq_dec; try (apply list_eq_dec; try apply string_dec); try apply string_dec; try (decide equality; try apply string_dec; try apply N.eq_dec; apply bool_dec); decide equality; apply string_dec.
Defined.
Definition sx_reply : reply := client_reply sx_hash GitSHA1 (mkResponse (d_hash sx_digest) sx_result false).
Definition sx_answer_to (o : order) : option reply := if sx_same_order o sx_order then Some sx_reply else None.
Notation sx_building := (remote_building sx_hash GitSHA1 true any sx_make sx_any sx_happens sx_text sx_rest sx_context ex_acts ex_source).
Lemma sx_answered o y : sx_answer_to o = Some y ->
  texts_of sx_hash GitSHA1 sx_text (action_of GitSHA1 true o) /\ expressible GitSHA1 any (action_of GitSHA1 true o) /\
  exists p, responds sx_hash GitSHA1 sx_after (o_flag o) (action_of GitSHA1 true o) p /\ y = client_reply sx_hash GitSHA1 p.
Proof.
  unfold sx_answer_to. destruct (sx_same_order o sx_order) as [->|]; [|discriminate]. intros E. injection E as <-.
  split; [apply sx_of_action|]. split; [exact sx_expressible|]. eexists. split; [|reflexivity]. apply sx_answer.
Qed.
Lemma sx_builds l b : replay sx_context (remote_api sx_rest sx_answer_to) ex_acts ex_source l = Fine b -> sx_building l b.
Proof.
  revert b. induction l as [|e l IH]; intros b E; cbn [replay] in E.
  - injection E as <-. constructor.
  - destruct (replay sx_context (remote_api sx_rest sx_answer_to) ex_acts ex_source l) as [b0| |] eqn:E0; try discriminate.
    econstructor; [apply IH; reflexivity|exact sx_done|exact sx_answered|exact E].
Qed.

Example C108_nonvacuous : good_hash sx_hash GitSHA1 any sx_text /\ well_stored GitSHA1 sx_text sx_happens /\
  (forall a w, sx_happens a w -> w = sx_world) /\
  wf ex_graph /\ linked ex_graph ex_acts /\ (forall c, tree_shape (ex_acts c)) /\ acyclic ex_graph /\
  exists l gs b, run ex_graph (init ex_graph [2]) l = Some gs /\ finished gs /\ success gs /\ sx_building (log gs) b /\
    b_infos b 1 = Some (mkInfo (mkDigest (sx_hash "in") false 2) Symlink false) /\
    b_infos b 2 = Some (mkInfo (mkDigest (sx_hash ("tree t" ++ sx_hash "in")) true 9) Tree false).
Proof.
  split; [exact sx_good|]. split; [exact sx_stored|]. split; [intros a w [_ ->]; reflexivity|].
  destruct ex_wf as (W & L & T & AC). repeat (split; [assumption|]).
  exists (TraverseProps.play ex_graph 100 (init ex_graph [2])). eexists. eexists. split; [vm_compute; reflexivity|].
  split; [intros t J; cbn in J; repeat (destruct J as [<-|J]; [reflexivity|]); destruct J|].
  split; [reflexivity|]. split; [apply sx_builds; vm_compute; reflexivity|]. split; vm_compute; reflexivity.
Qed.

Print Assumptions C107_as_executed.
Print Assumptions C107_cached_complete.
Print Assumptions C107_never_cached.
Print Assumptions C108_remote_as_local.
Print Assumptions C109_properties_refuted.
