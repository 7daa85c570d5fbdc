(** C69, identifiers: what analysed targets recorded has different identifiers unless the hash function
    collides on strings that were hashed for them. *)
From Coq Require Import String Ascii List Bool Arith NArith ZArith Lia.
From Verif Require Import Executor.Local Executor.Process.
From Verif Require Import Common.Strs LinkedMap.Model Hex.Model Hex.Props Expr.Json Expr.JsonSpec Expr.Model Expr.HashSpec Expr.DumpProofs Expr.HashProofs Expr.Witness Describe.Model.
From Verif Require Import Analysis.Stage Analysis.Model Analysis.Spec Analysis.HonestSpec Analysis.ActionIdProps Analysis.BuildableProps Analysis.Created Analysis.Proofs Analysis.Honest Analysis.Taint Analysis.Crash Analysis.Examples Analysis.StageExamples.
From Verif Require Import Traverser.Model Traverser.Spec Traverser.Closure Traverser.Examples.
Import ListNotations.
Local Open Scope string_scope.
Local Open Scope list_scope.
Local Open Scope nat_scope.

(** The strings that are hashed for the identifier. *)
Definition fields (x : raction) : described :=
  mkDescribed (ra_outs x) (ra_out_dirs x) (ra_command x) (ra_cwd x) (ra_env x) (ra_may_fail x) (ra_no_cache x) (ra_timeout x)
    (ra_properties x) (ra_inputs x).
Definition hashed_for (W : world) (r : recipe) : list string :=
  match r with
  | RAction x => hashed (w_ndump W) (w_hash W) (w_ftext W) (fields x)
  | RTree c => ["TREE:" ++ dump (w_ndump W) (JObj c)]%string
  | ROverlay o => ["TREE_OVERLAY:" ++ dump (w_ndump W) (JObj [("disjoint", JBool (snd o)); ("trees", JArr (fst o))])]%string
  end.

Lemma art_ok a : json_ok (art_ToJson a).
Proof. destruct a as [| ? ? [|]| | |]; cbn; repeat split. Qed.
Lemma buildable_ok W R j : (forall j, given W j -> json_ok j) -> buildable W (given W) R j -> json_ok j.
Proof. intros G H. destruct H; try apply art_ok. now apply G. Qed.
Lemma obj_ok c : (forall e, In e c -> json_ok (snd e)) -> json_ok (JObj c).
Proof. induction c as [|[k v] c IH]; cbn; auto. intros H. split; [exact (H (k, v) (or_introl eq_refl))|]. apply IH. auto. Qed.
Lemma arr_ok l : (forall e, In e l -> json_ok e) -> json_ok (JArr l).
Proof. induction l as [|v l IH]; cbn; auto. intros H. split; [apply H; now left|]. apply IH. auto. Qed.

Lemma created_fields W x : created W x -> x = create (w_ndump W) (w_hash W) (w_ftext W) (fields x).
Proof.
  intros [d ->]. destruct (C63_action_content (w_ndump W) (w_hash W) (w_ftext W) d) as (E1 & E2 & E3 & E4 & E5 & E6 & E7 & E8 & E9 & E10).
  unfold fields. rewrite E1, E2, E3, E4, E5, E6, E7, E8, E9, E10. now destruct d.
Qed.

Theorem C69_identifiers : forall W ts, honest_evaluator W -> plain_definitions W -> typed_world W -> analysed_targets W ts ->
  (forall j, given W j -> json_ok j) -> number_text (w_ndump W) -> fixed_length (w_hash W) ->
  (forall n m, String.length (w_ftext W n) = String.length (w_ftext W m)) ->
  (forall x y, recorded ts (RAction x) -> recorded ts (RAction y) -> w_ftext W (ra_timeout x) = w_ftext W (ra_timeout y) -> ra_timeout x = ra_timeout y) ->
  forall r r', recorded ts r -> recorded ts r' -> rid W r = rid W r' ->
  r = r' \/ exists x y, In x (hashed_for W r) /\ In y (hashed_for W r') /\ x <> y /\ w_hash W x = w_hash W y.
Proof.
  intros W ts HE PD TW AT GV NT FL TL TI r r' R R' E.
  assert (RX : forall r, recorded ts r -> match r with
    | RAction x => created W x /\ forall p j, In (p, j) (ra_inputs x) -> json_ok j
    | RTree c => json_ok (JObj c) | ROverlay o => json_ok (JArr (fst o)) end).
  { intros q (k & a & J & H). destruct (at_analysed _ _ AT k a J) as [A P].
    destruct (C67_recipes W HE PD TW k a P A a (or_introl eq_refl)) as (C1 & C2 & C3). destruct q as [x|c|o].
    - split; [exact (all_created W HE PD TW k a x A P H)|]. intros p j I0. exact (buildable_ok W _ _ GV (C1 x H _ I0)).
    - apply obj_ok. intros e I0. exact (buildable_ok W _ _ GV (C2 c H _ I0)).
    - apply arr_ok. intros e I0. exact (buildable_ok W _ _ GV (C3 o H _ I0)). }
  pose proof (RX r R) as F. pose proof (RX r' R') as F'. clear RX.
  assert (HX : forall x y, ToHexString (w_hash W x) = ToHexString (w_hash W y) -> w_hash W x = w_hash W y) by (intros x y; apply C17_hex_encode_injective).
  assert (HD : forall x, In (action_preimage (w_ndump W) (w_hash W) (w_ftext W) (ra_outs x) (ra_out_dirs x) (ra_command x) (ra_cwd x)
      (texts (ra_env x)) (ra_may_fail x) (ra_no_cache x) (ra_timeout x) (texts (ra_properties x)) (arts (ra_inputs x))) (hashed_for W (RAction x)))
    by (intros; now left).
  destruct r as [x|c|o], r' as [x'|c'|o']; cbn [rid] in E.
  - destruct F as [CX JX], F' as [CX' JX']. apply created_fields in CX. apply created_fields in CX'.
    rewrite CX, CX' in E. apply (C63_action_identifier _ _ _ NT FL TL) in E; auto; [|now apply TI].
    destruct E as [E|C]; [left; rewrite CX, CX', E; reflexivity|]. right. exact C.
  - right. destruct F as [CX _]. apply created_fields in CX. rewrite CX in E. apply HX in E.
    eexists. eexists. split; [apply (HD x)|]. split; [now left|]. split; [|exact E]. discriminate.
  - right. destruct F as [CX _]. apply created_fields in CX. rewrite CX in E. apply HX in E.
    eexists. eexists. split; [apply (HD x)|]. split; [now left|]. split; [|exact E]. discriminate.
  - right. destruct F' as [CX _]. apply created_fields in CX. rewrite CX in E. apply HX in E.
    eexists. eexists. split; [now left|]. split; [apply (HD x')|]. split; [|exact E]. discriminate.
  - destruct (C63_tree_identifier (w_ndump W) (w_hash W) NT c c' F F' E) as [->|(x & y & -> & -> & N & Q)]; [now left|].
    right. eexists. eexists. split; [now left|]. split; [now left|]. auto.
  - right. apply HX in E. eexists. eexists. split; [now left|]. split; [now left|]. split; [|exact E]. discriminate.
  - right. destruct F' as [CX _]. apply created_fields in CX. rewrite CX in E. apply HX in E.
    eexists. eexists. split; [now left|]. split; [apply (HD x')|]. split; [|exact E]. discriminate.
  - right. apply HX in E. eexists. eexists. split; [now left|]. split; [now left|]. split; [|exact E]. discriminate.
  - destruct o as [l b], o' as [l' b']. destruct (C63_overlay_identifier (w_ndump W) (w_hash W) NT l b l' b' F F' E) as [[-> ->]|(x & y & N & Q & -> & ->)]; [now left|].
    right. eexists. eexists. split; [now left|]. split; [now left|]. auto.
Qed.
Print Assumptions C69_identifiers.

(** Every analysed target is one of finitely many that are closed under dependencies: the setting of C69 is
    there for every analysis. *)
Theorem C69_targets : forall W, honest_evaluator W -> plain_definitions W -> forall k a, analyses W k a -> plain_env (snd k) ->
  exists ts, analysed_targets W ts /\ In (k, a) ts.
Proof. exact closure_exists. Qed.
Print Assumptions C69_targets.

(** Met by the targets of Traverser/Examples.v with a hash function of fixed length; the two things recorded
    have no collision and different identifiers. *)
Definition sized_world : world :=
  mkWorld (w_definition stage_world) (w_parse stage_world) (w_eval stage_world) (w_anon stage_world) (w_target_eqb stage_world) (w_expr_eqb stage_world)
    toy_ndump (fun _ => "t") two_bytes (w_blob stage_world) (w_node_value stage_world) (w_node_abstract stage_world)
    (w_same_config stage_world) (w_cache_key stage_world) (w_served stage_world) (w_served_absent stage_world).
Definition sized_target : analysed := match analyse sized_world 5 bin_key with ODone a => a | _ => no_target end.
Definition sized : list (key * analysed) := (bin_key, sized_target) :: trace (analyse sized_world 4) (program_of sized_world bin_key).

Lemma sized_honest : honest_evaluator sized_world.
Proof. exact (stage_world_honest ex_definition). Qed.
Lemma sized_plain : plain_definitions sized_world.
Proof. exact stage_world_plain. Qed.
Lemma sized_typed : typed_world sized_world.
Proof. destruct stage_world_typed as [A B C D]. constructor; [exact A|exact B|exact C|exact D]. Qed.
Lemma sized_nothing j : ~ given sized_world j.
Proof.
  intros H. apply (stage_world_nothing j).
  destruct H as [t st j D I0|t sts st j D I0 I1|t n j D|t r j D I0|key r im j D I0|key r im j D I0].
  - exact (given_source stage_world t st j D I0).
  - exact (given_glob stage_world t sts st j D I0 I1).
  - exact (given_tree stage_world t n j D).
  - exact (given_value stage_world t r j D I0).
  - exact (given_served stage_world key r im j D I0).
  - exact (given_absent stage_world key r im j D I0).
Qed.
Lemma sized_done : analyse sized_world 5 bin_key = ODone sized_target.
Proof. vm_compute. reflexivity. Qed.
Lemma sized_last : map (fun x => trace (analyse sized_world 4) (program_of sized_world (fst x))) (tl sized) = [[]] /\
  map (fun x => exec (analyse sized_world 4) (program_of sized_world (fst x))) (tl sized) = map (fun x => ODone (snd x)) (tl sized).
Proof. vm_compute. repeat split. Qed.
Lemma sized_targets : analysed_targets sized_world sized.
Proof.
  split.
  - intros k a [H|H]; [injection H as <- <-; split; [exact (analyse_sound _ _ _ _ sized_done)|exact bin_plain]|]. apply trace_sound in H. split.
    + exact (requested_analysed _ _ _ _ H).
    + exact (requests_clean sized_world sized_honest sized_plain bin_key k a bin_plain H).
  - intros k a d v [H|H] D.
    + injection H as <- <-. right. apply (trace_all _ 4 _ sized_target); [exact sized_done|exact D].
    + destruct sized_last as (E1 & E2). exfalso. change (In (k, a) (tl sized)) in H.
      destruct (tl sized) as [|[k0 a0] [|]] eqn:E; [destruct H| |discriminate]. destruct H as [H|[]]. injection H as -> ->. cbn [map fst snd] in E1, E2.
      apply (f_equal (@hd _ [])) in E1. apply (f_equal (@hd _ OFuel)) in E2. cbn [hd] in E1, E2. apply (trace_all _ 4 _ _ E2) in D. rewrite E1 in D. destruct D.
Qed.
Example C69_identifiers_nonvacuous :
  honest_evaluator sized_world /\ plain_definitions sized_world /\ typed_world sized_world /\ analysed_targets sized_world sized /\
  (forall j, given sized_world j -> json_ok j) /\ number_text (w_ndump sized_world) /\ fixed_length (w_hash sized_world) /\
  exists x, recorded sized (RAction x) /\ recorded sized (RTree []) /\ length (ra_inputs x) = 2 /\
    (forall y, recorded sized (RAction y) -> y = x) /\
    no_collision_in (w_hash sized_world) (hashed_for sized_world (RAction x)) (hashed_for sized_world (RTree [])) = true.
Proof.
  split; [exact sized_honest|]. split; [exact sized_plain|]. split; [exact sized_typed|]. split; [exact sized_targets|].
  split; [intros j H; destruct (sized_nothing j H)|]. split; [exact toy_number_text|]. split; [exists 2; split; [lia|reflexivity]|].
  exists (hd (mkRAction "" [] [] [] "" [] None false one [] []) (an_actions sized_target)).
  split; [exists bin_key, sized_target; split; [now left|vm_compute; now left]|].
  split; [exists bin_key, sized_target; split; [now left|vm_compute; now left]|].
  split; [vm_compute; reflexivity|]. split; [|vm_compute; reflexivity].
  intros y (k & a & J & H).
  assert (G : In y (flat_map (fun x => an_actions (snd x)) sized)) by (apply in_flat_map; exists (k, a); auto).
  assert (E : flat_map (fun x => an_actions (snd x)) sized = [hd (mkRAction "" [] [] [] "" [] None false one [] []) (an_actions sized_target)])
    by (vm_compute; reflexivity).
  rewrite E in G. destruct G as [<-|[]]. reflexivity.
Qed.
