(** Reading definitions of rules: C134 and C135. *)
From Coq Require Import String List Bool Permutation.
From Verif Require Import Common.Strs Rules.Model Rules.Spec Rules.Proofs.
Import ListNotations.
Open Scope string_scope.
Open Scope list_scope.

(** A definition is accepted exactly if it is an object that describes a rule
    and this description is consistent. *)
Theorem C134_accepted name parse function v :
  unique_keys v ->
  (ReadRule name parse function v <> None <->
   exists m d, v = JObj m /\ describes name parse m d /\ consistent name function d).
Proof.
  intro U. split.
  - intro N. destruct (ReadRule name parse function v) as [r|] eqn:E; [|congruence].
    destruct (read_describes _ _ _ v r U E) as (m & d & -> & D).
    exists m, d. split; [reflexivity|]. split; [exact D|].
    apply (read_iff _ _ _ m d U D). congruence.
  - intros (m & d & -> & D & C). now apply (read_iff _ _ _ m d U D).
Qed.
Print Assumptions C134_accepted.

(** The rule is the one described: nothing is lost, added or mixed up. *)
Theorem C134_taken name parse function m r :
  unique_keys (JObj m) ->
  ReadRule name parse function (JObj m) = Some r ->
  exists d, describes name parse m d /\
    Permutation (s_targets _ d) (r_target_fields _ r) /\
    Permutation (s_strings _ d) (r_string_fields _ r) /\
    Permutation (s_configs _ d) (r_config_fields _ r) /\
    r_implicit _ r = s_implicit _ d /\
    r_anonymous _ r = s_anonymous _ d /\
    r_config_vars _ r = s_vars _ d /\
    r_tainted _ r = s_tainted _ d /\
    r_expression _ r = s_expression _ d /\
    r_imports _ r = s_imports _ d.
Proof.
  intros U E. destruct (read_describes _ _ _ _ r U E) as (m' & d & Em & D).
  injection Em as <-. exists d. split; [exact D|].
  rewrite (describes_read _ _ _ m d U D) in E.
  destruct (forallb _ _); [|discriminate]. apply create_some in E. subst r.
  cbn [r_target_fields r_string_fields r_config_fields r_implicit r_anonymous
       r_config_vars r_tainted r_expression r_imports].
  repeat split; apply sort_perm.
Qed.
Print Assumptions C134_taken.

(** Every field about targets has a transition: the one given, or else the empty
    one.  Nothing else has one. *)
Theorem C134_transitions name parse function m d r :
  unique_keys (JObj m) ->
  describes name parse m d ->
  ReadRule name parse function (JObj m) = Some r ->
  (forall f e, In (f, e) (s_transitions _ d) ->
     alookup f (r_transitions _ r) = Some (Some e)) /\
  (forall f, ~ In f (map fst (s_transitions _ d)) ->
     In f (s_targets _ d) \/ In f (map fst (s_implicit _ d)) \/
     In f (map fst (s_anonymous _ d)) ->
     alookup f (r_transitions _ r) = Some None) /\
  (forall f, ~ In f (s_targets _ d) -> ~ In f (map fst (s_implicit _ d)) ->
     ~ In f (map fst (s_anonymous _ d)) -> alookup f (r_transitions _ r) = None).
Proof.
  intros U D E.
  assert (C : consistent name function d).
  { apply (read_iff _ _ _ m d U D). congruence. }
  assert (NT : NoDup (map fst (s_transitions _ d))).
  { assert (X : unique_keys (JObj (s_transitions _ d))).
    { apply (get_unique m "config_transitions" (JObj [])); [exact U|constructor; constructor|].
      apply value_at_get; [now inversion U|]. exact (d_transitions _ _ _ _ D). }
    now inversion X. }
  rewrite (describes_read _ _ _ m d U D) in E.
  destruct (forallb _ _); [|discriminate]. apply create_some in E. subst r.
  cbn [r_transitions].
  assert (L : forall x, alookup x (default_transitions
      (sort (s_targets _ d) ++ sort (map fst (s_implicit _ d)) ++ sort (map fst (s_anonymous _ d)))
      (map (fun '(k, v) => (k, Some v)) (s_transitions _ d))) =
    match alookup x (s_transitions _ d) with
    | Some w => Some (Some w)
    | None => if existsb (String.eqb x)
        (sort (s_targets _ d) ++ sort (map fst (s_implicit _ d)) ++ sort (map fst (s_anonymous _ d)))
        then Some None else None
    end).
  { intro x. rewrite default_lookup, alookup_map_some.
    destruct (alookup x (s_transitions _ d)); reflexivity. }
  assert (M : forall x, In x (sort (s_targets _ d) ++ sort (map fst (s_implicit _ d)) ++
                sort (map fst (s_anonymous _ d))) <->
              In x (s_targets _ d) \/ In x (map fst (s_implicit _ d)) \/
              In x (map fst (s_anonymous _ d))).
  { intro x. rewrite !in_app_iff, !sort_in. reflexivity. }
  split; [|split].
  - intros f e Hin. rewrite L. apply (in_alookup _ _ _ NT) in Hin. now rewrite Hin.
  - intros f N Hf. rewrite L. apply alookup_None in N. rewrite N.
    apply M in Hf. apply existsb_in in Hf. now rewrite Hf.
  - intros f N1 N2 N3. rewrite L.
    destruct (alookup f (s_transitions _ d)) as [w|] eqn:E.
    + exfalso. apply alookup_In in E. apply (in_map fst) in E.
      destruct (transitions_ok _ _ _ C f E) as [X|[X|X]]; tauto.
    + destruct (existsb _ _) eqn:X; [|reflexivity]. exfalso.
      apply existsb_in in X. apply M in X. tauto.
Qed.
Print Assumptions C134_transitions.

(** Entries other than these ten have no influence. *)
Theorem C134_others name parse function m1 m2 k v :
  ~ In k ["expression"; "target_fields"; "string_fields"; "config_fields";
          "implicit"; "anonymous"; "config_vars"; "tainted"; "imports";
          "config_transitions"] ->
  ReadRule name parse function (JObj (m1 ++ (k, v) :: m2)) =
  ReadRule name parse function (JObj (m1 ++ m2)).
Proof.
  intro N. set (p := fun x => negb (String.eqb x k)).
  rewrite <- (read_filter _ parse function p (m1 ++ (k, v) :: m2)).
  - rewrite <- (read_filter _ parse function p (m1 ++ m2)).
    + rewrite !filter_app. cbn [filter fst]. unfold p at 2.
      now rewrite String.eqb_refl.
    + intros x Hx. unfold p. destruct (String.eqb_spec x k) as [->|]; [tauto|reflexivity].
  - intros x Hx. unfold p. destruct (String.eqb_spec x k) as [->|]; [tauto|reflexivity].
Qed.
Print Assumptions C134_others.

(** They are warned about, unless they are documentation. *)
Theorem C134_warned m k :
  In k (unexpected kRuleFields m) <->
  In k (map fst m) /\
  ~ In k ["expression"; "target_fields"; "string_fields"; "config_fields";
          "implicit"; "anonymous"; "config_vars"; "tainted"; "imports";
          "config_transitions"; "doc"; "field_doc"; "config_doc";
          "artifacts_doc"; "runfiles_doc"; "provides_doc"].
Proof.
  unfold unexpected. rewrite filter_In.
  assert (X : In k kRuleFields <->
     In k ["expression"; "target_fields"; "string_fields"; "config_fields";
          "implicit"; "anonymous"; "config_vars"; "tainted"; "imports";
          "config_transitions"; "doc"; "field_doc"; "config_doc";
          "artifacts_doc"; "runfiles_doc"; "provides_doc"]).
  { unfold kRuleFields. split; intro H;
      repeat (destruct H as [<-|H]; [cbn [In]; tauto|]); destruct H. }
  rewrite <- X, <- (existsb_in k kRuleFields).
  destruct (existsb (String.eqb k) kRuleFields); cbn [negb]; intuition congruence.
Qed.
Print Assumptions C134_warned.

(** In a target of this type, no warning is given exactly for the fields of the
    rule that can be set, and for the reserved keys. *)
Theorem C134_fields name parse function m d r k :
  unique_keys (JObj m) ->
  describes name parse m d ->
  ReadRule name parse function (JObj m) = Some r ->
  (In k (ExpectedFields _ r) <->
   In k (s_targets _ d) \/ In k (s_strings _ d) \/ In k (s_configs _ d) \/
   k = "type" \/ k = "arguments_config" \/ k = "tainted").
Proof.
  intros U D E. rewrite (describes_read _ _ _ m d U D) in E.
  destruct (forallb _ _); [|discriminate]. apply create_some in E. subst r.
  unfold ExpectedFields. cbn [r_target_fields r_string_fields r_config_fields].
  rewrite !in_app_iff, !sort_in. unfold kReservedKeywords. cbn [In].
  intuition congruence.
Qed.
Print Assumptions C134_fields.

Definition ex_parse (v : json) : option string :=
  match v with JStr s => Some s | _ => None end.

Definition ex_rule : list (string * json) :=
  [("target_fields", JArr [JStr "srcs"; JStr "deps"]);
   ("string_fields", JArr [JStr "name"]);
   ("implicit", JObj [("defaults", JArr [JStr "CC"])]);
   ("anonymous", JObj [("protos", JObj [("target", JStr "deps");
       ("provider", JStr "proto"); ("rule_map", JObj [("library", JStr "lib")])])]);
   ("config_transitions", JObj [("deps", JScalar)]);
   ("imports", JObj [("f", JStr "fun")]);
   ("doc", JScalar);
   ("note", JScalar);
   ("expression", JScalar)].

Example C134_nonvacuous :
  unique_keys (JObj ex_rule) /\
  (exists r, ReadRule string ex_parse (String.eqb "fun") (JObj ex_rule) = Some r /\
     r_target_fields _ r = ["deps"; "srcs"] /\
     r_transitions _ r = [("deps", Some JScalar); ("srcs", None); ("defaults", None);
                          ("protos", None)]) /\
  unexpected kRuleFields ex_rule = ["note"] /\
  ReadRule string ex_parse (fun _ => false) (JObj ex_rule) = None.
Proof.
  split.
  - unfold ex_rule.
    repeat (constructor; cbn [map fst snd In];
            try (intro H; repeat (destruct H as [H|H]; [discriminate|]); exact H)).
  - vm_compute. split; [eexists; split; [reflexivity|split; reflexivity]|].
    split; reflexivity.
Qed.

(** * C135: mistakes that are not noticed *)

(** An anonymous field takes its nodes from the targets of a target or implicit
    field of the rule.  This is not checked: any name is accepted, and the field
    then has no targets (target_map.cpp:1278-1282, 1400-1402). *)
Theorem C135_anonymous_refuted :
  exists parse function m r f a,
    unique_keys (JObj m) /\
    ReadRule string parse function (JObj m) = Some r /\
    In (f, a) (r_anonymous _ r) /\
    ~ In (an_target _ a) (r_target_fields _ r) /\
    ~ In (an_target _ a) (map fst (r_implicit _ r)).
Proof.
  exists ex_parse, (fun _ => true),
    [("target_fields", JArr [JStr "deps"]);
     ("anonymous", JObj [("protos", JObj [("target", JStr "dep");
        ("provider", JStr "proto"); ("rule_map", JObj [])])]);
     ("expression", JScalar)].
  eexists _, "protos", _. split.
  - repeat (constructor; cbn [map fst snd In];
            try (intro H; repeat (destruct H as [H|H]; [discriminate|]); exact H)).
  - split; [vm_compute; reflexivity|]. split; [now left|].
    cbn [r_target_fields r_implicit map In an_target]. split; [|tauto].
    intros [H|[]]; discriminate.
Qed.
Print Assumptions C135_anonymous_refuted.

(** A field listed twice in the same list is accepted, although one listed in
    two lists is not. *)
Theorem C135_twice_refuted :
  (exists m r f,
    unique_keys (JObj m) /\
    ReadRule string ex_parse (fun _ => true) (JObj m) = Some r /\
    ~ NoDup (r_target_fields _ r) /\ In f (r_target_fields _ r)) /\
  (exists m, unique_keys (JObj m) /\
    ReadRule string ex_parse (fun _ => true) (JObj m) = None /\
    In ("target_fields", JArr [JStr "deps"]) m /\
    In ("string_fields", JArr [JStr "deps"]) m).
Proof.
  split.
  - exists [("target_fields", JArr [JStr "deps"; JStr "deps"]); ("expression", JScalar)].
    eexists _, "deps". split; [|split; [vm_compute; reflexivity|split]].
    + repeat (constructor; cbn [map fst snd In];
            try (intro H; repeat (destruct H as [H|H]; [discriminate|]); exact H)).
    + cbn [r_target_fields]. intro N. inversion N as [|? ? X _]; subst. apply X. now left.
    + now left.
  - exists [("target_fields", JArr [JStr "deps"]); ("string_fields", JArr [JStr "deps"]);
            ("expression", JScalar)].
    split; [|split; [vm_compute; reflexivity|split; cbn [In]; tauto]].
    repeat (constructor; cbn [map fst snd In];
            try (intro H; repeat (destruct H as [H|H]; [discriminate|]); exact H)).
Qed.
Print Assumptions C135_twice_refuted.

(** What is guaranteed: for accepted rules, whatever anonymous fields there are,
    no name stands for two kinds of fields, and no field can be mistaken for a
    reserved key of targets. *)
Theorem C135_fields_partial name parse function m r :
  unique_keys (JObj m) ->
  ReadRule name parse function (JObj m) = Some r ->
  forall f,
    f = "type" \/ f = "arguments_config" \/ f = "tainted" ->
    ~ In f (r_target_fields _ r) /\ ~ In f (r_string_fields _ r) /\
    ~ In f (r_config_fields _ r) /\ ~ In f (map fst (r_implicit _ r)) /\
    ~ In f (map fst (r_anonymous _ r)).
Proof.
  intros U E. destruct (read_describes _ _ _ _ r U E) as (m' & d & Em & D).
  injection Em as <-.
  assert (C : consistent name function d).
  { apply (read_iff _ _ _ m d U D). congruence. }
  rewrite (describes_read _ _ _ m d U D) in E.
  destruct (forallb _ _); [|discriminate]. apply create_some in E. subst r.
  cbn [r_target_fields r_string_fields r_config_fields r_implicit r_anonymous].
  intros f Hf. rewrite !sort_in.
  assert (N : forall l, In l (kinds name d) -> ~ In f l).
  { intros l Hl Hin. destruct (not_reserved _ _ _ C l f Hl Hin) as (N1 & N2 & N3).
    intuition congruence. }
  unfold kinds in N. cbn [In] in N. repeat split; apply N; tauto.
Qed.
Print Assumptions C135_fields_partial.

Theorem C135_kinds_partial name parse function m r f :
  unique_keys (JObj m) ->
  ReadRule name parse function (JObj m) = Some r ->
  (In f (r_target_fields _ r) ->
     ~ In f (r_string_fields _ r) /\ ~ In f (r_config_fields _ r) /\
     ~ In f (map fst (r_implicit _ r)) /\ ~ In f (map fst (r_anonymous _ r))) /\
  (In f (r_string_fields _ r) ->
     ~ In f (r_config_fields _ r) /\
     ~ In f (map fst (r_implicit _ r)) /\ ~ In f (map fst (r_anonymous _ r))) /\
  (In f (r_config_fields _ r) ->
     ~ In f (map fst (r_implicit _ r)) /\ ~ In f (map fst (r_anonymous _ r))) /\
  (In f (map fst (r_implicit _ r)) -> ~ In f (map fst (r_anonymous _ r))).
Proof.
  intros U E. destruct (read_describes _ _ _ _ r U E) as (m' & d & Em & D).
  injection Em as <-.
  assert (C : consistent name function d).
  { apply (read_iff _ _ _ m d U D). congruence. }
  rewrite (describes_read _ _ _ m d U D) in E.
  destruct (forallb _ _); [|discriminate]. apply create_some in E. subst r.
  cbn [r_target_fields r_string_fields r_config_fields r_implicit r_anonymous].
  rewrite !sort_in. pose proof (one_kind _ _ _ C) as O. unfold kinds in O.
  pose proof (O 0 1 f _ _ eq_refl eq_refl). pose proof (O 0 2 f _ _ eq_refl eq_refl).
  pose proof (O 0 3 f _ _ eq_refl eq_refl). pose proof (O 0 4 f _ _ eq_refl eq_refl).
  pose proof (O 1 2 f _ _ eq_refl eq_refl). pose proof (O 1 3 f _ _ eq_refl eq_refl).
  pose proof (O 1 4 f _ _ eq_refl eq_refl). pose proof (O 2 3 f _ _ eq_refl eq_refl).
  pose proof (O 2 4 f _ _ eq_refl eq_refl). pose proof (O 3 4 f _ _ eq_refl eq_refl).
  clear O. repeat split; intros; intro; (assert (0 = 1 \/ 0 = 2 \/ 0 = 3 \/ 0 = 4 \/
    1 = 2 \/ 1 = 3 \/ 1 = 4 \/ 2 = 3 \/ 2 = 4 \/ 3 = 4) as X by tauto);
    repeat (destruct X as [X|X]; [discriminate|]); discriminate.
Qed.
Print Assumptions C135_kinds_partial.
