(** Worlds for the statements about stages: one with properly spelt names, and one without. *)
From Coq Require Import String Ascii List Bool Arith ZArith.
From Verif Require Import Common.Strs LinkedMap.Model LinkedMap.Proofs Path.Model Path.Spec Expr.Json Expr.Model Describe.Model.
From Verif Require Import Analysis.Stage Analysis.Model Analysis.Spec Analysis.HonestSpec Analysis.Proofs Analysis.Crash Analysis.Examples Analysis.StageSpec.
Import ListNotations.
Local Open Scope string_scope.
Local Open Scope list_scope.
Local Open Scope nat_scope.

Definition with_definitions (f : target -> tdef) : world :=
  mkWorld f (w_parse ex_world) ex_eval (w_anon ex_world) (w_target_eqb ex_world) (w_expr_eqb ex_world) (w_ndump ex_world)
    (w_ftext ex_world) (w_hash ex_world) (w_blob ex_world) (w_node_value ex_world) (w_node_abstract ex_world)
    (w_same_config ex_world) (w_cache_key ex_world) (w_served ex_world) (w_served_absent ex_world).
Definition stage_world := with_definitions ex_definition.

Lemma with_definitions_faithful f : faithful_equality (with_definitions f).
Proof. destruct ex_faithful as [A B C D]. constructor; [exact A|exact B|exact C|exact D]. Qed.

Lemma compile_honest mf c : honest (fun _ => False) (compile mf c).
Proof.
  unfold compile. cbn [honest call_within]. split; [exact I|]. intros [d|]; [|exact I].
  destruct d as [| | | | | | | |l|]; try exact I. destruct l as [|dep [|]]; try exact I.
  cbn [honest call_within]. split; [exact I|]. intros [m|]; [|exact I]. cbn [honest call_within g_inputs]. split; [auto|].
  intros [o|]; [|exact I]. cbn [honest call_within]. split; [intros x [Hx|[[]|[]]]; auto|].
  intros [r|]; [|exact I]. cbn [honest]. auto.
Qed.
Lemma ex_eval_honest e c : plain e -> plain_env c -> honest (fun _ => False) (ex_eval e c).
Proof.
  intros He Hc. unfold ex_eval.
  repeat match goal with |- honest _ (match ?x with _ => _ end) => destruct x end;
    first [exact I|exact (compile_honest _ _)|exact He|idtac].
  intros x Hx. unfold env_get in Hx. match type of Hx with context [Find c ?y] => destruct (Find c y) as [v|] eqn:E end; [|exact Hx]. exact (Hc _ _ E x Hx).
Qed.
Lemma stage_world_honest f : honest_evaluator (with_definitions f).
Proof. intros e c. apply ex_eval_honest. Qed.
Lemma stage_world_plain : plain_definitions stage_world.
Proof.
  intros t. cbn. destruct (ex_definition t) as [|st|sts|nm tr|nm ch|r|r dd|ty vars deps nm data tn|dj vars deps nm tn|vars deps files dirs tn
    |vars deps outs od cmds cwd env_e sh tmo props tn|vars te ce tn|fl te fx|fl] eqn:E; try exact I; unfold ex_definition in E;
    repeat match type of E with context [match ?x with _ => _ end] => destruct x; try discriminate E end;
    inversion E; subst; try (split; [|intros n]); intros x Hx; cbn in Hx; tauto.
Qed.
Lemma plain_flat m : forallb (fun p => match snd p with EStr _ => true | _ => false end) m = true -> plain_env (conf m).
Proof.
  intros H x v Hv. cbn in Hv. destruct (alookup x m) as [w|] eqn:E; [|discriminate]. injection Hv as <-. apply alookup_In in E.
  rewrite forallb_forall in H. specialize (H _ E). cbn in H. destruct w; try discriminate. intros y [].
Qed.

Lemma stage_world_named : properly_named stage_world.
Proof.
  constructor.
  - exact (stage_world_honest _).
  - exact stage_world_plain.
  - intros t st H. exfalso. cbn in H. unfold ex_definition in H.
    repeat match type of H with context [match ?x with _ => _ end] => destruct x; try discriminate H end.
  - intros t st H. exfalso. cbn in H. unfold ex_definition in H.
    repeat match type of H with context [match ?x with _ => _ end] => destruct x; try discriminate H end.
  - intros t n j H. exfalso. cbn in H. unfold ex_definition in H.
    repeat match type of H with context [match ?x with _ => _ end] => destruct x; try discriminate H end.
  - intros t n j H. exfalso. cbn in H. unfold ex_definition in H.
    repeat match type of H with context [match ?x with _ => _ end] => destruct x; try discriminate H end.
  - intros t r H. exfalso. cbn in H. unfold ex_definition in H.
    repeat match type of H with context [match ?x with _ => _ end] => destruct x; try discriminate H end.
  - intros k r im [H|H]; discriminate.
  - intros t c a Ht Ha e He. apply analyses_inv in Ha. unfold program_of in Ha.
    destruct (w_definition stage_world t) as [| | | | | | |ty vars deps nm data tn|dj vars deps nm tn| | | | |] eqn:Ed; try contradiction.
    + assert (nm = EStr "lib.c") as ->.
      { cbn in Ed. unfold ex_definition in Ed.
        repeat match type of Ed with context [match ?x with _ => _ end] => destruct x; try discriminate Ed end. congruence. }
      unfold blob_gen in Ha. apply rp_bind in Ha as (v0 & _ & Ha). apply rp_bind in Ha as (nms & _ & Ha). apply rp_req in Ha as (vs & _ & Ha).
      unfold blob_gen_with_deps in Ha. cbv zeta in Ha. apply rp_bind in Ha as (tl & _ & Ha). apply rp_if in Ha as [[_ Ha]|[_ Ha]]; [|inversion Ha].
      apply rp_bind in Ha as (nv & Env & Ha). cbn in Env. injection Env as <-.
      apply rp_bind in Ha as (dv & _ & Ha). destruct dv as [| | |s| | | | | |]; try (now inversion Ha).
      apply rp_if in Ha as [[_ Ha]|[_ Ha]]; [|inversion Ha]. apply rp_pdone in Ha. subst a. cbn in He. destruct He as [<-|[]].
      repeat split; reflexivity.
    + exfalso. cbn in Ed. unfold ex_definition in Ed.
      repeat match type of Ed with context [match ?x with _ => _ end] => destruct x; try discriminate Ed end.
  - intros t vars deps fm dirs tn Ed.
    assert (fm = [("bin/x", EStr "out")]) as ->.
    { cbn in Ed. unfold ex_definition in Ed.
      repeat match type of Ed with context [match ?x with _ => _ end] => destruct x; try discriminate Ed end. congruence. }
    intros e [<-|[]]. reflexivity.
Qed.

(** Names that are not proper: a generated file outside, and two spellings of one path. *)
Definition odd_world := with_definitions (fun t =>
  match t with
  | JStr "up" => DBlobGen File [] (EList []) (EStr "../x") (EStr "") (EList [])
  | JStr "a" => DBlobGen File [] (EList []) (EStr "a") (EStr "one") (EList [])
  | JStr "b" => DBlobGen File [] (EList []) (EStr "b") (EStr "two") (EList [])
  | JStr "twice" => DInstall [] (EList []) (EMap [("./x", EStr "a"); ("x", EStr "b")]) (EList []) (EList [])
  | _ => DError
  end).
