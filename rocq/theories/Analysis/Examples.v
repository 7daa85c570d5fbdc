(** A small world: a library depending on the operating system, a compiler rule with a transition, a test
    rule with an action that may fail, and exports. *)
From Coq Require Import String Ascii List Bool Arith ZArith.
From Verif Require Import Common.Strs LinkedMap.Model LinkedMap.Proofs Path.Model Expr.Json Expr.Model Describe.Model.
From Verif Require Import Analysis.Stage Analysis.Model Analysis.Spec Analysis.Crash.
Import ListNotations.
Local Open Scope string_scope.
Local Open Scope list_scope.
Local Open Scope nat_scope.

Definition var (x : string) : expr := EList [EStr "var"; EStr x].
Definition debug : expr := EMap [("MODE", EStr "debug")].

(** The defining expressions: compile the artifacts of the dependencies. *)
Definition compile (may_fail : expr) (c : env) : script :=
  SCall (CField (EStr "deps")) (fun d =>
  match d with
  | Some (EList [dep]) =>
      SCall (CDepArtifacts dep debug) (fun m =>
      match m with
      | Some m =>
          SCall (CAction (mkArgs m (EList [EStr "./out"]) (EList []) (EList [EStr "cc"; env_get c "ARCH"]) (EStr "work")
                   (EMap []) may_fail (EStr "may fail") (EList []) ENone ENone)) (fun o =>
          match o with
          | Some o => SCall (CResult o (EMap []) (EMap [])) (fun r => match r with Some r => SRet r | None => SErr end)
          | None => SErr
          end)
      | None => SErr
      end)
  | _ => SErr
  end).

Definition ex_eval (e : expr) (c : env) : script :=
  match e with
  | EList [EStr "var"; EStr x] => SRet (env_get c x)
  | EStr "compile" => compile (EList []) c
  | EStr "test" => compile (EList [EStr "test"]) c
  | EStr "fail" => SErr
  | v => SRet v
  end.

Definition ex_rule (body : string) (tainted : list string) : rule :=
  mkRule ["deps"] [] [] [] [] ["ARCH"] tainted (fun _ => EList [debug]) (EStr body).
Definition ex_data (dep : string) : target_data :=
  mkData [] (fun _ => EList []) (fun _ => EList []) (fun _ => EList [EStr dep]) (EList []) true.

Definition ex_definition (t : target) : tdef :=
  match t with
  | JStr "lib" => DBlobGen File ["MODE"; "OS"] (EList []) (EStr "lib.c") (var "OS") (EList [])
  | JStr "bin" => DRule (ex_rule "compile" []) (ex_data "lib")
  | JStr "check" => DRule (ex_rule "test" ["test"]) (ex_data "lib")
  | JStr "out" => DExport ["ARCH"] (EStr "bin") (EMap [("OS", EStr "linux")])
  | JStr "out check" => DExport ["ARCH"] (EStr "check") (EMap [])
  | JStr "use" => DInstall [] (EList []) (EMap [("bin/x", EStr "out")]) (EList []) (EList [])
  | JStr "for arm" => DConfigure [] (EStr "bin") (EMap [("ARCH", EStr "arm")]) (EList [])
  | JStr "bad" => DGeneric [] (EStr "fail") (EList []) (EList []) (EList []) (EStr "") (EMap []) ENone ENone ENone (EList [])
  | _ => DError
  end.

(** Equality of names, expressions and configurations. *)
Definition num_dec (a b : num) : {a = b} + {a <> b}.
Proof. decide equality; try apply Bool.bool_dec; try apply Pos.eq_dec; apply Z.eq_dec. Defined.
Definition pair_dec {A} (d : forall a b : A, {a = b} + {a <> b}) (p q : string * A) : {p = q} + {p <> q}.
Proof. decide equality. apply string_dec. Defined.
Fixpoint json_dec (a b : json) {struct a} : {a = b} + {a <> b}.
Proof.
  decide equality; try apply Bool.bool_dec; try apply string_dec; try apply Z.eq_dec; try apply num_dec.
  - exact (list_eq_dec json_dec l l0).
  - exact (list_eq_dec (pair_dec json_dec) m m0).
Defined.
Fixpoint expr_dec (a b : expr) {struct a} : {a = b} + {a <> b}.
Proof.
  decide equality; try apply Bool.bool_dec; try apply string_dec; try apply json_dec; try apply num_dec.
  - exact (list_eq_dec expr_dec l l0).
  - exact (list_eq_dec (pair_dec expr_dec) m m0).
Defined.
Fixpoint env_dec (a b : env) {struct a} : {a = b} + {a <> b}.
Proof. decide equality. exact (list_eq_dec (pair_dec expr_dec) m m0). Defined.

Definition ex_world : world :=
  mkWorld ex_definition
    (fun _ e => match e with EStr s => Some (JStr s) | _ => None end)
    ex_eval
    (fun a b => JNull)
    (fun a b => if json_dec a b then true else false)
    (fun a b => if expr_dec a b then true else false)
    (fun _ => "1") (fun _ => "1") (fun s => s)
    (fun s => mkDigest s false 0%N)
    (fun _ => JNull) (fun _ _ _ => JNull)
    (fun a b => if env_dec a b then true else false)
    (fun t c => match t with JStr s => Some (match env_get c "ARCH" with EStr a => ("key " ++ s ++ " " ++ a)%string | _ => s end) | _ => None end)
    (fun _ => SNothing) (fun _ => SNothing).

Lemma ex_faithful : faithful_equality ex_world.
Proof.
  split; cbn.
  - intros a b. destruct (json_dec a b); [auto|discriminate].
  - intros a b. destruct (expr_dec a b); [auto|discriminate].
  - intros a. destruct (env_dec a a); auto.
  - intros a b. destruct (env_dec a b); [now subst|discriminate].
Qed.
Lemma ex_sources : source_children ex_world.
Proof.
  intros t name children H. exfalso. cbn in H. unfold ex_definition in H.
  repeat match type of H with context [match ?x with _ => _ end] => destruct x; try discriminate H end.
Qed.

Definition conf (l : list (string * expr)) : env := Link Null Null l.
Definition on_x86 := conf [("ARCH", EStr "x86"); ("MODE", EStr "release"); ("OS", EStr "linux")].
Definition on_x86' := conf [("ARCH", EStr "x86"); ("MODE", EStr "opt"); ("OS", EStr "linux"); ("USER", EStr "me")].
Definition on_arm := conf [("ARCH", EStr "arm"); ("OS", EStr "linux")].
Definition result_of (t : string) (c : env) : outcome := analyse ex_world 5 (JStr t, c).
Definition vars_of (o : outcome) : list string := match o with ODone a => an_vars a | _ => ["?"] end.
Definition tainted_of (o : outcome) : list string := match o with ODone a => an_tainted a | _ => ["?"] end.
Definition implied_of' (o : outcome) : list string := match o with ODone a => an_implied a | _ => ["?"] end.
Definition actions_of (o : outcome) : list (list string * list string) :=
  match o with ODone a => map (fun x => (ra_outs x, ra_command x)) (an_actions a) | _ => [] end.
Definition stage_of (o : outcome) : list string := match o with ODone a => keys (t_stage (an_result a)) | _ => ["?"] end.
Definition failed (o : outcome) : bool := match o with OFail => true | _ => false end.

Example bin_ok : vars_of (result_of "bin" on_x86) = ["ARCH"; "OS"] /\
  actions_of (result_of "bin" on_x86) = [(["out"], ["cc"; "x86"])] /\ stage_of (result_of "bin" on_x86) = ["out"].
Proof. vm_compute. auto. Qed.
