(** C05-C13, C42, C43: the expression language.

    In all theorems [ndump] is the text of finite doubles and [H] the hash function; both arbitrary
    up to the stated hypotheses. [provided] are the functions a caller of the evaluator adds. *)
From Coq Require Import String Ascii List Bool NArith ZArith Arith SpecFloat Lia.
From Verif Require Import Common.Strs LinkedMap.Model LinkedMap.Spec LinkedMap.Proofs Path.Model.
From Verif Require Import Expr.Json Expr.JsonSpec Expr.Model Expr.Eval Expr.Spec Expr.EvalProofs Expr.DumpProofs.
From Verif Require Import Expr.HashSpec Expr.HashProofs Expr.OpsSpec Expr.OpsProofs Expr.CallProofs Expr.Witness.
Import ListNotations.
Local Open Scope string_scope.
Local Open Scope list_scope.

(** ** C05 *)

(** Values without results and nodes: equal by hash exactly if equal, or a collision is exhibited. *)
Theorem C05_hash_equality_plain_partial : forall ndump H, number_text ndump -> fixed_length H ->
  forall a b, finite ndump H a -> finite ndump H b -> plain a = true ->
  (a = b -> expr_eqb ndump H a b = true) /\
  (expr_eqb ndump H a b = true -> a = b \/ hash_collision ndump H a b).
Proof.
  intros ndump H NT FL a b Fa Fb P. split.
  - intros ->. apply String.eqb_refl.
  - intros E. destruct (eq_same ndump H NT FL a b Fa Fb E) as [S|C]; auto. left. now apply (plain_same ndump H a P b).
Qed.
Print Assumptions C05_hash_equality_plain_partial.

(** All values: results are compared by their JSON form, nodes by their description. *)
Theorem C05_hash_equality_partial : forall ndump H, number_text ndump -> fixed_length H ->
  forall a b, finite ndump H a -> finite ndump H b ->
  (same ndump H a b -> expr_eqb ndump H a b = true) /\
  (expr_eqb ndump H a b = true -> same ndump H a b \/ hash_collision ndump H a b).
Proof. intros ndump H NT FL a b Fa Fb. split; [apply same_eq|now apply (eq_same ndump H NT FL)]. Qed.
Print Assumptions C05_hash_equality_partial.

(** The "==" of the language is this equality. *)
Theorem C05_equal_operator : forall ndump H provided n e1 e2 c a b, not_shadowed provided "==" ->
  Evaluate ndump H provided n e1 c = Ok a -> Evaluate ndump H provided n e2 c = Ok b ->
  Evaluate ndump H provided (S n) (EMap [("$1", e1); ("$2", e2); ("type", EStr "==")]) c =
    if (IsCacheable a && IsCacheable b)%bool then Ok (EBool (expr_eqb ndump H a b)) else Err.
Proof. exact call_equal. Qed.
Print Assumptions C05_equal_operator.

(** Without the restriction to finite numbers the statement is false: infinity, the value of
    {"type":"*","$1":[1e308,1e308]}, equals null, and so does not-a-number, whatever the hash. *)
Theorem C05_infinite_numbers_refuted : forall ndump H,
  expr_eqb ndump H (ENum (S754_infinity false)) ENone = true /\
  expr_eqb ndump H (ENum S754_nan) ENone = true /\
  expr_eqb ndump H (ENum (S754_infinity false)) (ENum (S754_infinity true)) = true.
Proof. intros. repeat split; apply String.eqb_refl. Qed.
Print Assumptions C05_infinite_numbers_refuted.

(** Nor does it hold for results: a result providing an artifact equals one providing a map that
    imitates the artifact's description. *)
Theorem C05_results_refuted : forall ndump H, exists a b, a <> b /\
  expr_eqb ndump H a b = true /\ IsCacheable a = true /\ IsCacheable b = true.
Proof.
  intros. exists (EResult (EMap []) (EMap [("x", EArt (JObj [("type", JStr "LOCAL")]))]) (EMap []) true),
                 (EResult (EMap []) (EMap [("x", EMap [("type", EStr "LOCAL")])]) (EMap []) true).
  split; [discriminate|]. split; [apply String.eqb_refl|]. split; reflexivity.
Qed.
Print Assumptions C05_results_refuted.

Example C05_nonvacuous :
  number_text toy_ndump /\ fixed_length toy_hash /\
  finite toy_ndump toy_hash (EMap [("a", EList [ENum (S754_zero true); EStr "[x"]); ("b", EArt (JObj []))]) /\
  plain (EMap [("a", EList [ENum (S754_zero true); EStr "[x"]); ("b", EArt (JObj []))]) = true.
Proof.
  split; [exact toy_number_text|]. split; [exact toy_fixed_length|]. split; [|reflexivity]. cbn. repeat split.
Qed.

(** ** C06 *)
Theorem C06_only_mentioned_variables : forall ndump H provided,
  (forall name f, In (name, f) provided -> env_respecting f) ->
  forall n e c1 c2, (forall x, In x (mentions e) -> env_get c1 x = env_get c2 x) ->
  Evaluate ndump H provided n e c1 = Evaluate ndump H provided n e c2.
Proof. exact eval_env. Qed.
Print Assumptions C06_only_mentioned_variables.

Theorem C06_pruned_configuration : forall ndump H provided,
  (forall name f, In (name, f) provided -> env_respecting f) ->
  forall n e c xs, (forall x, In x (mentions e) -> In x xs) ->
  Evaluate ndump H provided n e (Prune c xs) = Evaluate ndump H provided n e c.
Proof.
  intros ndump H provided Hp n e c xs Hx. apply eval_env; auto. intros x Hin. unfold env_get at 1.
  rewrite prune_lookup. destruct (in_dec string_dec x xs) as [_|N]; auto. destruct N; auto.
Qed.
Print Assumptions C06_pruned_configuration.

Example C06_nonvacuous :
  let e := EMap [("$1", EList [EMap [("name", EStr "x"); ("type", EStr "var")]; EStr "z"]); ("type", EStr "join")] in
  mentions e = ["x"] /\
  Evaluate toy_ndump toy_hash [] 5 e (Link Null Null [("x", EStr "1"); ("y", EStr "2")]) = Ok (EStr "1z").
Proof. split; reflexivity. Qed.

(** ** C07 *)
Theorem C07_prune_values : forall c xs x,
  env_get (Prune c xs) x = (if in_dec string_dec x xs then env_get c x else ENone) /\
  (VariableFixed (Prune c xs) x = true <-> In x xs).
Proof.
  intros c xs x. unfold env_get at 1, VariableFixed. rewrite prune_lookup.
  destruct (in_dec string_dec x xs); split; auto; split; auto; discriminate.
Qed.
Print Assumptions C07_prune_values.

Theorem C07_prune_prune : forall c xs ys, (forall y, In y ys -> In y xs) -> Prune (Prune c xs) ys = Prune c ys.
Proof. exact prune_prune. Qed.
Print Assumptions C07_prune_prune.

Theorem C07_prune_idempotent : forall c xs, Prune (Prune c xs) xs = Prune c xs.
Proof. intros. now apply prune_prune. Qed.
Print Assumptions C07_prune_idempotent.

Theorem C07_update_values : forall c x,
  (forall k v, env_get (Update1 c k v) x = if String.eqb x k then v else env_get c x) /\
  (forall m, env_get (UpdateMap c m) x = match alookup x m with Some v => v | None => env_get c x end) /\
  (forall u, std_maps u -> env_get (UpdateExpr c u) x = match Find u x with Some v => v | None => env_get c x end).
Proof.
  intros c x. split; [|split].
  - intros k v. unfold env_get. rewrite update1_lookup. now destruct (String.eqb x k).
  - intros m. unfold env_get. rewrite update_map_lookup. now destruct (alookup x m).
  - intros u Hu. now apply update_expr_lookup.
Qed.
Print Assumptions C07_update_values.

Example C07_nonvacuous :
  let c : env := Link Null Null [("a", EStr "1"); ("b", EStr "2")] in
  env_get (Prune c ["b"; "q"]) "b" = EStr "2" /\ VariableFixed (Prune c ["b"; "q"]) "q" = true /\
  env_get (UpdateExpr c (Link Null Null [("b", EStr "3")])) "b" = EStr "3".
Proof. repeat split. Qed.

(** ** C08 *)
Theorem C08_nub_right : forall ndump H provided n e c l, not_shadowed provided "nub_right" ->
  Evaluate ndump H provided n e c = Ok (EList l) -> forallb IsCacheable l = true ->
  exists r, Evaluate ndump H provided (S n) (call "nub_right" e) c = Ok (EList r) /\
    subsequence_at (last_occurrence (expr_eqb ndump H) l) l r.
Proof.
  intros ndump H provided n e c l Hn He Hc. destruct (nub_right_spec ndump H l Hc) as (r & E & S). exists r.
  rewrite (call_unary ndump H provided n "nub_right" (NubRight ndump H) e c (EList l)); auto.
Qed.
Print Assumptions C08_nub_right.

Theorem C08_nub_left : forall ndump H provided n e c l, not_shadowed provided "nub_left" ->
  Evaluate ndump H provided n e c = Ok (EList l) -> forallb IsCacheable l = true ->
  exists r, Evaluate ndump H provided (S n) (call "nub_left" e) c = Ok (EList r) /\
    subsequence_at (first_occurrence (expr_eqb ndump H) l) l r.
Proof.
  intros ndump H provided n e c l Hn He Hc. destruct (nub_left_spec ndump H l Hc) as (r & E & S). exists r.
  rewrite (call_unary ndump H provided n "nub_left" (NubLeft ndump H) e c (EList l)); auto.
Qed.
Print Assumptions C08_nub_left.

Example C08_nonvacuous :
  NubRight toy_ndump (fun s => s) (EList [EStr "a"; EStr "b"; EStr "a"; EStr "c"; EStr "b"])
    = Ok (EList [EStr "a"; EStr "c"; EStr "b"]) /\
  NubLeft toy_ndump (fun s => s) (EList [EStr "a"; EStr "b"; EStr "a"; EStr "c"; EStr "b"])
    = Ok (EList [EStr "a"; EStr "b"; EStr "c"]).
Proof. split; reflexivity. Qed.

(** ** C09 *)
Theorem C09_enumerate_values : forall ndump H provided n e c l,
  not_shadowed provided "enumerate" -> not_shadowed provided "values" ->
  Evaluate ndump H provided n e c = Ok (EList l) -> (N.of_nat (List.length l) <= 10 ^ 10)%N ->
  Evaluate ndump H provided (S (S n)) (call "values" (call "enumerate" e)) c = Ok (EList l) /\
  exists m, Evaluate ndump H provided (S n) (call "enumerate" e) c = Ok (EMap m) /\ sorted_keys m /\
    List.length m = List.length l /\
    forall i, i < List.length l -> exists k, nth_error (map fst m) i = Some k /\
      String.length k = 10 /\ decimal_value 0 k = Some (N.of_nat i).
Proof.
  intros ndump H provided n e c l H1 H2 He Hl. destruct (enumerate_values l Hl) as (m & E & V & S1 & K & L).
  assert (Ee : Evaluate ndump H provided (S n) (call "enumerate" e) c = Ok (EMap m)).
  { rewrite (call_unary ndump H provided n "enumerate" Enumerate e c (EList l)); auto. }
  split.
  - rewrite (call_unary ndump H provided (S n) "values" ValuesE (call "enumerate" e) c (EMap m)); auto.
  - exists m. split; auto. split; auto. split; auto. intros i Hi. exists (dec10 (N.of_nat i)). split; auto. split.
    + apply dec10_len. lia.
    + apply dec10_value.
Qed.
Print Assumptions C09_enumerate_values.

Example C09_nonvacuous :
  Evaluate toy_ndump toy_hash [] 5 (call "enumerate" (EList [EStr "x"; EStr "y"])) Null =
    Ok (EMap [("0000000000", EStr "x"); ("0000000001", EStr "y")]).
Proof. reflexivity. Qed.

(** ** C10 *)
Theorem C10_join_cmd_posix : forall ndump H provided n e c ws, not_shadowed provided "join_cmd" ->
  Evaluate ndump H provided n e c = Ok (EList (map EStr ws)) ->
  exists s, Evaluate ndump H provided (S n) (call "join_cmd" e) c = Ok (EStr s) /\ shell_split s = Some ws.
Proof. exact call_join_cmd. Qed.
Print Assumptions C10_join_cmd_posix.

Example C10_nonvacuous :
  Evaluate toy_ndump toy_hash [] 5 (call "join_cmd" (EList [EStr "it's"; EStr ""; EStr "a \ b"])) Null =
    Ok (EStr "'it'\''s' '' 'a \ b'") /\
  shell_split "'it'\''s' '' 'a \ b'" = Some ["it's"; ""; "a \ b"].
Proof. split; reflexivity. Qed.

(** ** C11 *)
Theorem C11_escape_reversible : forall ndump H provided n e c s chars p,
  not_shadowed provided "escape_chars" -> has_char p chars = true ->
  Evaluate ndump H provided n e c = Ok (EStr s) -> 1 <= n ->
  exists t, Evaluate ndump H provided (S n)
      (EMap [("$1", e); ("chars", EStr chars); ("escape_prefix", EStr (String p "")); ("type", EStr "escape_chars")]) c
    = Ok (EStr t) /\ unescape p t = s.
Proof. exact call_escape. Qed.
Print Assumptions C11_escape_reversible.

Example C11_nonvacuous :
  Evaluate toy_ndump toy_hash [] 5
      (EMap [("$1", EStr "a\""b"); ("chars", EStr """\"); ("escape_prefix", EStr "\"); ("type", EStr "escape_chars")]) Null
    = Ok (EStr "a\\\""b") /\ unescape "\" "a\\\""b" = "a\""b".
Proof. split; reflexivity. Qed.

(** ** C12 *)
Theorem C12_to_subdir_exact : forall ndump H provided n e c subdir (flat : bool) d,
  not_shadowed provided "to_subdir" -> Evaluate ndump H provided n e c = Ok (EMap d) -> 1 <= n -> sorted_keys d ->
  let new_path (k : string) := ToNormalPath (append subdir (if flat then filename k else k)) in
  let to_subdir := EMap [("$1", e); ("flat", EBool flat); ("subdir", EStr subdir); ("type", EStr "to_subdir")] in
  (Evaluate ndump H provided (S n) to_subdir c = Err /\ clash (expr_eqb ndump H) new_path d) \/
  (exists r, Evaluate ndump H provided (S n) to_subdir c = Ok (EMap r) /\
     staged (expr_eqb ndump H) new_path d r /\ ~ clash (expr_eqb ndump H) new_path d).
Proof. exact call_to_subdir. Qed.
Print Assumptions C12_to_subdir_exact.

Example C12_nonvacuous :
  ToSubdir toy_ndump (fun s => s) [("a/x", EStr "1"); ("b", EStr "2")] "lib/./q" false =
    Ok (EMap [("lib/q/a/x", EStr "1"); ("lib/q/b", EStr "2")]) /\
  ToSubdir toy_ndump (fun s => s) [("a/x", EStr "1"); ("b/x", EStr "2")] "lib" true = Err /\
  ToSubdir toy_ndump (fun s => s) [("a/x", EStr "1"); ("b/x", EStr "1")] "lib" true = Ok (EMap [("lib/x", EStr "1")]).
Proof. repeat split. Qed.

(** ** C13 *)

(** The whole claim: [forall e, wf e -> unmarked e = true -> Evaluate ... (call "`" e) c = Ok e]. Missing,
    because the program fails there: expressions in which a list has a map as an element. *)
Theorem C13_quasi_literal_partial : forall ndump H provided n e c, not_shadowed provided "`" ->
  wf e -> unmarked e = true -> no_map_in_list e = true ->
  Evaluate ndump H provided (S n) (call "`" e) c = Ok e.
Proof. intros. rewrite call_quasi; auto. now rewrite H3. Qed.
Print Assumptions C13_quasi_literal_partial.

Theorem C13_map_in_list_refuted : forall ndump H provided n e c, not_shadowed provided "`" ->
  wf e -> unmarked e = true -> no_map_in_list e = false ->
  Evaluate ndump H provided (S n) (call "`" e) c = Err.
Proof. intros. rewrite call_quasi; auto. now rewrite H3. Qed.
Print Assumptions C13_map_in_list_refuted.

Example C13_nonvacuous :
  let good := EMap [("a", EList [EStr "x"; EList [ENone]]); ("b", EMap [])] in
  let bad := EList [EMap [("a", EStr "x")]] in
  (wf good /\ unmarked good = true /\ no_map_in_list good = true) /\
  (wf bad /\ unmarked bad = true /\ no_map_in_list bad = false) /\
  Evaluate toy_ndump toy_hash [] 9 (call "`" bad) Null = Err.
Proof. cbn. repeat split; repeat constructor; unfold key_lt; cbn; auto. Qed.

(** ** C42 *)
Theorem C42_evaluation_terminates : forall ndump H e c n, depth e <= n ->
  Evaluate ndump H [] n e c <> OutOfFuel /\
  Evaluate ndump H [] n e c = Evaluate ndump H [] (depth e) e c.
Proof.
  intros ndump H e c n Hn. split; [now apply eval_terminates|].
  apply eval_fuel; auto; [intros ? ? []|]. now apply eval_terminates.
Qed.
Print Assumptions C42_evaluation_terminates.

Example C42_nonvacuous :
  let e := EMap [("body", EMap [("$1", EList [EMap [("name", EStr "_"); ("type", EStr "var")]; EStr "!"]); ("type", EStr "join")]);
                 ("range", EList [EStr "a"; EStr "b"]); ("type", EStr "foreach")] in
  depth e = 5 /\ Evaluate toy_ndump toy_hash [] 5 e Null = Ok (EList [EStr "a!"; EStr "b!"]).
Proof. split; reflexivity. Qed.

(** ** C43 *)
Theorem C43_json_encode_injective : forall ndump H, number_text ndump ->
  forall provided n e1 e2 c1 c2 a b t, not_shadowed provided "json_encode" ->
  Evaluate ndump H provided n e1 c1 = Ok a -> Evaluate ndump H provided n e2 c2 = Ok b ->
  json_value a = true -> json_value b = true -> finite ndump H a -> finite ndump H b ->
  Evaluate ndump H provided (S n) (call "json_encode" e1) c1 = Ok t ->
  Evaluate ndump H provided (S n) (call "json_encode" e2) c2 = Ok t -> a = b.
Proof. exact json_encode_injective. Qed.
Print Assumptions C43_json_encode_injective.

(** C43: the text of a value is not a proper prefix of another's followed by a delimiter: texts of
    JSON values are distinct for distinct values. *)
Theorem C43_json_text_injective : forall ndump, number_text ndump ->
  forall j1 j2, json_ok j1 -> json_ok j2 -> dump ndump j1 = dump ndump j2 -> j1 = j2.
Proof. exact dump_injective. Qed.
Print Assumptions C43_json_text_injective.

Example C43_nonvacuous :
  Evaluate toy_ndump toy_hash [] 5 (call "json_encode" (EList [EStr "a""b"; ENone; EBool true])) Null =
    Ok (EStr "[""a\""b"",null,true]").
Proof. reflexivity. Qed.
