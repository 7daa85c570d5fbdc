(** The operations as seen through the evaluator. *)
From Coq Require Import String Ascii List Bool NArith ZArith Arith SpecFloat Lia.
From Verif Require Import Common.Strs LinkedMap.Model LinkedMap.Spec LinkedMap.Proofs LinkedMap.Extra Path.Model.
From Verif Require Import Expr.Json Expr.JsonSpec Expr.Model Expr.Eval Expr.Spec Expr.EvalProofs Expr.DumpProofs.
From Verif Require Import Expr.HashSpec Expr.HashProofs Expr.OpsSpec Expr.OpsProofs.
Import ListNotations.
Local Open Scope string_scope.
Local Open Scope list_scope.
Local Infix "^^" := String.append (at level 60, right associativity).

Lemma update_expr_lookup (c u : env) x : std_maps u ->
  env_get (UpdateExpr c u) x = match Find u x with Some v => v | None => env_get c x end.
Proof.
  intros Hu. unfold UpdateExpr, env_get. destruct (empty u) eqn:E.
  - now rewrite (proj1 (empty_Find u Hu) E x).
  - cbn [Find alookup]. destruct u; [discriminate|]. cbn [IsNotNull].
    destruct (Find _ x); auto. destruct c; auto.
Qed.

Section Calls.
Variable ndump : num -> string.
Variable H : string -> string.
Variable provided : list (string * function).
Local Notation eval := (Evaluate ndump H provided).
Local Notation eqb := (expr_eqb ndump H).

Ltac go ty := intros; unfold call; erewrite (eval_builtin ndump H provided _ ty); eauto; try reflexivity.

Lemma call_unary n ty f e c v : not_shadowed provided ty ->
  alookup ty (kBuiltInFunctions ndump H) = Some (UnaryExpr f) ->
  eval n e c = Ok v -> eval (S n) (call ty e) c = f v.
Proof. intros Hn Hf He. go ty. unfold UnaryExpr, EvalArgument, Field. cbn [alookup]. cbn. rewrite He. reflexivity. Qed.

Lemma call_join_cmd n e c ws : not_shadowed provided "join_cmd" -> eval n e c = Ok (EList (map EStr ws)) ->
  exists s, eval (S n) (call "join_cmd" e) c = Ok (EStr s) /\ shell_split s = Some ws.
Proof.
  intros Hn He. go "join_cmd". unfold JoinCmdExpr, Get. cbn [alookup]. cbn. rewrite He. cbn [bind].
  unfold Join. rewrite mapM_strs. cbn [bind]. eexists. split; [reflexivity|]. apply join_cmd_split.
Qed.

Lemma call_quasi n e c : not_shadowed provided "`" -> wf e -> unmarked e = true ->
  eval (S n) (call "`" e) c = if no_map_in_list e then Ok e else Err.
Proof.
  intros Hn Hw Hu. go "`". unfold QuasiQuoteExpr. cbn [alookup]. cbn. now apply literal_quasi_exact.
Qed.

Lemma call_escape n e c s chars p : not_shadowed provided "escape_chars" -> has_char p chars = true ->
  eval n e c = Ok (EStr s) -> 1 <= n ->
  exists t, eval (S n) (EMap [("$1", e); ("chars", EStr chars); ("escape_prefix", EStr (String p "")); ("type", EStr "escape_chars")]) c
    = Ok (EStr t) /\ unescape p t = s.
Proof.
  intros Hn Hp He Hl. go "escape_chars". unfold EscapeCharsExpr, Get. cbn [alookup]. cbn. rewrite He. cbn [bind].
  destruct n; [lia|]. cbn [Evaluate bind as_str]. destruct (escape_roundtrip chars p Hp s) as (t & E & U).
  rewrite E. cbn. eauto.
Qed.

Lemma staged_nil nk : staged eqb nk [] [].
Proof. split; [constructor|]. split; [cbn; discriminate|intros ? ? []]. Qed.

Lemma to_subdir_exact (flat : bool) subdir d : sorted_keys d ->
  let new_path (k : string) := ToNormalPath (append subdir (if flat then filename k else k)) in
  (ToSubdir ndump H d subdir flat = Err /\ clash eqb new_path d) \/
  (exists r, ToSubdir ndump H d subdir flat = Ok (EMap r) /\ staged eqb new_path d r /\ ~ clash eqb new_path d).
Proof.
  intros Hs nk. destruct (stage_loop ndump H nk flat d [] []) as [[E C]|(r & E & S1 & C)]; auto.
  - intros p q [].
  - apply staged_nil.
  - intros (k1 & v1 & ? & ? & [] & _).
  - left. split; auto. unfold ToSubdir. change (subdir_key flat subdir) with nk. rewrite E. reflexivity.
  - right. exists r. split; auto. unfold ToSubdir. change (subdir_key flat subdir) with nk. rewrite E. reflexivity.
Qed.

Lemma call_to_subdir n e c subdir (flat : bool) d : not_shadowed provided "to_subdir" -> eval n e c = Ok (EMap d) -> 1 <= n ->
  sorted_keys d ->
  let new_path (k : string) := ToNormalPath (append subdir (if flat then filename k else k)) in
  let call := EMap [("$1", e); ("flat", EBool flat); ("subdir", EStr subdir); ("type", EStr "to_subdir")] in
  (eval (S n) call c = Err /\ clash eqb new_path d) \/
  (exists r, eval (S n) call c = Ok (EMap r) /\ staged eqb new_path d r /\ ~ clash eqb new_path d).
Proof.
  intros Hn He Hl Hs nk cl.
  assert (eval (S n) cl c = ToSubdir ndump H d subdir flat) as ->; [|now apply to_subdir_exact].
  unfold cl. go "to_subdir". unfold ToSubdirExpr, Field, Get. cbn [alookup]. cbn. rewrite He. cbn [bind].
  destruct n; [lia|]. cbn [Evaluate bind as_str as_map]. destruct flat; reflexivity.
Qed.

Lemma call_equal n e1 e2 c a b : not_shadowed provided "==" -> eval n e1 c = Ok a -> eval n e2 c = Ok b ->
  eval (S n) (EMap [("$1", e1); ("$2", e2); ("type", EStr "==")]) c =
    if (IsCacheable a && IsCacheable b)%bool then Ok (EBool (eqb a b)) else Err.
Proof.
  intros Hn Ha Hb. go "==". unfold EqualExpr, EvalArgument, Field. cbn [alookup]. cbn. rewrite Ha, Hb. cbn [bind].
  destruct (IsCacheable a); cbn; auto.
Qed.

Lemma call_json n e c v : not_shadowed provided "json_encode" -> eval n e c = Ok v ->
  eval (S n) (call "json_encode" e) c =
    let j := ToJson ndump H NullForNonJson v in if json_utf8 j then Ok (EStr (dump ndump j)) else Err.
Proof.
  intros Hn He. go "json_encode". unfold JsonEncodeExpr, Get. cbn [alookup]. cbn. rewrite He. reflexivity.
Qed.

End Calls.

Section Enc.
Variable ndump : num -> string.
Variable H : string -> string.
Hypothesis NT : number_text ndump.

Lemma json_value_ok e : json_value e = true -> finite ndump H e -> json_ok (ToJson ndump H NullForNonJson e).
Proof.
  induction e using expr_ind'; intros Hj Hf; try discriminate; try exact I; auto.
  - cbn in Hj, Hf |- *. induction l as [|x l IH]; [exact I|]. cbn in Hj, Hf |- *. apply andb_prop in Hj as [J1 J2].
    inversion H0; subst. destruct Hf. split; auto.
  - cbn in Hj, Hf |- *. induction m as [|[k x] l IH]; [exact I|]. cbn in Hj, Hf |- *. apply andb_prop in Hj as [J1 J2].
    inversion H0; subst. destruct Hf. split; auto.
Qed.

Lemma json_value_inj a : forall b, json_value a = true -> json_value b = true ->
  ToJson ndump H NullForNonJson a = ToJson ndump H NullForNonJson b -> a = b.
Proof.
  induction a using expr_ind'; intros bb Ha Hb E; destruct bb; try discriminate; cbn in E; try (now inversion E).
  - f_equal. injection E as E. cbn in Ha, Hb. revert l0 Hb E. induction l as [|x l IH]; intros [|y l0] Hb E; try discriminate; auto.
    cbn in *. apply andb_prop in Ha as [A1 A2]. apply andb_prop in Hb as [B1 B2]. inversion H0; subst. injection E as E1 E2.
    f_equal; auto.
  - f_equal. injection E as E. cbn in Ha, Hb. match goal with |- _ = ?x => revert x Hb E end. induction m as [|[k x] l IH]; intros [|[k' y] l0] Hb E; try discriminate; auto.
    cbn in *. apply andb_prop in Ha as [A1 A2]. apply andb_prop in Hb as [B1 B2]. inversion H0; subst. injection E as E1 E2 E3.
    f_equal; [f_equal|]; auto.
Qed.

Lemma json_encode_injective provided n e1 e2 c1 c2 a b t : not_shadowed provided "json_encode" ->
  Evaluate ndump H provided n e1 c1 = Ok a -> Evaluate ndump H provided n e2 c2 = Ok b ->
  json_value a = true -> json_value b = true -> finite ndump H a -> finite ndump H b ->
  Evaluate ndump H provided (S n) (call "json_encode" e1) c1 = Ok t ->
  Evaluate ndump H provided (S n) (call "json_encode" e2) c2 = Ok t -> a = b.
Proof.
  intros Hn Ea Eb Ja Jb Fa Fb. rewrite (call_json ndump H provided n e1 c1 a), (call_json ndump H provided n e2 c2 b) by auto.
  cbv zeta. do 2 (destruct (json_utf8 _); [|discriminate]). intros E1 E2. rewrite <- E1 in E2. injection E2 as E2.
  apply json_value_inj; auto. symmetry. apply (dump_injective ndump NT); auto using json_value_ok.
Qed.

Variable FL : fixed_length H.

(** Equality as decided by the hash. *)
Lemma eq_same a b : finite ndump H a -> finite ndump H b ->
  expr_eqb ndump H a b = true -> same ndump H a b \/ hash_collision ndump H a b.
Proof. intros Fa Fb E. apply String.eqb_eq in E. now apply (hash_same ndump H NT FL a Fa b Fb). Qed.
Lemma same_eq a b : same ndump H a b -> expr_eqb ndump H a b = true.
Proof. intros E. apply String.eqb_eq. now apply same_hash. Qed.
End Enc.
