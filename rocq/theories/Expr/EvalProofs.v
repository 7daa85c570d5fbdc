(** Evaluation: dependence on the environment and termination. *)
From Coq Require Import String Ascii List Bool NArith ZArith Arith SpecFloat Lia.
From Verif Require Import Common.Strs LinkedMap.Model Path.Model Expr.Json Expr.Model Expr.Eval Expr.Spec.
Import ListNotations.
Local Open Scope string_scope.
Local Open Scope list_scope.

Definition le {A} (r1 r2 : res A) : Prop := r1 = OutOfFuel \/ r1 = r2.

Lemma le_refl {A} (r : res A) : le r r. Proof. now right. Qed.
Lemma bind_le {A B} (r1 r2 : res A) (f1 f2 : A -> res B) :
  le r1 r2 -> (forall a, le (f1 a) (f2 a)) -> le (bind r1 f1) (bind r2 f2).
Proof. intros [->| ->] Hf; [now left|]. destruct r2; cbn; auto using le_refl. Qed.
Lemma bind_le_same {A B} (r : res A) (f1 f2 : A -> res B) :
  (forall a, r = Ok a -> le (f1 a) (f2 a)) -> le (bind r f1) (bind r f2).
Proof. intros Hf. destruct r; cbn; auto using le_refl. Qed.
Lemma mapM_le {A B} (f1 f2 : A -> res B) l :
  (forall x, In x l -> le (f1 x) (f2 x)) -> le (mapM f1 l) (mapM f2 l).
Proof.
  induction l as [|x r IH]; intros Hf; [apply le_refl|]. cbn. apply bind_le; [apply Hf; now left|].
  intros y. apply bind_le; [apply IH; intros; apply Hf; now right|]. intros. apply le_refl.
Qed.
Lemma foldM_le {A B} (P : B -> B -> Prop) (f1 f2 : B -> A -> res B) l :
  (forall x b, In x l -> le (f1 b x) (f2 b x)) -> forall b, le (foldM f1 l b) (foldM f2 l b).
Proof.
  induction l as [|x r IH]; intros Hf b; [apply le_refl|]. cbn. apply bind_le; [apply Hf; now left|].
  intros y. apply IH; intros; apply Hf; now right.
Qed.

(** Related results carrying related values. *)
Definition leR {A} (R : A -> A -> Prop) (r1 r2 : res A) : Prop :=
  r1 = OutOfFuel \/ (r1 = Err /\ r2 = Err) \/ exists a b, r1 = Ok a /\ r2 = Ok b /\ R a b.
Lemma leR_bind {A B} (R : A -> A -> Prop) r1 r2 (f1 f2 : A -> res B) :
  leR R r1 r2 -> (forall a b, R a b -> le (f1 a) (f2 b)) -> le (bind r1 f1) (bind r2 f2).
Proof. intros [->|[[-> ->]|(a & b & -> & -> & HR)]] Hf; cbn; auto; [now left|now right]. Qed.
Lemma foldM_leR {A B} (R : B -> B -> Prop) (f1 f2 : B -> A -> res B) l :
  (forall x b1 b2, In x l -> R b1 b2 -> leR R (f1 b1 x) (f2 b2 x)) ->
  forall b1 b2, R b1 b2 -> leR R (foldM f1 l b1) (foldM f2 l b2).
Proof.
  induction l as [|x r IH]; intros Hf b1 b2 HR; cbn. { right; right. eauto. }
  destruct (Hf x b1 b2 (or_introl eq_refl) HR) as [->|[[-> ->]|(a & b & -> & -> & HR')]]; cbn.
  - now left.
  - right. left. auto.
  - apply IH; auto. intros. apply Hf; auto. now right.
Qed.

Section P.
Variable ndump : num -> string.
Variable H : string -> string.

Definition ok (X : string -> Prop) (e : expr) : Prop := forall x, In x (mentions e) -> X x.

Lemma ok_entry X m k v : ok X (EMap m) -> In (k, v) m -> ok X v.
Proof.
  intros Ho Hi x Hx. apply Ho. cbn. apply in_or_app. right. apply in_concat.
  exists (mentions v). split; [|exact Hx]. apply in_map_iff. now exists (k, v).
Qed.
Lemma ok_lookup X m k v : ok X (EMap m) -> alookup k m = Some v -> ok X v.
Proof. intros Ho Hl. eapply ok_entry; eauto using alookup_In. Qed.
Lemma ok_elem X l v : ok X (EList l) -> In v l -> ok X v.
Proof.
  intros Ho Hi x Hx. apply Ho. cbn. apply in_concat. exists (mentions v). split; [|exact Hx].
  now apply in_map.
Qed.
Lemma ok_Get X m k d : ok X (EMap m) -> ok X d -> ok X (Get m k d).
Proof. intros Ho Hd. unfold Get. destruct (alookup k m) eqn:E; eauto using ok_lookup. Qed.
Lemma ok_Field X m k v : ok X (EMap m) -> Field m k = Ok v -> ok X v.
Proof. intros Ho. unfold Field. destruct (alookup k m) eqn:E; intros E'; inversion E'; subst; eauto using ok_lookup. Qed.

Lemma agree_Update1 X c1 c2 k v : agree_on X c1 c2 -> agree_on X (Update1 c1 k v) (Update1 c2 k v).
Proof.
  intros Ha x Hx. unfold env_get, Update1. cbn [Find IsNotNull]. specialize (Ha x Hx). unfold env_get in Ha.
  destruct (alookup x [(k, v)]); auto. destruct c1, c2; auto.
Qed.
Lemma agree_UpdateMap X c1 c2 m : agree_on X c1 c2 -> agree_on X (UpdateMap c1 m) (UpdateMap c2 m).
Proof.
  intros Ha x Hx. unfold UpdateMap. destruct m as [|p r]; [now apply Ha|].
  unfold env_get. cbn [Find IsNotNull]. specialize (Ha x Hx). unfold env_get in Ha.
  destruct (alookup x (p :: r)); auto. destruct c1, c2; auto.
Qed.

Section Builtins.
Variables (X : string -> Prop) (ev1 ev2 : evaluator).
Hypothesis HE : forall e d1 d2, ok X e -> agree_on X d1 d2 -> le (ev1 e d1) (ev2 e d2).

Hint Resolve ok_Get ok_lookup ok_Field ok_elem ok_entry agree_Update1 agree_UpdateMap le_refl : core.
Lemma ok_none : ok X ENone. Proof. intros x []. Qed.
Lemma ok_str s : ok X (EStr s). Proof. intros x []. Qed.
Lemma ok_bool s : ok X (EBool s). Proof. intros x []. Qed.
Lemma ok_nil : ok X (EList []). Proof. intros x []. Qed.
Lemma ok_empty : ok X (EMap []). Proof. intros x []. Qed.
Lemma ok_kEmpty : ok X kEmptyMapExpr. Proof. intros x []. Qed.
Hint Resolve ok_none ok_str ok_bool ok_nil ok_empty ok_kEmpty : core.

Ltac step :=
  match goal with
  | |- le ?r ?r => apply le_refl
  | |- le (bind ?r _) (bind ?r _) => apply bind_le_same; intros ? ?
  | |- le (bind _ _) (bind _ _) => apply bind_le; [|intros ?]
  | |- le (ev1 _ _) (ev2 _ _) => apply HE; eauto
  | |- le (mapM _ _) (mapM _ _) => apply mapM_le; intros ? ?
  | |- le (foldM _ _ _) (foldM _ _ _) => apply foldM_le; [exact (fun _ _ => True)|intros ? ? ?]
  | |- le (match ?x with _ => _ end) (match ?x with _ => _ end) => destruct x eqn:?
  | |- le (EvalArgument _ _ _ _) _ => unfold EvalArgument
  end.
Ltac go := repeat step; eauto.

Lemma and_le c1 c2 l : ok X (EList l) -> agree_on X c1 c2 -> le (and_loop ev1 c1 l) (and_loop ev2 c2 l).
Proof.
  induction l as [|x r IH]; cbn; intros Ho Ha; [apply le_refl|]. apply bind_le.
  - apply HE; auto. eapply ok_elem; eauto. now left.
  - intros v. destruct (ValueIsTrue v); auto. apply IH; auto. intros y Hy. apply Ho. cbn. apply in_or_app. now right.
Qed.
Lemma or_le c1 c2 l : ok X (EList l) -> agree_on X c1 c2 -> le (or_loop ev1 c1 l) (or_loop ev2 c2 l).
Proof.
  induction l as [|x r IH]; cbn; intros Ho Ha; [apply le_refl|]. apply bind_le.
  - apply HE; auto. eapply ok_elem; eauto. now left.
  - intros v. destruct (ValueIsTrue v); auto. apply IH; auto. intros y Hy. apply Ho. cbn. apply in_or_app. now right.
Qed.
Lemma ok_pair a b r : ok X (EList (EList [a; b] :: r)) -> ok X a /\ ok X b /\ ok X (EList r).
Proof.
  intros Ho. repeat split; intros y Hy; apply Ho; cbn; rewrite ?app_nil_r; rewrite !in_app_iff; tauto.
Qed.
Lemma cond_le c1 c2 d1 d2 l : le d1 d2 -> ok X (EList l) -> agree_on X c1 c2 ->
  le (cond_loop ev1 c1 d1 l) (cond_loop ev2 c2 d2 l).
Proof.
  intros Hd. induction l as [|x r IH]; cbn; intros Ho Ha; [auto|].
  destruct x as [| | | | | | | |[|a [|b [|]]]|]; auto.
  destruct (ok_pair _ _ _ Ho) as (Oa & Ob & Or). apply bind_le; [now apply HE|].
  intros v. destruct (ValueIsTrue v); auto.
Qed.
Lemma case_le c1 c2 d1 d2 cmp l : le d1 d2 -> ok X (EList l) -> agree_on X c1 c2 ->
  le (case_loop ndump H ev1 c1 d1 cmp l) (case_loop ndump H ev2 c2 d2 cmp l).
Proof.
  intros Hd. induction l as [|x r IH]; cbn; intros Ho Ha; [auto|].
  destruct x as [| | | | | | | |[|a [|b [|]]]|]; auto.
  destruct (ok_pair _ _ _ Ho) as (Oa & Ob & Or). apply bind_le; [now apply HE|].
  intros v. destruct (expr_eqb ndump H cmp v); auto.
Qed.

Lemma quasi_le c1 c2 : agree_on X c1 c2 -> forall e, ok X e ->
  le (ExpandQuasiQuoteListEntry ev1 c1 e) (ExpandQuasiQuoteListEntry ev2 c2 e) /\
  le (ExpandQuasiQuote ev1 c1 e) (ExpandQuasiQuote ev2 c2 e).
Proof.
  intros Ha. induction e using expr_ind'; intros Ho; try (split; apply le_refl).
  - assert (HM : le (mapM (fun x => bind (ExpandQuasiQuoteListEntry ev1 c1 x) as_list) l)
                    (mapM (fun x => bind (ExpandQuasiQuoteListEntry ev2 c2 x) as_list) l)).
    { apply mapM_le. intros x Hx. apply bind_le; [|intros; apply le_refl].
      eapply (proj1 (Forall_forall _ _)) in H0; [|exact Hx]. apply H0. eauto. }
    split; cbn; (apply bind_le; [exact HM|intros; apply le_refl]).
  - assert (HM : le (mapM (fun p => match p with (k, x) => bind (ExpandQuasiQuote ev1 c1 x) (fun y => Ok (k, y)) end) m)
                    (mapM (fun p => match p with (k, x) => bind (ExpandQuasiQuote ev2 c2 x) (fun y => Ok (k, y)) end) m)).
    { apply mapM_le. intros [k x] Hx. apply bind_le; [|intros; apply le_refl].
      eapply (proj1 (Forall_forall _ _)) in H0; [|exact Hx]. apply H0. cbn. eauto. }
    assert (HR : le (bind (mapM (fun p => match p with (k, x) => bind (ExpandQuasiQuote ev1 c1 x) (fun y => Ok (k, y)) end) m)
                       (fun m' => Ok (EMap (fold_left (fun acc p => ainsert (fst p) (snd p) acc) m' []))))
                    (bind (mapM (fun p => match p with (k, x) => bind (ExpandQuasiQuote ev2 c2 x) (fun y => Ok (k, y)) end) m)
                       (fun m' => Ok (EMap (fold_left (fun acc p => ainsert (fst p) (snd p) acc) m' []))))).
    { apply bind_le; [exact HM|intros; apply le_refl]. }
    split; cbn.
    + destruct (alookup "type" m) as [t|]; [|exact HR]. destruct t; try exact HR.
      repeat match goal with
             | |- context [match ?x with _ => _ end] => is_var x; destruct x; try exact HR
             end; destruct (alookup "$1" m) eqn:E1; auto; apply bind_le; eauto.
    + destruct (alookup "type" m) as [t|]; [|exact HR]. destruct t; try exact HR.
      repeat match goal with
             | |- context [match ?x with _ => _ end] => is_var x; destruct x; try exact HR
             end; try apply le_refl; destruct (alookup "$1" m) eqn:E1; eauto.
Qed.

Definition resp (f : function) : Prop := forall m c1 c2, ok X (EMap m) -> agree_on X c1 c2 ->
  le (f ev1 m c1) (f ev2 m c2).

Lemma unary_resp f : resp (UnaryExpr f).
Proof. intros m c1 c2 Ho Ha. unfold UnaryExpr. go. Qed.

Lemma let_le m c1 c2 : ok X (EMap m) -> agree_on X c1 c2 -> le (LetExpr ev1 m c1) (LetExpr ev2 m c2).
Proof.
  intros Ho Ha. unfold LetExpr.
  apply leR_bind with (R := agree_on X); [|intros; apply HE; eauto].
  destruct (alookup "bindings" m) as [b|] eqn:E; [|right; right; eauto].
  destruct b; try (right; left; now auto).
  apply foldM_leR; auto. intros x b1 b2 Hx HR.
  destruct x as [| | | | | | | |[|a0 [|b [|]]]|]; try (right; left; now auto);
    destruct a0; try (right; left; now auto).
  destruct (HE b b1 b2) as [->| ->]; auto.
  - eapply ok_elem with (l := [EStr s; b]); [|right; now left]. eauto.
  - now left.
  - destruct (ev2 b b2); cbn; [|right; left; now auto|now left].
    right. right. eauto 10.
Qed.

Lemma prune_agree c1 c2 xs : agree_on X c1 c2 -> (forall x, In x xs -> X x) -> Prune c1 xs = Prune c2 xs.
Proof.
  intros Ha Hx. unfold Prune. f_equal. generalize (@nil (string * expr)). 
  induction xs as [|x r IH]; intros acc; cbn; auto.
  rewrite IH by (intros; apply Hx; now right). f_equal. f_equal.
  apply (Ha x). apply Hx. now left.
Qed.

Lemma mapM_as_str_In l xs : mapM as_str l = Ok xs -> forall x, In x xs -> In (EStr x) l.
Proof.
  revert xs. induction l as [|e r IH]; cbn; intros xs E x Hx. { inversion E; subst. destruct Hx. }
  destruct e; cbn in E; try discriminate. destruct (mapM as_str r) as [ys| |]; cbn in E; inversion E; subst.
  destruct Hx as [->|Hx]; [now left|right]. now apply (IH ys).
Qed.

Lemma In_strings_of x l : In (EStr x) l -> In x (strings_of l).
Proof. intros Hi. unfold strings_of. apply in_concat. exists [x]. split; [|now left]. apply in_map_iff. now exists (EStr x). Qed.

Lemma builtin_le name f m c1 c2 :
  alookup name (kBuiltInFunctions ndump H) = Some f -> alookup "type" m = Some (EStr name) ->
  ok X (EMap m) -> agree_on X c1 c2 -> le (f ev1 m c1) (f ev2 m c2).
Proof.
  intros Hf Ht Ho Ha. apply alookup_In in Hf. unfold kBuiltInFunctions in Hf. cbn [In] in Hf.
  repeat (destruct Hf as [Hf|Hf]; [inversion Hf; subst name f; clear Hf;
            try (apply unary_resp; assumption) |]); try destruct Hf.
  - (* var *) unfold VarExpr. destruct (alookup "name" m) eqn:En; unfold Field; rewrite En; cbn; [|apply le_refl].
    destruct e; cbn; try apply le_refl. assert (Hx : X s).
    { apply Ho. cbn. apply in_or_app. left. unfold own_mentions. rewrite Ht, En. cbn. now left. }
    rewrite <- (Ha _ Hx). destruct (env_get c1 s); try apply le_refl. apply HE; auto.
  - (* quote *) unfold QuoteExpr. apply le_refl.
  - unfold QuasiQuoteExpr. destruct (alookup "$1" m) eqn:E1; [|apply le_refl]. apply quasi_le; eauto.
  - apply le_refl.
  - apply le_refl.
  - unfold IfExpr. go.
  - unfold CondExpr. destruct (alookup "cond" m) as [[]|] eqn:E1; go. apply cond_le; eauto.
  - unfold CaseExpr. destruct (alookup "case" m) as [[]|] eqn:E1; go.
  - unfold SeqCaseExpr. destruct (alookup "case" m) as [[]|] eqn:E1; go. apply case_le; eauto.
  - unfold FailExpr. go.
  - unfold AssertExpr. go.
  - unfold AssertNonEmptyExpr. go.
  - unfold ContextExpr. go.
  - unfold EqualExpr. go.
  - unfold AndExpr. destruct (alookup "$1" m) as [[]|] eqn:E1; go; try (apply unary_resp; assumption). apply and_le; eauto.
  - unfold OrExpr. destruct (alookup "$1" m) as [[]|] eqn:E1; go; try (apply unary_resp; assumption). apply or_le; eauto.
  - unfold ChangeEndingExpr. go.
  - unfold JoinExpr. go.
  - unfold JoinCmdExpr. go.
  - unfold JsonEncodeExpr. go.
  - unfold EscapeCharsExpr. go.
  - unfold LookupExpr. go.
  - unfold ArrayAccessExpr. go.
  - apply le_refl.
  - unfold SingletonMapExpr. go.
  - unfold ToSubdirExpr. go.
  - unfold FromSubdirExpr. go.
  - unfold ForeachExpr. go.
  - unfold ForeachMapExpr. go.
  - unfold ZipWithExpr. go.
  - unfold ZipMapExpr. go.
  - unfold FoldLeftExpr. go.
  - now apply let_le.
  - (* env *) unfold EnvExpr. destruct (alookup "vars" m) as [[]|] eqn:E1; go.
    rewrite (prune_agree c1 c2); auto. intros x Hx. apply Ho. cbn. apply in_or_app. left.
    unfold own_mentions. rewrite Ht, E1. cbn. apply In_strings_of. eapply mapM_as_str_In; eauto.
  - unfold ConcatTargetNameExpr. go.
Qed.

End Builtins.

Theorem Evaluate_le provided : (forall name f, In (name, f) provided -> env_respecting f) ->
  forall X n1 n2 e c1 c2, n1 <= n2 -> ok X e -> agree_on X c1 c2 ->
  le (Evaluate ndump H provided n1 e c1) (Evaluate ndump H provided n2 e c2).
Proof.
  intros Hp X. induction n1 as [|n1 IH]; intros n2 e c1 c2 Hn Ho Ha; [now left|].
  destruct n2 as [|n2]; [lia|]. apply le_S_n in Hn.
  destruct e; cbn [Evaluate]; try apply le_refl.
  - apply bind_le; [|intros; apply le_refl]. apply mapM_le. intros x Hx. apply IH; auto. eapply ok_elem; eauto.
  - unfold Field. destruct (alookup "type" m) as [t|] eqn:Et; cbn; [|apply le_refl].
    destruct t; cbn; try apply le_refl.
    unfold find_function. destruct (alookup s provided) as [f|] eqn:Ef.
    + apply (Hp s f (alookup_In _ _ _ Ef) X); auto. intros e d1 d2 Ho' Ha'. now apply IH.
    + destruct (alookup s (kBuiltInFunctions ndump H)) as [f|] eqn:Ef'; [|apply le_refl].
      apply (builtin_le X) with (name := s); auto.
Qed.

Theorem eval_env provided : (forall name f, In (name, f) provided -> env_respecting f) ->
  forall n e c1 c2, (forall x, In x (mentions e) -> env_get c1 x = env_get c2 x) ->
  Evaluate ndump H provided n e c1 = Evaluate ndump H provided n e c2.
Proof.
  intros Hp n e c1 c2 Ha. set (X := fun x => In x (mentions e)).
  assert (L1 : le (Evaluate ndump H provided n e c1) (Evaluate ndump H provided n e c2)).
  { apply (Evaluate_le provided Hp X); auto. intros x Hx; exact Hx. }
  assert (L2 : le (Evaluate ndump H provided n e c2) (Evaluate ndump H provided n e c1)).
  { apply (Evaluate_le provided Hp X); auto. intros x Hx; exact Hx. intros x Hx. symmetry. now apply Ha. }
  destruct L1 as [E1|E1]; auto. destruct L2 as [E2|E2]; congruence.
Qed.

Theorem eval_fuel provided : (forall name f, In (name, f) provided -> env_respecting f) ->
  forall n n' e c, n <= n' -> Evaluate ndump H provided n e c <> OutOfFuel ->
  Evaluate ndump H provided n' e c = Evaluate ndump H provided n e c.
Proof.
  intros Hp n n' e c Hn Hne. destruct (Evaluate_le provided Hp (fun x => True) n n' e c c Hn) as [E|E]; auto.
  - intros x _. exact I.
  - intros x _. reflexivity.
  - contradiction.
Qed.

(** ** Termination *)

Definition nf {A} (r : res A) : Prop := r <> OutOfFuel.
Lemma bind_nf {A B} (r : res A) (f : A -> res B) : nf r -> (forall a, r = Ok a -> nf (f a)) -> nf (bind r f).
Proof. unfold nf. destruct r; cbn; auto. congruence. Qed.
Lemma mapM_nf {A B} (f : A -> res B) l : (forall x, In x l -> nf (f x)) -> nf (mapM f l).
Proof.
  induction l as [|x r IH]; intros Hf; cbn; [discriminate|]. apply bind_nf; [apply Hf; now left|].
  intros. apply bind_nf; [apply IH; intros; apply Hf; now right|]. discriminate.
Qed.
Lemma foldM_nf {A B} (f : B -> A -> res B) l : (forall x b, In x l -> nf (f b x)) -> forall b, nf (foldM f l b).
Proof.
  induction l as [|x r IH]; intros Hf b; cbn; [discriminate|]. apply bind_nf; [apply Hf; now left|].
  intros. apply IH; intros; apply Hf; now right.
Qed.
Lemma as_str_nf e : nf (as_str e). Proof. destruct e; discriminate. Qed.
Lemma as_list_nf e : nf (as_list e). Proof. destruct e; discriminate. Qed.
Lemma as_map_nf e : nf (as_map e). Proof. destruct e; discriminate. Qed.
Lemma as_num_nf e : nf (as_num e). Proof. destruct e; discriminate. Qed.
Lemma Field_nf m k : nf (Field m k). Proof. unfold Field. destruct (alookup k m); discriminate. Qed.
Lemma Ok_nf {A} (a : A) : nf (Ok a). Proof. discriminate. Qed.
Lemma Err_nf {A} : nf (@Err A). Proof. discriminate. Qed.

Lemma depth_elem l x : In x l -> depth x < depth (EList l).
Proof.
  intros Hi. cbn. apply Nat.lt_succ_r. pose proof (list_max_le (map depth l) (list_max (map depth l))) as [Hm _].
  specialize (Hm (le_n _)). apply (proj1 (Forall_forall _ _) Hm). now apply in_map.
Qed.
Lemma depth_entry m k x : In (k, x) m -> depth x < depth (EMap m).
Proof.
  intros Hi. cbn. apply Nat.lt_succ_r. set (l := map _ m).
  pose proof (list_max_le l (list_max l)) as [Hm _].
  specialize (Hm (le_n _)). apply (proj1 (Forall_forall _ _) Hm). apply in_map_iff. now exists (k, x).
Qed.
Lemma depth_pos e : 1 <= depth e. Proof. destruct e; cbn; lia. Qed.

Section Term.
Variables (n : nat) (ev : evaluator).
(** [n]: what is evaluated within a budget. *)
Hypothesis HE : forall e c, depth e <= n -> nf (ev e c).
Hypothesis HEM : forall c, 1 <= n -> nf (ev kEmptyMapExpr c).

Lemma dG m k d : depth (EMap m) <= S n -> depth d <= n -> depth (Get m k d) <= n.
Proof. intros Hd Hdd. unfold Get. destruct (alookup k m) eqn:E; auto. apply alookup_In, depth_entry in E. lia. Qed.
Lemma dF m k v : depth (EMap m) <= S n -> Field m k = Ok v -> depth v <= n.
Proof. unfold Field. intros Hd. destruct (alookup k m) eqn:E; intros E'; inversion E'; subst. apply alookup_In, depth_entry in E. lia. Qed.
Lemma dL m k v : depth (EMap m) <= S n -> alookup k m = Some v -> depth v <= n.
Proof. intros Hd E. apply alookup_In, depth_entry in E. lia. Qed.
Lemma dE l x : depth (EList l) <= n -> In x l -> depth x <= n.
Proof. intros Hd Hi. apply depth_elem in Hi. lia. Qed.

Hint Resolve dG dF dL dE as_str_nf as_list_nf as_map_nf as_num_nf Field_nf Ok_nf Err_nf : core.

Ltac tstep :=
  match goal with
  | |- nf (bind _ _) => apply bind_nf; [|intros ? ?]
  | |- nf (ev kEmptyMapExpr _) => apply HEM
  | |- nf (ev _ _) => apply HE; eauto
  | |- nf (mapM _ _) => apply mapM_nf; intros ? ?
  | |- nf (foldM _ _ _) => apply foldM_nf; intros ? ? ?
  | |- nf (match ?x with _ => _ end) => destruct x eqn:?
  | |- nf (if ?x then _ else _) => destruct x eqn:?
  | |- nf (EvalArgument _ _ _ _) => unfold EvalArgument
  end.
Ltac tgo := repeat tstep; eauto.

Lemma escape_nf s a b : nf (escape_loop s a b).
Proof. induction s; cbn; tgo. Qed.
Lemma stage_nf o acc k v : nf (stage ndump H o acc k v).
Proof. unfold stage. tgo. Qed.
Hint Resolve escape_nf stage_nf : core.
Lemma Join_nf q a e s : nf (Join q a e s).
Proof. unfold Join. tgo. Qed.
Lemma Concat_nf e s : nf (ConcatTargetName e s).
Proof. unfold ConcatTargetName. tgo. Qed.
Lemma UnionE_nf d e : nf (UnionE ndump H d e).
Proof. unfold UnionE. tgo. Qed.
Lemma CE_nf a b : nf (ChangeEndingTo a b).
Proof. unfold ChangeEndingTo. tgo. Qed.
Lemma TS_nf a b c : nf (ToSubdir ndump H a b c).
Proof. unfold ToSubdir. tgo. Qed.
Lemma FS_nf a b : nf (FromSubdir ndump H a b).
Proof. unfold FromSubdir. tgo. Qed.
Hint Resolve Join_nf Concat_nf UnionE_nf CE_nf TS_nf FS_nf : core.

Lemma and_nf c l : depth (EList l) <= n -> nf (and_loop ev c l).
Proof.
  intros Hd. assert (Hx : forall x, In x l -> depth x <= n) by eauto. clear Hd.
  induction l as [|x r IH]; cbn; auto. apply bind_nf; [apply HE, Hx; now left|]. intros v _.
  destruct (ValueIsTrue v); auto. apply IH. intros; apply Hx; now right.
Qed.
Lemma or_nf c l : depth (EList l) <= n -> nf (or_loop ev c l).
Proof.
  intros Hd. assert (Hx : forall x, In x l -> depth x <= n) by eauto. clear Hd.
  induction l as [|x r IH]; cbn; auto. apply bind_nf; [apply HE, Hx; now left|]. intros v _.
  destruct (ValueIsTrue v); auto. apply IH. intros; apply Hx; now right.
Qed.
Lemma dpair a b : depth (EList [a; b]) <= n -> depth a <= n /\ depth b <= n.
Proof. intros Hd. split; eapply dE; eauto; cbn; auto. Qed.
Lemma cond_nf c d l : nf d -> depth (EList l) <= n -> nf (cond_loop ev c d l).
Proof.
  intros Hn Hd. assert (Hx : forall x, In x l -> depth x <= n) by eauto. clear Hd.
  induction l as [|x r IH]; cbn; auto. destruct x as [| | | | | | | |[|a [|b [|]]]|]; auto.
  destruct (dpair a b) as [Da Db]; [apply Hx; now left|].
  apply bind_nf; [now apply HE|]. intros v _. destruct (ValueIsTrue v); [now apply HE|].
  apply IH. intros; apply Hx; now right.
Qed.
Lemma case_nf c d cmp l : nf d -> depth (EList l) <= n -> nf (case_loop ndump H ev c d cmp l).
Proof.
  intros Hn Hd. assert (Hx : forall x, In x l -> depth x <= n) by eauto. clear Hd.
  induction l as [|x r IH]; cbn; auto. destruct x as [| | | | | | | |[|a [|b [|]]]|]; auto.
  destruct (dpair a b) as [Da Db]; [apply Hx; now left|].
  apply bind_nf; [now apply HE|]. intros v _. destruct (expr_eqb ndump H cmp v); [now apply HE|].
  apply IH. intros; apply Hx; now right.
Qed.

Lemma quasi_nf c : forall e, depth e <= n ->
  nf (ExpandQuasiQuoteListEntry ev c e) /\ nf (ExpandQuasiQuote ev c e).
Proof.
  induction e using expr_ind'; intros Hd; try (split; apply Ok_nf).
  - assert (HM : nf (mapM (fun x => bind (ExpandQuasiQuoteListEntry ev c x) as_list) l)).
    { apply mapM_nf. intros x Hx. apply bind_nf; [|intros; auto].
      eapply (proj1 (Forall_forall _ _)) in H0; [|exact Hx]. apply H0. eauto. }
    split; cbn; (apply bind_nf; [exact HM|intros; apply Ok_nf]).
  - assert (HM : nf (mapM (fun p => match p with (k, x) => bind (ExpandQuasiQuote ev c x) (fun y => Ok (k, y)) end) m)).
    { apply mapM_nf. intros [k x] Hx. apply bind_nf; [|intros; apply Ok_nf].
      eapply (proj1 (Forall_forall _ _)) in H0; [|exact Hx]. apply H0. cbn. apply depth_entry in Hx. lia. }
    assert (HR : nf (bind (mapM (fun p => match p with (k, x) => bind (ExpandQuasiQuote ev c x) (fun y => Ok (k, y)) end) m)
                       (fun m' => Ok (EMap (fold_left (fun acc p => ainsert (fst p) (snd p) acc) m' []))))).
    { apply bind_nf; [exact HM|intros; apply Ok_nf]. }
    split; cbn.
    + destruct (alookup "type" m) as [t|]; [|exact HR]. destruct t; try exact HR.
      repeat match goal with
             | |- context [match ?x with _ => _ end] => is_var x; destruct x; try exact HR
             end; destruct (alookup "$1" m) eqn:E1; auto; apply bind_nf; eauto; intros; tgo.
    + destruct (alookup "type" m) as [t|]; [|exact HR]. destruct t; try exact HR.
      repeat match goal with
             | |- context [match ?x with _ => _ end] => is_var x; destruct x; try exact HR
             end; auto; destruct (alookup "$1" m) eqn:E1; eauto.
Qed.

Lemma builtin_nf name f m c : alookup name (kBuiltInFunctions ndump H) = Some f ->
  alookup "type" m = Some (EStr name) ->
  depth (EMap m) <= S n -> nf (f ev m c).
Proof.
  intros Hf Ht Hd. assert (Hn : 1 <= n).
  { apply alookup_In, depth_entry in Ht. cbn in Ht. cbn in Hd. lia. } clear Ht.
  assert (D0 : depth ENone <= n) by exact Hn. assert (D1 : depth (EList []) <= n) by exact Hn.
  assert (D2 : forall s, depth (EStr s) <= n) by (intros; exact Hn).
  assert (D3 : forall s, depth (EBool s) <= n) by (intros; exact Hn).
  assert (D4 : depth (EMap []) <= n) by exact Hn.
  apply alookup_In in Hf. unfold kBuiltInFunctions in Hf. cbn [In] in Hf.
  repeat (destruct Hf as [Hf|Hf]; [inversion Hf; subst name f; clear Hf |]); try destruct Hf.
  all: try match goal with |- nf (UnaryExpr _ _ _ _) =>
    unfold UnaryExpr; apply bind_nf; [unfold EvalArgument; now tgo|intros ? _] end.
  all: try (match goal with |- nf (?f _ _ _) => unfold f | |- nf (?f _) => unfold f end; now tgo).
  - unfold QuasiQuoteExpr. destruct (alookup "$1" m) eqn:E1; auto. apply quasi_nf; eauto.
  - unfold CondExpr. destruct (alookup "cond" m) as [[]|] eqn:E1; tgo. apply cond_nf; eauto.
  - unfold SeqCaseExpr. destruct (alookup "case" m) as [[]|] eqn:E1; tgo. apply case_nf; eauto.
  - unfold EqualExpr. tgo.
  - unfold AndExpr. destruct (alookup "$1" m) as [[]|] eqn:E1; tgo; try (unfold UnaryExpr, All; now tgo). apply and_nf; eauto.
  - unfold OrExpr. destruct (alookup "$1" m) as [[]|] eqn:E1; tgo; try (unfold UnaryExpr, Any; now tgo). apply or_nf; eauto.
  - unfold JsonEncodeExpr. tgo.
  - unfold DisjointUnionExpr. tgo.
  - auto.
  - unfold ToSubdirExpr. tgo.
  - unfold FromSubdirExpr. tgo.
  - unfold ForeachMapExpr. apply bind_nf; [|intros; now tgo].
    unfold Get. destruct (alookup "range" m) eqn:E; tgo.
  - unfold LetExpr. tgo; subst.
    + eapply dE with (l := [EStr _; _]); [|right; left; reflexivity]. eauto.
Qed.

End Term.

Theorem eval_terminates : forall n e c, depth e <= n -> nf (Evaluate ndump H [] n e c).
Proof.
  induction n as [|n IH]; intros e c Hd. { pose proof (depth_pos e). lia. }
  assert (HEM : forall c, 1 <= n -> nf (Evaluate ndump H [] n kEmptyMapExpr c)).
  { intros c' Hn. destruct n; [lia|]. cbn. discriminate. }
  destruct e; cbn [Evaluate]; try apply Ok_nf.
  - apply bind_nf; [|intros; apply Ok_nf]. apply mapM_nf. intros x Hx. apply IH. apply depth_elem in Hx. lia.
  - unfold Field. destruct (alookup "type" m) as [t|] eqn:Et; cbn [bind]; [|apply Err_nf].
    destruct t; cbn [bind as_str]; try apply Err_nf. change (find_function ndump H [] s) with (alookup s (kBuiltInFunctions ndump H)).
    destruct (alookup s (kBuiltInFunctions ndump H)) as [f|] eqn:Ef'; [|apply Err_nf].
    apply (builtin_nf n) with (name := s); auto.
Qed.

End P.
