(** Output paths relative to the working directory of an action. *)
From Coq Require Import String Ascii List Bool ZArith Lia.
From Verif Require Import Common.Strs Path.Model Path.Spec Path.Proofs Path.Proofs2 Executor.Process.
Import ListNotations.
Local Open Scope string_scope.
Local Open Scope list_scope.
Local Infix "^^" := String.append (at level 60, right associativity).

Lemma append_walk abs p q st : is_absolute q = false ->
  fold_left (step abs) (split_slash (append p q)) st =
  fold_left (step abs) (split_slash q) (fold_left (step abs) (split_slash p) st).
Proof.
  intros Q. unfold append. rewrite Q. destruct (has_filename p) eqn:F.
  - rewrite split_app. apply fold_left_app.
  - destruct p as [|c0 p0] eqn:Ep; [reflexivity|].
    rewrite <- Ep in *. assert (p <> "") as Hp by (subst; discriminate). clear c0 p0 Ep.
    assert (exists p', p = p' ^^ "/") as [p' E].
    { pose proof (join_split p) as J. unfold has_filename, filename in F.
      destruct (exists_last (split_nonnil p)) as (l & x & EL). rewrite EL in F, J. rewrite last_last in F.
      destruct x as [|? ?]; [|discriminate].
      destruct l as [|y l]; [cbn in J; congruence|].
      exists (join_slash (y :: l)). rewrite <- J. rewrite join_snoc by discriminate. reflexivity. }
    assert (p ^^ q = p' ^^ "/" ^^ q) as E' by (rewrite E, app_str_assoc; reflexivity).
    rewrite E'. assert (split_slash p = split_slash p' ++ [""]) as ES by (rewrite E; exact (split_app p' "")).
    rewrite ES, split_app, !fold_left_app. reflexivity.
Qed.

Lemma sfree_relative q : sfree q -> is_absolute q = false.
Proof. unfold sfree. destruct q as [|c q]; cbn; [reflexivity|]. intros H. apply orb_false_iff in H. apply H. Qed.

Lemma fold_append_walk abs l : Forall sfree l -> forall p st,
  is_absolute p = false -> is_absolute (fold_left append l p) = false /\
  fold_left (step abs) (split_slash (fold_left append l p)) st =
  fold_left (step abs) l (fold_left (step abs) (split_slash p) st).
Proof.
  induction 1 as [|q l Q F IH]; intros p st P; cbn [fold_left]; [split; [exact P|reflexivity]|].
  pose proof (sfree_relative q Q) as R. destruct (append_place p q R) as [A _]. rewrite P in A.
  destruct (IH (append p q) st A) as [I1 I2]. split; [exact I1|]. rewrite I2, (append_walk abs p q st R).
  rewrite (split_of_sfree q Q). reflexivity.
Qed.

Lemma mismatch_split a b : exists c, a = c ++ fst (mismatch a b) /\ b = c ++ snd (mismatch a b).
Proof.
  revert b. induction a as [|x a IH]; intros b; cbn; [exists []; auto|].
  destruct b as [|y b]; cbn; [exists []; auto|].
  destruct (String.eqb_spec x y) as [->|]; [|exists []; auto].
  destruct (IH b) as (c & E1 & E2). exists (y :: c). cbn. split; f_equal; assumption.
Qed.

(** Going down some names and up again as often. *)
Fixpoint count_names (b : list string) : nat :=
  match b with
  | [] => 0
  | e :: r => (if nonempty e && negb (String.eqb e ".") then 1 else 0) + count_names r
  end.

Lemma count_up_names b : Forall (fun e => e <> "..") b -> forall z, count_up b z = (z + Z.of_nat (count_names b))%Z.
Proof.
  induction 1 as [|e b E F IH]; intros z; cbn [count_up count_names]; [lia|].
  destruct (String.eqb_spec e ".."); [contradiction|]. destruct (nonempty e && negb (String.eqb e ".")); rewrite IH; lia.
Qed.

Lemma step_up abs u x d : step abs (mkPlace u (x :: d)) ".." = mkPlace u d.
Proof. reflexivity. Qed.

Lemma down_up abs b l : Forall (fun e => e <> "..") b ->
  fold_left (step abs) (repeat ".." (count_names b)) (fold_left (step abs) b l) = l.
Proof.
  intros F. revert l. induction F as [|e b E F IH]; intros l; [reflexivity|]. cbn [fold_left count_names].
  destruct (nonempty e && negb (String.eqb e ".")) eqn:N; cbn [Nat.add].
  - apply andb_true_iff in N. destruct N as [N1 N2].
    rewrite (step_name abs l e); [|destruct e; discriminate|destruct (String.eqb_spec e "."); [discriminate|assumption]|assumption].
    change (S (count_names b)) with (1 + count_names b). rewrite Nat.add_comm, repeat_app, fold_left_app, IH.
    destruct l. reflexivity.
  - assert (step abs l e = l) as ->; [|apply IH]. unfold step.
    destruct (String.eqb_spec e "") as [|N1]; [reflexivity|]. destruct (String.eqb_spec e ".") as [|N2]; [reflexivity|].
    exfalso. rewrite (nonempty_true e N1) in N. discriminate.
Qed.

Lemma count_zero abs b l : Forall (fun e => e <> "..") b -> count_names b = 0 -> fold_left (step abs) b l = l.
Proof. intros F Z. pose proof (down_up abs b l F) as H. rewrite Z in H. exact H. Qed.

Lemma rel_elements_empty p c a : rel_elements p = c ++ "" :: a -> a = [].
Proof.
  unfold rel_elements. intros E.
  assert (forall x l m, filter nonempty (split_slash p) = l ++ x :: m -> x <> "") as N.
  { intros x l m H ->. assert (In "" (filter nonempty (split_slash p))) as K by (rewrite H; apply in_app_iff; right; now left).
    apply filter_In in K. destruct K. discriminate. }
  destruct (has_relative_path p && negb (has_filename p)).
  - destruct a as [|x a]; [reflexivity|]. exfalso.
    destruct (exists_last (l := x :: a) ltac:(discriminate)) as (a' & y & Y). rewrite Y in E.
    change ("" :: a' ++ [y]) with (("" :: a') ++ [y]) in E. rewrite app_assoc in E. apply app_inj_tail in E.
    destruct E as [E _]. exact (N "" c a' E eq_refl).
  - exfalso. exact (N "" c a E eq_refl).
Qed.

Lemma split_elements_updir p : is_absolute p = false -> Forall (fun e => e <> "..") (split_slash p) ->
  Forall (fun e => e <> "..") (elements p).
Proof.
  intros R F. unfold elements. rewrite R. cbn [app]. unfold rel_elements.
  assert (Forall (fun e => e <> "..") (filter nonempty (split_slash p))) as G.
  { apply Forall_forall. intros x Hx. apply filter_In in Hx. destruct Hx as [Hx _].
    exact (proj1 (Forall_forall _ _) F x Hx). }
  destruct (_ && _); [|exact G]. apply Forall_app. split; [exact G|]. constructor; [discriminate|constructor].
Qed.

Lemma rebase_place cwd out : is_absolute cwd = false -> is_absolute out = false ->
  Forall (fun e => e <> "..") (split_slash cwd) ->
  is_absolute (rebase cwd out) = false /\ place_of (append cwd (rebase cwd out)) = place_of out.
Proof.
  intros AC AO U.
  assert (place_of out = walk false (elements out)) as PO.
  { rewrite <- walk_rel_elements. unfold elements. rewrite AO. reflexivity. }
  assert (place_of cwd = walk false (elements cwd)) as PC.
  { rewrite <- walk_rel_elements. unfold elements. rewrite AC. reflexivity. }
  destruct (mismatch_split (elements out) (elements cwd)) as (c & E1 & E2).
  assert (Forall (fun e => e <> "..") (elements cwd)) as UE by (apply split_elements_updir; assumption).
  destruct (mismatch (elements out) (elements cwd)) as [a b] eqn:M. cbn [fst snd] in E1, E2.
  assert (Forall (fun e => e <> "..") b) as UB by (rewrite E2 in UE; apply Forall_app in UE; apply UE).
  assert (Forall sfree a) as SA.
  { assert (Forall sfree (elements out)) as S by (unfold elements; rewrite AO; apply rel_elements_sfree).
    rewrite E1 in S. apply Forall_app in S. apply S. }
  enough (is_absolute (rebase cwd out) = false /\
          fold_left (step false) (split_slash (rebase cwd out)) (place_of cwd) = place_of out) as [H1 H2].
  { split; [exact H1|]. destruct (append_place cwd (rebase cwd out) H1) as [_ ->]. rewrite AC. exact H2. }
  assert (fold_left (step false) (split_slash ".") (place_of cwd) = place_of cwd) as DOT by reflexivity.
  assert (count_names b = 0 -> (a = [] \/ exists r, a = "" :: r) -> place_of cwd = place_of out) as SAME.
  { intros Z K. rewrite PC, PO, E1, E2. unfold walk. rewrite !fold_left_app, (count_zero false b _ UB Z).
    destruct K as [->|[r ->]]; [reflexivity|].
    assert (r = []) as -> by (apply (rel_elements_empty out c); rewrite <- E1; unfold elements; now rewrite AO). reflexivity. }
  unfold rebase, lexically_relative. rewrite AC, AO. cbn [Bool.eqb negb]. rewrite M.
  rewrite (count_up_names b UB). rewrite Z.add_0_l.
  assert (is_absolute (fold_left append (repeat ".." (count_names b) ++ a) "") = false /\
          fold_left (step false) (split_slash (fold_left append (repeat ".." (count_names b) ++ a) "")) (place_of cwd) = place_of out) as GO.
  { destruct (fold_append_walk false (repeat ".." (count_names b) ++ a)) with (p := "") (st := place_of cwd) as [G1 G2].
    - apply Forall_app. split; [|exact SA]. apply Forall_forall. intros x X. apply repeat_spec in X. subst x. reflexivity.
    - reflexivity.
    - split; [exact G1|]. rewrite G2. change (fold_left (step false) (split_slash "") (place_of cwd)) with (place_of cwd).
      rewrite fold_left_app, PC, E2. unfold walk. rewrite fold_left_app, (down_up false b _ UB), PO, E1.
      unfold walk. rewrite fold_left_app. reflexivity. }
  assert (Z.leb 0 (Z.of_nat (count_names b)) = true) as LE by (apply Z.leb_le; lia).
  destruct (Z.of_nat (count_names b) =? 0)%Z eqn:ZZ.
  - apply Z.eqb_eq in ZZ. assert (count_names b = 0) as Z0 by lia.
    destruct a as [|e a].
    + destruct b; (split; [reflexivity|]; etransitivity; [exact DOT|]; apply SAME; auto).
    + destruct e as [|e0 e1]; cbn [nonempty negb andb].
      * split; [reflexivity|]. etransitivity; [exact DOT|]. apply SAME; eauto.
      * rewrite LE, Nat2Z.id. exact GO.
  - cbn [andb]. rewrite LE, Nat2Z.id. destruct a as [|e a]; [|exact GO].
    destruct b as [|x b]; [discriminate|exact GO].
Qed.
