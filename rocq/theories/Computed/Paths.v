(** Relative paths between normalised paths, and paths below a directory in the order of strings. *)
From Coq Require Import String Ascii List Bool NArith ZArith Arith Lia.
From Verif Require Import Common.Strs GitTree.Model GitTree.Spec TreeOps.Spec Path.Model Path.Spec Path.Proofs Path.Proofs2
  Upload.Model Upload.Spec Upload.Root Computed.Model.
Import ListNotations.
Local Open Scope string_scope.
Local Open Scope list_scope.
Local Infix "^^" := String.append (at level 60, right associativity).

Lemma ok_good ns : Forall okname ns -> Forall goodname ns.
Proof. apply Forall_impl. intros x (A & _ & _ & B). split; assumption. Qed.

Lemma elements_join ns : Forall goodname ns -> elements (join_slash ns) = ns.
Proof.
  intros G. destruct ns as [|n ns]; [reflexivity|]. unfold elements.
  pose proof (is_absolute_pre false (n :: ns) "" ltac:(discriminate) G) as A. rewrite app_str_nil_r in A. cbn [pre String.append] in A.
  rewrite A. cbn [app]. exact (rel_elements_join false (n :: ns) ltac:(discriminate) G).
Qed.
Lemma absolute_join ns : Forall goodname ns -> is_absolute (join_slash ns) = false.
Proof.
  intros G. destruct ns as [|n ns]; [reflexivity|].
  pose proof (is_absolute_pre false (n :: ns) "" ltac:(discriminate) G) as A. rewrite app_str_nil_r in A. exact A.
Qed.
Lemma fold_append ns : Forall goodname ns -> fold_left append ns "" = join_slash ns.
Proof.
  intros G. destruct ns as [|n ns]; [reflexivity|]. inversion G as [|? ? Gn Gs]; subst. cbn [fold_left].
  assert (E : append "" n = join_slash [n]).
  { unfold append. cbn [join_slash String.append has_filename filename split_slash last nonempty].
    destruct (is_absolute n) eqn:A; reflexivity. }
  rewrite E. destruct ns as [|m ns]; [reflexivity|].
  rewrite (fold_append_names [n] (m :: ns)); auto; discriminate.
Qed.

Lemma mismatch_spec a : forall b a' b', mismatch a b = (a', b') ->
  exists p, a = p ++ a' /\ b = p ++ b' /\ (forall x u y v, a' = x :: u -> b' = y :: v -> x <> y).
Proof.
  induction a as [|x a IH]; intros b a' b' E.
  - cbn in E. injection E as <- <-. exists []. repeat split; congruence.
  - destruct b as [|y b]; [cbn in E; injection E as <- <-; exists []; repeat split; congruence|].
    cbn [mismatch] in E. destruct (String.eqb_spec x y) as [->|N].
    + apply IH in E as (p & -> & -> & D). exists (y :: p). auto.
    + injection E as <- <-. exists []. repeat split. intros. congruence.
Qed.

Lemma count_ok b : Forall okname b -> forall n, count_up b n = (n + Z.of_nat (length b))%Z.
Proof.
  induction 1 as [|e b (N1 & N2 & N3 & _) _ IH]; intros n; cbn [count_up length]; [lia|].
  rewrite (proj2 (String.eqb_neq e "..") N3), (proj2 (String.eqb_neq e ".") N2), (nonempty_true _ N1). cbn [negb andb].
  rewrite IH. lia.
Qed.

Lemma relative_elements a b a' b' : Forall okname a -> Forall okname b -> mismatch a b = (a', b') ->
  elements (lexically_relative (join_slash a) (join_slash b)) =
  match a', b' with [], [] => ["."] | _, _ => repeat ".." (length b') ++ a' end.
Proof.
  intros A B E. unfold lexically_relative. rewrite !absolute_join by now apply ok_good. cbn [Bool.eqb negb].
  rewrite !elements_join by now apply ok_good. rewrite E. pose proof (mismatch_spec _ _ _ _ E) as (p & -> & -> & _).
  apply Forall_app in A as [_ A]. apply Forall_app in B as [_ B]. rewrite (count_ok b' B). cbn [Z.add].
  assert (G : Forall goodname (repeat ".." (length b') ++ a')).
  { apply Forall_app. split; [|now apply ok_good]. apply Forall_forall. intros x I. apply repeat_spec in I. subst. split; [discriminate|reflexivity]. }
  destruct b' as [|y b'].
  - cbn [length Z.of_nat]. rewrite Z.eqb_refl. destruct a' as [|x a']; [reflexivity|].
    inversion A as [|? ? (N1 & _) _]; subst. rewrite (nonempty_true _ N1). cbn [andb negb]. cbn [Z.leb Z.compare Z.to_nat repeat app].
    rewrite fold_append by exact G. now apply elements_join.
  - assert (Z.eqb (Z.of_nat (length (y :: b'))) 0 = false) as -> by (apply Z.eqb_neq; cbn [length]; lia).
    assert (Z.leb 0 (Z.of_nat (length (y :: b'))) = true) as -> by (apply Z.leb_le; lia).
    cbn [andb]. rewrite Nat2Z.id. destruct a'; rewrite fold_append by exact G; now apply elements_join.
Qed.

Lemma parent_join d x : Forall goodname (d ++ [x]) -> parent_path (join_slash (d ++ [x])) = join_slash d.
Proof.
  intros G. apply Forall_app in G as [G Gx]. inversion Gx as [|? ? Gn _]; subst.
  destruct d as [|y d]; [now apply parent_path_single|].
  rewrite join_snoc by discriminate. apply parent_path_join; auto.
  - exact (pre_join_nonempty false (y :: d) ltac:(discriminate) G).
  - rewrite split_join by (discriminate || now apply goodname_sfree). exact G.
Qed.
Lemma filename_join d x : Forall goodname (d ++ [x]) -> filename (join_slash (d ++ [x])) = x.
Proof.
  intros G. unfold filename. rewrite split_join; [apply last_last| |now apply goodname_sfree]. now destruct d.
Qed.

(** ** Normalised keys *)

Lemma segments_join ns : Forall okname ns -> segments (join_slash ns) = ns.
Proof.
  intros O. destruct ns as [|n ns]; [reflexivity|]. unfold segments, place_of, walk. rewrite (absolute_join _ (ok_good _ O)).
  rewrite split_join by (discriminate || now apply goodname_sfree, ok_good). rewrite walk_names_down by exact O. cbn [down]. rewrite app_nil_r. apply rev_involutive.
Qed.

Lemma normal_key p : ToNormalPath p = p -> inside p -> p = join_slash (segments p) /\ segments p <> [] /\ Forall okname (segments p).
Proof.
  intros N (A & U & S). split; [|split; [exact S|apply segments_ok]]. rewrite <- N at 1. rewrite ToNormalPath_render. unfold render.
  rewrite A. unfold names. apply up_zero_never_above in U. unfold segments in *.
  assert (E : up (place_of p) = 0) by (unfold place_of; rewrite A; exact U). rewrite E. cbn [repeat app pre].
  destruct (rev (down (place_of p))); [congruence|reflexivity].
Qed.

(** ** Contiguity *)

Lemma between P : forall a b c, str_lt (P ^^ a) b \/ P ^^ a = b -> str_lt b (P ^^ c) -> exists v, b = P ^^ v.
Proof.
  induction P as [|x P IH]; intros a b c A B; [exists b; reflexivity|]. cbn [String.append] in *.
  destruct b as [|y b]; [destruct A as [A|A]; discriminate|]. unfold str_lt in *. cbn [str_cmp] in *.
  destruct A as [A|A].
  - destruct (N.compare_spec (N_of_ascii x) (N_of_ascii y)) as [E|E|E]; try discriminate.
    + apply N_of_ascii_inj in E. subst y. rewrite N.compare_refl in B. destruct (IH a b c (or_introl A) B) as [v ->]. now exists v.
    + rewrite (proj2 (N.compare_gt_iff _ _) E) in B. discriminate.
  - injection A as <- <-. now exists a.
Qed.

Lemma join_app g r : g <> [] -> r <> [] -> join_slash (g ++ r) = join_slash g ^^ "/" ^^ join_slash r.
Proof.
  intros G R. induction g as [|x g IH]; [congruence|]. destruct g as [|y g].
  - cbn [app]. now rewrite join_cons.
  - change ((x :: y :: g) ++ r) with (x :: (y :: g) ++ r). rewrite (join_cons x) by discriminate. rewrite IH by discriminate.
    rewrite (join_cons x (y :: g)) by discriminate. now rewrite !app_str_assoc.
Qed.

Lemma contiguous g r1 s0 r : g <> [] -> r1 <> [] -> r <> [] -> s0 <> [] -> Forall okname g -> Forall okname s0 ->
  str_lt (join_slash (g ++ r1)) (join_slash s0) \/ join_slash (g ++ r1) = join_slash s0 ->
  str_lt (join_slash s0) (join_slash (g ++ r)) -> exists t, t <> [] /\ s0 = g ++ t.
Proof.
  intros G R1 R S0 Og Os A B. rewrite join_app in A by assumption. rewrite join_app in B by assumption.
  rewrite <- !app_str_assoc in A. rewrite <- app_str_assoc in B.
  destruct (between _ _ _ _ A B) as [v E]. rewrite app_str_assoc in E. apply (f_equal split_slash) in E.
  rewrite split_app, !split_join in E by (auto using goodname_sfree, ok_good).
  exists (split_slash v). split; [apply split_nonnil|exact E].
Qed.
