(** Paths in roots. *)
From Coq Require Import String Ascii List Bool Arith Lia.
From Verif Require Import Common.Strs Path.Spec Path.Model Path.Proofs Path.Proofs2 Symlinks.Paths Roots.Model.
Import ListNotations.
Local Open Scope string_scope.
Local Open Scope list_scope.
Local Open Scope nat_scope.
Local Infix "^^" := String.append (at level 60, right associativity).

Lemma place_slash s : is_absolute (s ^^ "/") = is_absolute s \/ s = "".
Proof. destruct s; [right; reflexivity|left; reflexivity]. Qed.

Lemma place_trailing s : s <> "" -> place_of (s ^^ "/") = place_of s.
Proof.
  intros N. unfold place_of. destruct (place_slash s) as [-> |E]; [|congruence].
  pose proof (split_app s "") as S. cbn in S. rewrite S. unfold walk. rewrite fold_left_app. reflexivity.
Qed.

(** Normal forms mean the same. *)
Lemma normal_place s : is_absolute (lexically_normal s) = is_absolute s /\ place_of (lexically_normal s) = place_of s.
Proof.
  destruct s as [|c r] eqn:Es; [split; reflexivity|]. rewrite <- Es. assert (s <> "") as Hs by (subst; discriminate).
  clear c r Es. pose proof (place_of_wf s) as W. pose proof (names_good _ _ W) as G.
  pose proof (render_place _ _ W) as [R1 R2].
  destruct (lexically_normal_shape s Hs) as [[E1 E2]|[E1 (tl & Ht & E2 & _)]]; rewrite E2.
  - unfold render in R1, R2. rewrite E1 in R1, R2. split; assumption.
  - unfold render in R1, R2. destruct (names (place_of s)) as [|n ns] eqn:EN; [congruence|]. rewrite <- EN in *.
    pose proof (pre_join_nonempty (is_absolute s) (names (place_of s)) E1 G) as NE.
    destruct Ht as [->| ->]; [rewrite app_str_nil_r; split; assumption|].
    rewrite <- app_str_assoc. split.
    + destruct (place_slash (pre (is_absolute s) ^^ join_slash (names (place_of s)))) as [->|]; [exact R1|congruence].
    + rewrite place_trailing by exact NE. exact R2.
Qed.

Lemma outside_normal s : outside (lexically_normal s) = negb (PathIsNonUpwards s).
Proof.
  unfold outside, PathIsNonUpwards. rewrite (proj1 (normal_place s)). destruct (is_absolute s); [reflexivity|].
  cbn [orb]. destruct (elements (lexically_normal s)) as [|e l]; [reflexivity|]. now rewrite negb_involutive.
Qed.

Lemma elements_good ns : ns <> [] -> Forall goodname ns -> elements (join_slash ns) = ns.
Proof.
  intros A B. unfold elements. pose proof (is_absolute_pre false ns "" A B) as P. rewrite app_str_nil_r in P. cbn in P.
  rewrite P. cbn [app]. exact (rel_elements_join false ns A B).
Qed.

Lemma resolve_elements p : p <> "" -> is_absolute p = false ->
  elements (ResolveRelativePath p) = match names (place_of p) with [] => ["."] | ns => ns end.
Proof.
  intros N A. pose proof (place_of_wf p) as W. pose proof (names_good _ _ W) as G. unfold ResolveRelativePath.
  destruct (lexically_normal_shape p N) as [[E1 E2]|[E1 (tl & Ht & E2 & _)]]; rewrite E2, A.
  - rewrite E1. reflexivity.
  - destruct (names (place_of p)) as [|n ns] eqn:EN; [congruence|]. rewrite <- EN in *. clear EN n ns.
    set (ns := names (place_of p)) in *. cbn [pre String.append].
    assert (parent_path (append (join_slash ns ^^ tl) "") = join_slash ns) as ->.
    { unfold append. cbn [is_absolute]. destruct Ht as [->| ->].
      - rewrite app_str_nil_r. rewrite (has_filename_pre_join false ns E1 G : has_filename (join_slash ns) = true).
        exact (parent_path_slash false ns E1 G).
      - rewrite (has_filename_pre_join_slash false ns E1 G : has_filename (join_slash ns ^^ "/") = false).
        rewrite app_str_nil_r. exact (parent_path_slash false ns E1 G). }
    apply elements_good; assumption.
Qed.

(** ** Appending to a module *)

Lemma fold_below cs : forall e0 d e, fold_left (step false) cs (mkPlace 0 e0) = mkPlace 0 e ->
  fold_left (step false) cs (mkPlace 0 (e0 ++ d)) = mkPlace 0 (e ++ d).
Proof.
  induction cs as [|c cs IH]; intros e0 d e E; cbn [fold_left] in *; [injection E as <-; reflexivity|].
  assert (up (step false (mkPlace 0 e0) c) = 0) as U.
  { pose proof (up_mono cs (step false (mkPlace 0 e0) c)) as M. rewrite E in M. cbn [up] in M. lia. }
  unfold step in *. cbn [up down] in *.
  destruct (String.eqb c ""); [now apply IH|]. destruct (String.eqb c "."); [now apply IH|].
  destruct (String.eqb c "..").
  - destruct e0 as [|x e0]; [discriminate U|]. cbn [app]. now apply IH.
  - change (c :: e0 ++ d) with ((c :: e0) ++ d). now apply IH.
Qed.

Lemma append_module ms n ns : Forall plain ms -> is_absolute n = false -> place_of n = mkPlace 0 (rev ns) ->
  is_absolute (append (join_slash ms) n) = false /\ place_of (append (join_slash ms) n) = mkPlace 0 (rev (ms ++ ns)).
Proof.
  intros M A P. destruct (join_place ms M) as [B C]. destruct (append_place (join_slash ms) n A) as [D E].
  rewrite B in D, E. split; [exact D|]. rewrite E, C. unfold place_of in P. rewrite A in P.
  rewrite rev_app_distr. exact (fold_below _ [] (rev ms) (rev ns) P).
Qed.

Lemma names_down ns : names (mkPlace 0 (rev ns)) = ns.
Proof. unfold names. cbn. apply rev_involutive. Qed.

Lemma downward_place s : is_absolute s = false -> never_above (split_slash s) ->
  exists ns, Forall plain ns /\ place_of s = mkPlace 0 (rev ns).
Proof.
  intros A N. exists (rev (down (place_of s))). pose proof (place_of_wf s) as [W _]. split.
  - apply Forall_rev. eapply Forall_impl; [|exact W]. intros a. apply okname_plain.
  - rewrite rev_involutive. apply up_zero_never_above in N. unfold place_of in *. rewrite A in *.
    destruct (walk false (split_slash s)) as [u d]. cbn in *. now subst.
Qed.

(** ** Names whose last component is a name *)

Lemma split_last s : exists l, split_slash s = l ++ [filename s].
Proof.
  exists (removelast (split_slash s)). unfold filename. apply app_removelast_last, split_nonnil.
Qed.

Lemma normal_last s ns : is_absolute s = false -> plain (filename s) -> place_of s = mkPlace 0 (rev ns) ->
  lexically_normal s = join_slash ns /\ exists ns', ns = ns' ++ [filename s].
Proof.
  intros A P E. destruct (split_last s) as [l L].
  assert (s <> "") as N by (intros ->; cbn in P; destruct P as [P _]; congruence).
  assert (rel_elements s = filter nonempty l ++ [filename s]) as R.
  { unfold rel_elements, has_filename. rewrite nonempty_true by apply P. rewrite andb_false_r, L, filter_app. cbn [filter].
    now rewrite nonempty_true by apply P. }
  pose proof (normal_fold s) as [tr F]. rewrite A, E in F.
  destruct P as (P1 & P2 & P3 & P4).
  assert (exists ns', ns = ns' ++ [filename s]) as X.
  { unfold place_of in E. rewrite A in E. rewrite L in E. unfold walk in E. rewrite fold_left_app in E. cbn [fold_left] in E.
    rewrite step_name in E by assumption. injection E as _ E. apply (f_equal (@rev _)) in E. rewrite rev_involutive in E.
    cbn in E. eauto. }
  split; [|exact X]. unfold lexically_normal. rewrite match_ne by exact N. rewrite A, F.
  assert (tr = false) as ->.
  { rewrite R, fold_left_app in F. cbn [fold_left] in F. destruct (fold_left _ (filter nonempty l) _) as [st t].
    unfold normal_step in F. destruct (String.eqb_spec (filename s) ""); [contradiction|].
    destruct (String.eqb_spec (filename s) "."); [contradiction|]. cbn [orb] in F.
    destruct (String.eqb_spec (filename s) ".."); [contradiction|]. congruence. }
  unfold stk. cbn [up down repeat]. rewrite app_nil_r.
  destruct X as [ns' ->]. rewrite rev_app_distr. cbn [rev app]. cbn [andb].
  rewrite app_str_nil_r. cbn [String.append]. rewrite rev_involutive. reflexivity.
Qed.

Lemma append_join ms ns : Forall plain ms -> Forall plain ns -> ns <> [] ->
  append (join_slash ms) (join_slash ns) = join_slash (ms ++ ns).
Proof.
  intros M N NE. unfold append. destruct (join_place ns N) as [-> _].
  destruct ms as [|m ms]; [reflexivity|].
  rewrite (has_filename_pre_join false (m :: ms) ltac:(discriminate) (plain_goods _ M) : has_filename (join_slash (m :: ms)) = true).
  clear M N. revert m. induction ms as [|m' ms IH]; intros m; cbn [app].
  - rewrite (join_cons m ns) by exact NE. reflexivity.
  - rewrite (join_cons m (m' :: ms)) by discriminate. rewrite (join_cons m (m' :: ms ++ ns)) by discriminate.
    rewrite !app_str_assoc. f_equal. cbn. f_equal. exact (IH m').
Qed.

Lemma parent_join ns f : Forall plain ns -> plain f -> parent_path (join_slash (ns ++ [f])) = join_slash ns.
Proof. intros A B. rewrite <- path_str_snoc. now apply parent_snoc. Qed.

Lemma join_nil_iff ns : Forall plain ns -> (join_slash ns = "" <-> ns = []).
Proof.
  intros P. split; [|intros ->; reflexivity]. destruct ns as [|n ns]; [reflexivity|]. intros E. exfalso.
  exact (pre_join_nonempty false (n :: ns) ltac:(discriminate) (plain_goods _ P) E).
Qed.
