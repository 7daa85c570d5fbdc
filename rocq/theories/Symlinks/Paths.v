(** Path strings of keys and lists of components. *)
From Coq Require Import String Ascii List Bool Arith Lia.
From Verif Require Import Path.Model Path.Spec Path.Proofs Path.Proofs2 Symlinks.Model Symlinks.Spec.
Import ListNotations.
Local Open Scope string_scope.
Local Open Scope list_scope.

Definition path_str (ns : list string) : string := match ns with [] => "." | _ => join_slash ns end.

Lemma plain_good f : plain f -> goodname f.
Proof. intros H. apply okname_plain in H. destruct H as (A & B & C & D). split; assumption. Qed.

Lemma plain_goods ns : Forall plain ns -> Forall goodname ns.
Proof. intros H. eapply Forall_impl; [|exact H]. exact plain_good. Qed.

Lemma plain_oks ns : Forall plain ns -> Forall okname ns.
Proof. intros H. eapply Forall_impl; [|exact H]. intros a. apply okname_plain. Qed.

Lemma path_str_render ns : Forall plain ns -> path_str ns = render false (mkPlace 0 (rev ns)).
Proof.
  intros H. unfold render, names. cbn [up down repeat app]. rewrite rev_involutive.
  destruct ns; reflexivity.
Qed.

Lemma path_str_wf ns : Forall plain ns -> wf_place false (mkPlace 0 (rev ns)).
Proof. intros H. split; [apply Forall_rev, plain_oks, H|reflexivity]. Qed.

Lemma path_str_place ns : Forall plain ns ->
  is_absolute (path_str ns) = false /\ place_of (path_str ns) = mkPlace 0 (rev ns).
Proof. intros H. rewrite path_str_render by exact H. apply render_place, path_str_wf, H. Qed.

Lemma norm_append ns f : Forall plain ns -> plain f ->
  ToNormalPath (append (path_str ns) f) = path_str (ns ++ [f]).
Proof.
  intros H P. destruct (path_str_place ns H) as [A B].
  pose proof (plain_good f P) as [G1 G2].
  assert (is_absolute f = false) as FA.
  { destruct (is_absolute f) eqn:E; [|reflexivity]. apply is_absolute_split in E.
    destruct E as (p & ps & E). rewrite split_of_sfree in E by exact G2. discriminate. }
  destruct (append_place (path_str ns) f FA) as [C D].
  rewrite ToNormalPath_render, C, D, A, B, split_of_sfree by exact G2. cbn [fold_left].
  destruct P as (P1 & P2 & P3 & P4). rewrite step_name by assumption. cbn [up down].
  rewrite path_str_render by (apply Forall_app; split; [exact H|repeat constructor; assumption]).
  rewrite rev_app_distr. reflexivity.
Qed.

Lemma path_str_snoc ns f : path_str (ns ++ [f]) = join_slash (ns ++ [f]).
Proof. destruct ns; reflexivity. Qed.

Lemma path_str_snoc_split ns f : Forall plain ns -> plain f ->
  split_slash (path_str (ns ++ [f])) = ns ++ [f].
Proof.
  intros H P. rewrite path_str_snoc. apply split_join; [destruct ns; discriminate|].
  apply goodname_sfree, plain_goods, Forall_app. split; [exact H|repeat constructor; apply P].
Qed.

Lemma filename_snoc ns f : Forall plain ns -> plain f -> filename (path_str (ns ++ [f])) = f.
Proof. intros H P. unfold filename. rewrite path_str_snoc_split by assumption. apply last_last. Qed.

Lemma parent_snoc ns f : Forall plain ns -> plain f ->
  parent_path (path_str (ns ++ [f])) = join_slash ns.
Proof.
  intros H P. destruct ns as [|n ns]; [apply parent_path_single, plain_good, P|].
  rewrite path_str_snoc, join_snoc by discriminate. apply parent_path_join.
  - now apply plain_good.
  - intros E. assert (Forall sfree (n :: ns)) as S by (apply goodname_sfree, plain_goods, H).
    pose proof (split_join (n :: ns) ltac:(discriminate) S) as X. rewrite E in X.
    inversion X; subst. inversion H as [|? ? Q]; subst. destruct Q as [Q _]. congruence.
  - rewrite split_join; [apply plain_goods, H|discriminate|apply goodname_sfree, plain_goods, H].
Qed.

Lemma join_place ns : Forall plain ns ->
  is_absolute (join_slash ns) = false /\ place_of (join_slash ns) = mkPlace 0 (rev ns).
Proof.
  intros H. destruct ns as [|n ns]; [split; reflexivity|]. exact (path_str_place (n :: ns) H).
Qed.

Lemma parent_norm ns f : Forall plain ns -> plain f ->
  ToNormalPath (parent_path (path_str (ns ++ [f]))) = path_str ns.
Proof.
  intros H P. rewrite parent_snoc by assumption. destruct (join_place ns H) as [A B].
  rewrite ToNormalPath_render, A, B. symmetry. now apply path_str_render.
Qed.

Lemma parent_differs ns f : Forall plain ns -> plain f ->
  String.eqb (parent_path (path_str (ns ++ [f]))) (path_str (ns ++ [f])) = false.
Proof.
  intros H P. apply String.eqb_neq. rewrite parent_snoc by assumption. intros E.
  destruct (join_place ns H) as [_ B].
  assert (Forall plain (ns ++ [f])) as H' by (apply Forall_app; split; [exact H|repeat constructor; apply P]).
  destruct (path_str_place _ H') as [_ B']. rewrite E, B' in B.
  rewrite rev_app_distr in B. cbn in B. injection B as B. apply (f_equal (@List.length _)) in B. cbn in B. lia.
Qed.

Lemma up_mono cs l : up l <= up (fold_left (step false) cs l).
Proof.
  revert l. induction cs as [|c cs IH]; intros l; [reflexivity|]. cbn [fold_left].
  etransitivity; [|apply IH]. unfold step. destruct (String.eqb c ""); [reflexivity|].
  destruct (String.eqb c "."); [reflexivity|].
  destruct (String.eqb c ".."); [|reflexivity]. destruct (down l); cbn; lia.
Qed.

Lemma go_place cs cur :
  go cur cs = (let l := fold_left (step false) cs (mkPlace 0 (rev cur)) in
               if Nat.eqb (up l) 0 then Some (rev (down l)) else None).
Proof.
  revert cur. induction cs as [|c cs IH]; intros cur; [cbn; now rewrite rev_involutive|].
  cbn [go fold_left]. remember (step false {| up := 0; down := rev cur |} c) as s eqn:Es. unfold step in Es.
  destruct (String.eqb_spec c ""); [rewrite Es; apply IH|].
  destruct (String.eqb_spec c "."); [rewrite Es; apply IH|]. cbn [orb].
  destruct (String.eqb_spec c "..").
  - cbn [down up] in Es. destruct cur as [|x cur] using rev_ind.
    + cbn [rev] in Es. rewrite Es. pose proof (up_mono cs (mkPlace 1 [])) as U. cbn [up] in U.
      cbn zeta. destruct (Nat.eqb_spec (up (fold_left (step false) cs (mkPlace 1 []))) 0); [lia|reflexivity].
    + clear IHcur. rewrite rev_app_distr in Es. cbn [rev app] in Es. rewrite Es, removelast_last.
      destruct (cur ++ [x]) eqn:E; [destruct cur; discriminate|]. apply IH.
  - cbn [up down] in Es. rewrite Es, IH, rev_app_distr. reflexivity.
Qed.

Lemma go_plain cs : Forall sfree cs -> forall cur t, Forall plain cur -> go cur cs = Some t -> Forall plain t.
Proof.
  intros F. induction F as [|c cs S F IH]; intros cur t H E; [injection E as <-; exact H|].
  cbn [go] in E. destruct (String.eqb_spec c ""); [eauto|]. destruct (String.eqb_spec c "."); [eauto|].
  cbn [orb] in E. destruct (String.eqb_spec c "..").
  - destruct cur as [|x r] eqn:Ec; [discriminate|]. rewrite <- Ec in *. revert E. apply IH.
    destruct (exists_last (l := cur)) as (l & y & El); [congruence|]. rewrite El in *. rewrite removelast_last.
    apply Forall_app in H. apply H.
  - revert E. apply IH. apply Forall_app. split; [exact H|]. constructor; [|constructor].
    apply okname_plain. repeat split; assumption.
Qed.

Lemma target_plain ns c t : Forall plain ns -> target_path ns c = Some t -> Forall plain t.
Proof.
  unfold target_path. intros H E. destruct (is_absolute c); [discriminate|].
  exact (go_plain _ (split_sfree c) ns t H E).
Qed.

Lemma confined_target ns f c : Forall plain ns -> plain f ->
  PathIsConfined c (path_str (ns ++ [f])) = match target_path ns c with Some _ => true | None => false end.
Proof.
  intros H P. unfold PathIsConfined, target_path. destruct (is_absolute c) eqn:A; [reflexivity|].
  rewrite parent_snoc by assumption. destruct (join_place ns H) as [B C].
  destruct (append_place (join_slash ns) c A) as [D E]. rewrite go_place. cbn zeta.
  rewrite B, C in E. rewrite <- E.
  destruct (PathIsNonUpwards (append (join_slash ns) c)) eqn:N.
  - apply nonupwards_up in N. destruct N as [_ N]. rewrite N. reflexivity.
  - destruct (Nat.eqb_spec (up (place_of (append (join_slash ns) c))) 0); [|reflexivity].
    rewrite <- N. apply nonupwards_up. split; [congruence|assumption].
Qed.

Lemma target_norm ns f c t : Forall plain ns -> plain f -> target_path ns c = Some t ->
  ToNormalPath (ToNormalPath (append (parent_path (path_str (ns ++ [f]))) c)) = path_str t.
Proof.
  intros H P T. rewrite ToNormalPath_idem, parent_snoc by assumption.
  pose proof (target_plain ns c t H T) as Ht. unfold target_path in T.
  destruct (is_absolute c) eqn:A; [discriminate|].
  destruct (join_place ns H) as [B C]. destruct (append_place (join_slash ns) c A) as [D E].
  rewrite go_place in T. cbn zeta in T. rewrite B, C in E. rewrite <- E in T.
  destruct (Nat.eqb_spec (up (place_of (append (join_slash ns) c))) 0) as [U|]; [|discriminate].
  injection T as T. rewrite ToNormalPath_render, D, B, path_str_render by exact Ht. rewrite <- T, rev_involutive.
  f_equal. destruct (place_of (append (join_slash ns) c)) as [u d]. cbn in *. congruence.
Qed.

Lemma path_str_inj a b : Forall plain a -> Forall plain b -> path_str a = path_str b -> a = b.
Proof.
  intros A B E. destruct (path_str_place a A) as [_ P]. destruct (path_str_place b B) as [_ Q].
  rewrite E, Q in P. injection P as P. apply (f_equal (@rev _)) in P. rewrite !rev_involutive in P. congruence.
Qed.

Lemma get_at root ns : Forall plain ns -> GetObjectByPathFromTree root (path_str ns) = at_path root ns.
Proof.
  intros H. unfold GetObjectByPathFromTree, at_path. destruct (String.eqb_spec (path_str ns) ".") as [E|E].
  - assert (ns = []) as ->; [|reflexivity]. apply path_str_inj; [exact H|constructor|exact E].
  - destruct ns as [|n ns] using rev_ind; [exfalso; now apply E|].
    apply Forall_app in H. destruct H as [H P]. inversion P; subst.
    rewrite path_str_snoc_split by assumption. reflexivity.
Qed.

Lemma get_entry es f : plain f -> GetObjectByPathFromTree (Dir es) f = entry_of f es.
Proof.
  intros P. unfold GetObjectByPathFromTree. destruct (String.eqb_spec f ".") as [E|E]; [destruct P as (_ & A & _); congruence|].
  rewrite split_of_sfree by apply plain_good, P. cbn. destruct (entry_of f es); reflexivity.
Qed.
