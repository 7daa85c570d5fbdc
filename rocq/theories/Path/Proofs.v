From Coq Require Import String Ascii List Bool ZArith Lia.
From Verif Require Import Common.Strs Path.Model Path.Spec.
Import ListNotations.
Local Open Scope string_scope.
Local Open Scope list_scope.
Local Infix "^^" := String.append (at level 60, right associativity).

Local Opaque Z.add.

Definition sfree (p : string) : Prop := contains_slash p = false.

Lemma contains_slash_In s : contains_slash s = true <-> In "/"%char (list_ascii_of_string s).
Proof.
  induction s as [|c r IH]; cbn; [split; [discriminate|intros []]|].
  rewrite orb_true_iff, IH. unfold slash. rewrite Ascii.eqb_eq. tauto.
Qed.

Lemma split_nonnil s : split_slash s <> [].
Proof.
  induction s as [|c r IH]; cbn; [discriminate|]. destruct (split_slash r); [congruence|].
  destruct (Ascii.eqb c slash); discriminate.
Qed.

Lemma split_sfree s : Forall sfree (split_slash s).
Proof.
  induction s as [|c r IH]; cbn; [repeat constructor|].
  destruct (split_slash r) as [|p ps]; [constructor|]. inversion IH; subst.
  destruct (Ascii.eqb c slash) eqn:E; repeat (constructor; auto).
  unfold sfree. cbn. rewrite E. assumption.
Qed.

Lemma split_of_sfree p : sfree p -> split_slash p = [p].
Proof.
  unfold sfree. induction p as [|c r IH]; cbn; [reflexivity|].
  intros H. apply orb_false_iff in H. destruct H as [H1 H2]. rewrite (IH H2), H1. reflexivity.
Qed.

Lemma split_app a b : split_slash (a ^^ "/" ^^ b) = split_slash a ++ split_slash b.
Proof.
  induction a as [|c r IH].
  - cbn. destruct (split_slash b) eqn:E; [exfalso; exact (split_nonnil b E)|reflexivity].
  - change (String c r ^^ "/" ^^ b) with (String c (r ^^ "/" ^^ b)). cbn [split_slash]. rewrite IH. pose proof (split_nonnil r). destruct (split_slash r) as [|p ps]; [congruence|].
    cbn. destruct (Ascii.eqb c slash); reflexivity.
Qed.

Lemma split_cons_slash b : split_slash ("/" ^^ b) = "" :: split_slash b.
Proof. exact (split_app "" b). Qed.

Lemma join_cons p ps : ps <> [] -> join_slash (p :: ps) = p ^^ "/" ^^ join_slash ps.
Proof. destruct ps; [congruence|reflexivity]. Qed.

Lemma split_join ps : ps <> [] -> Forall sfree ps -> split_slash (join_slash ps) = ps.
Proof.
  induction ps as [|p ps IH]; [congruence|]. intros _ H. inversion H; subst.
  destruct ps as [|q ps]; [cbn; now apply split_of_sfree|].
  rewrite join_cons by discriminate. rewrite split_app, split_of_sfree by assumption.
  rewrite IH; [reflexivity|discriminate|assumption].
Qed.

Lemma join_split s : join_slash (split_slash s) = s.
Proof.
  induction s as [|c r IH]; cbn; [reflexivity|].
  pose proof (split_nonnil r). destruct (split_slash r) as [|p ps]; [congruence|].
  destruct (Ascii.eqb c slash) eqn:E.
  - apply Ascii.eqb_eq in E. subst c. change (join_slash ("" :: p :: ps)) with (String "/" (join_slash (p :: ps))). now rewrite IH.
  - destruct ps as [|q ps]; cbn in *; f_equal; exact IH.
Qed.

Lemma is_absolute_split s : is_absolute s = true <-> exists p ps, split_slash s = "" :: p :: ps.
Proof.
  destruct s as [|c r]; cbn.
  - split; [discriminate|intros (p & ps & E); discriminate].
  - pose proof (split_nonnil r). destruct (split_slash r) as [|p ps]; [congruence|].
    destruct (Ascii.eqb c slash); split; try discriminate; eauto.
    intros (q & qs & E). discriminate.
Qed.

Lemma join_snoc ps q : ps <> [] -> join_slash (ps ++ [q]) = join_slash ps ^^ "/" ^^ q.
Proof.
  induction ps as [|p ps IH]; [congruence|]. intros _.
  destruct ps as [|p' ps]; [reflexivity|].
  change ((p :: p' :: ps) ++ [q]) with (p :: (p' :: ps) ++ [q]).
  rewrite join_cons by discriminate. rewrite IH by discriminate.
  rewrite (join_cons p) by discriminate. rewrite !app_str_assoc. reflexivity.
Qed.

Lemma join_abs ps : ps <> [] -> join_slash ("" :: ps) = "/" ^^ join_slash ps.
Proof. destruct ps; [congruence|reflexivity]. Qed.

(** ** Walks *)

Lemma walk_filter abs cs l :
  fold_left (step abs) (filter nonempty cs) l = fold_left (step abs) cs l.
Proof.
  revert l. induction cs as [|c cs IH]; intros l; [reflexivity|].
  cbn. destruct c as [|a c]; cbn; apply IH.
Qed.

Lemma walk_rel_elements s : walk (is_absolute s) (rel_elements s) = place_of s.
Proof.
  unfold place_of, walk, rel_elements. rewrite <- (walk_filter _ (split_slash s)).
  destruct (has_relative_path s && negb (has_filename s)); [|reflexivity].
  rewrite fold_left_app. reflexivity.
Qed.

Definition okname (c : string) : Prop := c <> "" /\ c <> "." /\ c <> ".." /\ sfree c.

Lemma okname_plain c : okname c <-> plain c.
Proof.
  unfold okname, plain, sfree. rewrite <- contains_slash_In. destruct (contains_slash c); intuition congruence.
Qed.

Definition wf_place (abs : bool) (l : place) : Prop :=
  Forall okname (down l) /\ (abs = true -> up l = 0).

Definition special c : Prop := c = "" \/ c = "." \/ c = "..".
Lemma special_dec c : {special c} + {~ special c}.
Proof.
  destruct (string_dec c ""); [left; left; assumption|].
  destruct (string_dec c "."); [left; right; left; assumption|].
  destruct (string_dec c ".."); [left; right; right; assumption|].
  right. intros [|[|]]; contradiction.
Qed.

Lemma step_name abs l c : c <> "" -> c <> "." -> c <> ".." -> step abs l c = mkPlace (up l) (c :: down l).
Proof.
  intros A B C. unfold step.
  destruct (String.eqb_spec c ""); [contradiction|].
  destruct (String.eqb_spec c "."); [contradiction|].
  destruct (String.eqb_spec c ".."); [contradiction|reflexivity].
Qed.

Lemma step_wf abs l c : wf_place abs l -> sfree c -> wf_place abs (step abs l c).
Proof.
  intros [H1 H2] Hc. unfold step.
  destruct (String.eqb_spec c ""); [split; assumption|].
  destruct (String.eqb_spec c "."); [split; assumption|].
  destruct (String.eqb_spec c "..").
  - destruct (down l) as [|x d] eqn:E.
    + destruct abs; [split; [rewrite E; constructor|assumption]|]. split; [constructor|discriminate].
    + inversion H1; subst. split; assumption.
  - split; [|assumption]. cbn. constructor; [|assumption]. repeat split; assumption.
Qed.

Lemma fold_wf abs cs l : wf_place abs l -> Forall sfree cs -> wf_place abs (fold_left (step abs) cs l).
Proof.
  revert l. induction cs as [|c cs IH]; intros l H F; [assumption|]. inversion F; subst.
  cbn. apply IH; [now apply step_wf|assumption].
Qed.

Lemma place_of_wf s : wf_place (is_absolute s) (place_of s).
Proof. apply fold_wf; [split; [constructor|reflexivity]|apply split_sfree]. Qed.

(** ** The state of lexically_normal *)

Definition stk (l : place) : list string := down l ++ repeat ".." (up l).

Lemma normal_step_place abs l tr c : wf_place abs l -> sfree c ->
  exists tr', normal_step abs (stk l, tr) c = (stk (step abs l c), tr').
Proof.
  intros [H1 H2] Hc. unfold normal_step, step.
  destruct (String.eqb_spec c ""); [subst; cbn; eauto|].
  destruct (String.eqb_spec c "."); [subst; cbn; eauto|]. cbn [orb].
  destruct (String.eqb_spec c "..").
  - destruct l as [u d]. unfold stk in *. cbn [down up] in *. destruct d as [|x d]; cbn [app].
    + destruct u as [|u].
      * cbn. destruct abs; cbn; eauto.
      * destruct abs; [specialize (H2 eq_refl); discriminate|]. cbn. eauto.
    + inversion H1; subst. destruct H3 as (A & B & C & D).
      destruct (String.eqb_spec x ".."); [contradiction|]. eauto.
  - destruct l as [u d]. unfold stk. cbn. eauto.
Qed.

Lemma normal_fold_place abs cs l tr : wf_place abs l -> Forall sfree cs ->
  exists tr', fold_left (normal_step abs) cs (stk l, tr) = (stk (fold_left (step abs) cs l), tr').
Proof.
  revert l tr. induction cs as [|c cs IH]; intros l tr H F; [cbn; eauto|]. inversion F; subst.
  cbn [fold_left]. destruct (normal_step_place abs l tr c H H2) as [tr' E]. rewrite E.
  apply IH; [now apply step_wf|assumption].
Qed.

Lemma rel_elements_sfree s : Forall sfree (rel_elements s).
Proof.
  unfold rel_elements.
  assert (Forall sfree (filter nonempty (split_slash s))) as H.
  { apply Forall_forall. intros x Hx. apply filter_In in Hx. destruct Hx as [Hx _].
    exact (proj1 (Forall_forall _ _) (split_sfree s) x Hx). }
  destruct (has_relative_path s && negb (has_filename s)); [|assumption].
  apply Forall_app. split; [assumption|repeat constructor].
Qed.

Lemma normal_fold s : exists tr,
  fold_left (normal_step (is_absolute s)) (rel_elements s) ([], false) = (stk (place_of s), tr).
Proof.
  rewrite <- (walk_rel_elements s).
  apply (normal_fold_place (is_absolute s) (rel_elements s) (mkPlace 0 []) false).
  - split; [constructor|reflexivity].
  - apply rel_elements_sfree.
Qed.

Definition pre (abs : bool) : string := if abs then "/" else "".
(** The names of a place, outermost first. *)
Definition names (l : place) : list string := repeat ".." (up l) ++ rev (down l).

Lemma rev_repeat {A} (x : A) n : rev (repeat x n) = repeat x n.
Proof.
  induction n as [|n IH]; [reflexivity|]. cbn. rewrite IH.
  clear IH. induction n as [|n IH]; [reflexivity|]. cbn. f_equal. exact IH.
Qed.

Lemma rev_stk l : rev (stk l) = names l.
Proof. unfold stk, names. rewrite rev_app_distr, rev_repeat. reflexivity. Qed.

Definition goodname (c : string) : Prop := c <> "" /\ sfree c.

Lemma names_good abs l : wf_place abs l -> Forall goodname (names l).
Proof.
  intros [H1 H2]. unfold names. apply Forall_app. split.
  - apply Forall_forall. intros x Hx. apply repeat_spec in Hx. subst. split; [discriminate|reflexivity].
  - apply Forall_rev. eapply Forall_impl; [|exact H1]. intros a (A & B & C & D). split; assumption.
Qed.

Definition render (abs : bool) (l : place) : string :=
  match names l with
  | [] => if abs then "/" else "."
  | ns => pre abs ^^ join_slash ns
  end.

Lemma lexically_normal_shape s : s <> "" ->
  (names (place_of s) = [] /\ lexically_normal s = if is_absolute s then "/" else ".") \/
  (names (place_of s) <> [] /\ exists tl, (tl = "" \/ tl = "/") /\
     lexically_normal s = pre (is_absolute s) ^^ join_slash (names (place_of s)) ^^ tl /\
     (up (place_of s) > 0 -> down (place_of s) = [] -> tl = "")).
Proof.
  intros Hs. unfold lexically_normal. destruct s as [|c r]; [congruence|]. set (s := String c r) in *. clearbody s.
  destruct (normal_fold s) as [tr E]. rewrite E.
  rewrite <- rev_stk.
  destruct (stk (place_of s)) as [|t st] eqn:ES.
  - left. split; reflexivity.
  - right. split.
    { cbn. intros H. destruct (app_cons_not_nil (rev st) [] t). now symmetry. }
    exists (if tr && negb (String.eqb t "..") then "/" else ""). split.
    { destruct (tr && negb (String.eqb t "..")); auto. }
    split; [reflexivity|]. intros U D. unfold stk in ES. rewrite D in ES. cbn in ES.
    destruct (up (place_of s)); [lia|]. cbn in ES. inversion ES; subst. rewrite andb_false_r. reflexivity.
Qed.

Lemma goodname_sfree ns : Forall goodname ns -> Forall sfree ns.
Proof. intros H. eapply Forall_impl; [|exact H]. intros a [_ A]. exact A. Qed.

Lemma last_good ns : ns <> [] -> Forall goodname ns -> last ns "" <> "".
Proof.
  induction ns as [|n ns IH]; [congruence|]. intros _ H. inversion H; subst.
  destruct ns as [|m ns]; [cbn; apply H2|]. cbn [last] in *. apply IH; [discriminate|assumption].
Qed.

Lemma nonempty_true c : c <> "" -> nonempty c = true.
Proof. destruct c; [congruence|reflexivity]. Qed.

Lemma split_pre_join abs ns : ns <> [] -> Forall sfree ns ->
  split_slash (pre abs ^^ join_slash ns) = (if abs then [""] else []) ++ ns.
Proof.
  intros A B. destruct abs; cbn [pre].
  - rewrite split_cons_slash, split_join by assumption. reflexivity.
  - cbn. now apply split_join.
Qed.

Lemma split_pre_join_slash abs ns : ns <> [] -> Forall sfree ns ->
  split_slash (pre abs ^^ join_slash ns ^^ "/") = (if abs then [""] else []) ++ ns ++ [""].
Proof.
  intros A B. replace (join_slash ns ^^ "/") with (join_slash (ns ++ [""])) by (rewrite join_snoc by assumption; reflexivity).
  apply split_pre_join.
  - destruct ns; discriminate.
  - apply Forall_app. split; [assumption|repeat constructor].
Qed.

Lemma last_app_ne {A} (a b : list A) d : b <> [] -> last (a ++ b) d = last b d.
Proof.
  intros Hb. induction a as [|x a IH]; [reflexivity|].
  cbn [app]. destruct (a ++ b) eqn:E; [destruct a; [cbn in E; congruence|discriminate]|]. cbn [last] in *. exact IH.
Qed.

Lemma has_filename_pre_join abs ns : ns <> [] -> Forall goodname ns ->
  has_filename (pre abs ^^ join_slash ns) = true.
Proof.
  intros A B. unfold has_filename, filename. rewrite split_pre_join by (auto using goodname_sfree).
  rewrite last_app_ne by assumption. apply nonempty_true. now apply last_good.
Qed.

Lemma has_filename_pre_join_slash abs ns : ns <> [] -> Forall goodname ns ->
  has_filename (pre abs ^^ join_slash ns ^^ "/") = false.
Proof.
  intros A B. unfold has_filename, filename. rewrite split_pre_join_slash by (auto using goodname_sfree).
  rewrite app_assoc, last_last. reflexivity.
Qed.

Lemma drop_empty_head c r : c <> "" -> drop_empty (c :: r) = c :: r.
Proof. destruct c; [congruence|reflexivity]. Qed.

Lemma drop_empty_rev_good pfx ns : ns <> [] -> Forall goodname ns ->
  rev (drop_empty (rev (pfx ++ ns))) = pfx ++ ns.
Proof.
  intros A B. destruct (exists_last A) as (l & x & ->).
  apply Forall_app in B. destruct B as [_ B]. inversion B; subst. destruct H1 as [H1 _].
  rewrite app_assoc, rev_app_distr. cbn [rev app]. rewrite drop_empty_head by assumption.
  cbn. rewrite rev_involutive. reflexivity.
Qed.

Lemma pre_join_nonempty abs ns : ns <> [] -> Forall goodname ns -> pre abs ^^ join_slash ns <> "".
Proof.
  intros A B E. pose proof (has_filename_pre_join abs ns A B) as H. rewrite E in H. discriminate.
Qed.

Lemma join_pre_list (abs : bool) ns : ns <> [] -> join_slash ((if abs then [""] else []) ++ ns) = pre abs ^^ join_slash ns.
Proof. intros A. destruct abs; [exact (join_abs ns A)|reflexivity]. Qed.

Lemma match_ne {A} (s : string) (a : A) b : s <> "" -> match s with "" => a | _ => b end = b.
Proof. destruct s; [congruence|reflexivity]. Qed.

Lemma existsb_app_r {A} f (a b : list A) : existsb f b = true -> existsb f (a ++ b) = true.
Proof. intros H. rewrite existsb_app, H. apply orb_true_r. Qed.

Lemma existsb_good ns : ns <> [] -> Forall goodname ns -> existsb nonempty ns = true.
Proof.
  intros A B. destruct ns as [|n ns]; [congruence|]. inversion B; subst. cbn.
  rewrite nonempty_true by apply H1. reflexivity.
Qed.

Lemma parent_path_slash abs ns : ns <> [] -> Forall goodname ns ->
  parent_path (pre abs ^^ join_slash ns ^^ "/") = pre abs ^^ join_slash ns.
Proof.
  intros A B. unfold parent_path, has_relative_path.
  rewrite split_pre_join_slash by (auto using goodname_sfree).
  rewrite (existsb_app_r _ _ (ns ++ [""])) by (rewrite existsb_app, existsb_good by assumption; reflexivity).
  rewrite app_assoc, removelast_last, drop_empty_rev_good by assumption.
  rewrite join_pre_list by assumption. rewrite match_ne; [reflexivity|]. now apply pre_join_nonempty.
Qed.

Lemma ToNormalPath_render s : ToNormalPath s = render (is_absolute s) (place_of s).
Proof.
  destruct s as [|c r] eqn:Es; [reflexivity|]. rewrite <- Es.
  assert (s <> "") as Hs by (subst; discriminate). clear c r Es.
  pose proof (names_good _ _ (place_of_wf s)) as G.
  unfold ToNormalPath, render.
  destruct (lexically_normal_shape s Hs) as [[E1 E2]|[E1 (tl & Ht & E2 & _)]]; rewrite E2.
  - rewrite E1. destruct (is_absolute s); reflexivity.
  - assert ((if has_filename (pre (is_absolute s) ^^ join_slash (names (place_of s)) ^^ tl)
            then pre (is_absolute s) ^^ join_slash (names (place_of s)) ^^ tl
            else parent_path (pre (is_absolute s) ^^ join_slash (names (place_of s)) ^^ tl))
            = pre (is_absolute s) ^^ join_slash (names (place_of s))) as ->.
    { destruct Ht as [->| ->].
      - rewrite app_str_nil_r, has_filename_pre_join by assumption. reflexivity.
      - rewrite has_filename_pre_join_slash, parent_path_slash by assumption. reflexivity. }
    rewrite match_ne by (now apply pre_join_nonempty).
    destruct (names (place_of s)); [congruence|reflexivity].
Qed.

Lemma is_absolute_pre abs ns tl : ns <> [] -> Forall goodname ns -> is_absolute (pre abs ^^ join_slash ns ^^ tl) = abs.
Proof.
  intros A B. destruct abs; [reflexivity|]. cbn [pre]. destruct ns as [|n ns]; [congruence|].
  inversion B; subst. destruct H1 as [H1 H3]. unfold sfree in H3.
  destruct n as [|c n]; [congruence|]. cbn in H3. apply orb_false_iff in H3. destruct H3 as [H3 _].
  destruct ns; cbn; exact H3.
Qed.

Lemma walk_repeat_up n l : down l = [] ->
  fold_left (step false) (repeat ".." n) l = mkPlace (up l + n) [].
Proof.
  revert l. induction n as [|n IH]; intros [u d] H; cbn in H; subst.
  - cbn. f_equal. lia.
  - cbn [repeat fold_left]. unfold step at 2. cbn. rewrite IH by reflexivity. cbn. f_equal. lia.
Qed.

Lemma walk_names_down abs ns l : Forall okname ns ->
  fold_left (step abs) ns l = mkPlace (up l) (rev ns ++ down l).
Proof.
  revert l. induction ns as [|n ns IH]; intros l H; [destruct l; reflexivity|].
  inversion H; subst. destruct H2 as (A & B & C & D). cbn [fold_left].
  rewrite step_name by assumption. rewrite IH by assumption. cbn. rewrite <- app_assoc. reflexivity.
Qed.

Lemma walk_names abs l : wf_place abs l -> walk abs (names l) = l.
Proof.
  intros [H1 H2]. unfold walk, names. rewrite fold_left_app.
  assert (fold_left (step abs) (repeat ".." (up l)) (mkPlace 0 []) = mkPlace (up l) []) as ->.
  { destruct abs; [rewrite H2 by reflexivity; reflexivity|]. rewrite walk_repeat_up by reflexivity. reflexivity. }
  rewrite walk_names_down by (now apply Forall_rev). cbn. rewrite rev_involutive, app_nil_r.
  destruct l; reflexivity.
Qed.

Lemma names_nil l : names l = [] -> l = mkPlace 0 [].
Proof.
  unfold names. intros H. apply app_eq_nil in H. destruct H as [A B]. destruct l as [u d]. cbn in *.
  destruct u; [|discriminate]. destruct d as [|x d]; [reflexivity|]. cbn in B. destruct (rev d); discriminate.
Qed.

Lemma render_place abs l : wf_place abs l -> is_absolute (render abs l) = abs /\ place_of (render abs l) = l.
Proof.
  intros W. pose proof (names_good _ _ W) as G. unfold render.
  destruct (names l) as [|n ns] eqn:E.
  - apply names_nil in E. subst. destruct abs; split; reflexivity.
  - rewrite <- E in *. assert (names l <> []) as NE by (rewrite E; discriminate).
    assert (is_absolute (pre abs ^^ join_slash (names l)) = abs) as HA.
    { rewrite <- (app_str_nil_r (join_slash (names l))). now apply is_absolute_pre. }
    split; [exact HA|]. unfold place_of. rewrite HA. rewrite split_pre_join by (auto using goodname_sfree).
    rewrite <- (walk_names abs l W) at 2. unfold walk. rewrite fold_left_app.
    destruct abs; reflexivity.
Qed.

Lemma ToNormalPath_idem s : ToNormalPath (ToNormalPath s) = ToNormalPath s.
Proof.
  rewrite (ToNormalPath_render (ToNormalPath s)), (ToNormalPath_render s).
  destruct (render_place _ _ (place_of_wf s)) as [A B]. rewrite A, B. reflexivity.
Qed.

Lemma ToNormalPath_same_place s :
  is_absolute (ToNormalPath s) = is_absolute s /\ place_of (ToNormalPath s) = place_of s.
Proof. rewrite ToNormalPath_render. apply render_place. apply place_of_wf. Qed.

Lemma ToNormalPath_canonical s t :
  is_absolute s = is_absolute t -> place_of s = place_of t -> ToNormalPath s = ToNormalPath t.
Proof. intros A B. rewrite !ToNormalPath_render, A, B. reflexivity. Qed.

Lemma ToNormalPath_shape s : normal_shape (ToNormalPath s).
Proof.
  rewrite ToNormalPath_render. unfold render, normal_shape. pose proof (place_of_wf s) as [W1 W2].
  destruct (names (place_of s)) as [|n ns] eqn:E.
  - destruct (is_absolute s); auto.
  - right; right. exists (is_absolute s), (up (place_of s)), (rev (down (place_of s))).
    rewrite <- E. repeat split.
    + apply Forall_rev. eapply Forall_impl; [|exact W1]. intros a. apply okname_plain.
    + exact W2.
    + unfold names in E. destruct (up (place_of s)); [right|left; lia].
      cbn in E. rewrite E. discriminate.
Qed.

(** ** Non-upwards paths *)

Lemma step_up_mono abs l c : up l <= up (step abs l c).
Proof.
  unfold step. destruct (String.eqb c ""), (String.eqb c "."), (String.eqb c ".."); cbn; try lia.
  destruct (down l); [destruct abs|]; cbn; lia.
Qed.

Lemma fold_up_mono abs cs l : up l <= up (fold_left (step abs) cs l).
Proof.
  revert l. induction cs as [|c cs IH]; intros l; [cbn; lia|]. cbn.
  pose proof (step_up_mono abs l c). pose proof (IH (step abs l c)). lia.
Qed.

Lemma up_zero_iff cs : forall d,
  up (fold_left (step false) cs (mkPlace 0 d)) = 0 <->
  forall n, (0 <= Z.of_nat (List.length d) + depth (firstn n cs))%Z.
Proof.
  induction cs as [|c cs IH]; intros d.
  - cbn. split; [intros _ n|reflexivity]. rewrite firstn_nil. cbn. lia.
  - cbn [fold_left]. unfold step at 2.
    assert (forall z (d' : list string), (forall n, (0 <= Z.of_nat (List.length d') + depth (firstn n cs))%Z) ->
             level c = z -> Z.of_nat (List.length d') = (Z.of_nat (List.length d) + z)%Z ->
             forall n, (0 <= Z.of_nat (List.length d) + depth (firstn n (c :: cs)))%Z) as Hfw.
    { intros z d' H Hz Hd [|n]; [cbn; lia|]. cbn. specialize (H n). rewrite Hz. fold (depth (firstn n cs)). lia. }
    assert (forall z (d' : list string), (forall n, (0 <= Z.of_nat (List.length d) + depth (firstn n (c :: cs)))%Z) ->
             level c = z -> Z.of_nat (List.length d') = (Z.of_nat (List.length d) + z)%Z ->
             forall n, (0 <= Z.of_nat (List.length d') + depth (firstn n cs))%Z) as Hbw.
    { intros z d' H Hz Hd n. specialize (H (S n)). cbn in H. rewrite Hz in H. fold (depth (firstn n cs)) in H. lia. }
    unfold level in Hfw, Hbw.
    destruct (String.eqb c ""); [|destruct (String.eqb c "."); [|destruct (String.eqb c "..") eqn:E3]].
    + rewrite IH. split; intros H; [eapply (Hfw 0%Z d)|eapply (Hbw 0%Z d)]; eauto; lia.
    + rewrite IH. split; intros H; [eapply (Hfw 0%Z d)|eapply (Hbw 0%Z d)]; eauto; lia.
    + cbn [down up]. destruct d as [|x d].
      * split.
        -- intros H. pose proof (fold_up_mono false cs (mkPlace 1 [])). cbn [up] in *. lia.
        -- intros H. exfalso. specialize (H 1). apply String.eqb_eq in E3. subst c.
           vm_compute in H. apply H. reflexivity.
      * rewrite IH. split; intros H; [eapply (Hfw (-1)%Z d)|eapply (Hbw (-1)%Z d)]; eauto; cbn [List.length]; lia.
    + cbn [down up]. rewrite IH. split; intros H; [eapply (Hfw 1%Z (c :: d))|eapply (Hbw 1%Z (c :: d))]; eauto; cbn [List.length]; lia.
Qed.

Lemma up_zero_never_above cs : up (walk false cs) = 0 <-> never_above cs.
Proof. unfold walk, never_above. rewrite up_zero_iff. cbn. reflexivity. Qed.
