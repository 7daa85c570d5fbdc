From Coq Require Import String Ascii List Bool ZArith Lia.
From Verif Require Import Common.Strs Path.Model Path.Spec Path.Proofs.
Import ListNotations.
Local Open Scope string_scope.
Local Open Scope list_scope.
Local Infix "^^" := String.append (at level 60, right associativity).

Lemma filter_good ns : Forall goodname ns -> filter nonempty ns = ns.
Proof.
  induction ns as [|n ns IH]; intros H; [reflexivity|]. inversion H; subst. cbn.
  rewrite nonempty_true by apply H2. f_equal. auto.
Qed.

Lemma rel_elements_join abs ns : ns <> [] -> Forall goodname ns -> rel_elements (pre abs ^^ join_slash ns) = ns.
Proof.
  intros A B. unfold rel_elements. rewrite has_filename_pre_join by assumption. rewrite andb_false_r.
  rewrite split_pre_join by (auto using goodname_sfree). rewrite filter_app.
  rewrite (filter_good ns B). destruct abs; reflexivity.
Qed.

Lemma rel_elements_join_slash abs ns : ns <> [] -> Forall goodname ns ->
  rel_elements (pre abs ^^ join_slash ns ^^ "/") = ns ++ [""].
Proof.
  intros A B. unfold rel_elements. rewrite has_filename_pre_join_slash by assumption.
  unfold has_relative_path. rewrite split_pre_join_slash by (auto using goodname_sfree).
  rewrite existsb_app_r by (rewrite existsb_app, existsb_good by assumption; reflexivity).
  cbn [negb andb]. rewrite !filter_app, (filter_good ns B). destruct abs; cbn; rewrite app_nil_r; reflexivity.
Qed.

Lemma elements_hd ns n tl : (tl = "" \/ tl = "/") -> Forall goodname (n :: ns) ->
  exists rest, elements (pre false ^^ join_slash (n :: ns) ^^ tl) = n :: rest.
Proof.
  intros Ht G. unfold elements. rewrite is_absolute_pre by (discriminate || assumption). cbn [app].
  destruct Ht as [->| ->].
  - rewrite app_str_nil_r, rel_elements_join by (discriminate || assumption). eauto.
  - rewrite rel_elements_join_slash by (discriminate || assumption). cbn. eauto.
Qed.

Lemma nonupwards_up s :
  PathIsNonUpwards s = true <-> is_absolute s = false /\ up (place_of s) = 0.
Proof.
  unfold PathIsNonUpwards. destruct (is_absolute s) eqn:A; [split; [discriminate|intros [H _]; discriminate]|].
  pose proof (place_of_wf s) as W. pose proof (names_good _ _ W) as G.
  destruct s as [|c r] eqn:Es; [cbn; intuition|]. rewrite <- Es in *.
  assert (s <> "") as Hs by (subst; discriminate). clear c r Es.
  destruct (lexically_normal_shape s Hs) as [[E1 E2]|[E1 (tl & Ht & E2 & _)]]; rewrite E2, A.
  - apply names_nil in E1. rewrite E1. cbn. intuition.
  - destruct (names (place_of s)) as [|n ns] eqn:EN; [congruence|].
    destruct (elements_hd ns n tl Ht G) as [rest ->].
    unfold names in EN. destruct (up (place_of s)) as [|u] eqn:EU.
    + split; [auto|]. intros _. cbn in EN. destruct W as [W1 _]. apply Forall_rev in W1. rewrite EN in W1.
      inversion W1; subst. destruct H1 as (_ & _ & H1 & _).
      destruct (String.eqb_spec n ".."); [contradiction|reflexivity].
    + cbn in EN. inversion EN; subst. cbn. split; [discriminate|]. intros [_ H]. discriminate.
Qed.

Lemma nonupwards_exact s :
  PathIsNonUpwards s = true <-> is_absolute s = false /\ never_above (split_slash s).
Proof.
  rewrite nonupwards_up. split; intros [A B]; split; try assumption.
  - apply up_zero_never_above. unfold place_of in B. rewrite A in B. exact B.
  - unfold place_of. rewrite A. now apply up_zero_never_above.
Qed.

(** ** Appending *)

Lemma append_place p q : is_absolute q = false ->
  is_absolute (append p q) = is_absolute p /\
  place_of (append p q) = fold_left (step (is_absolute p)) (split_slash q) (place_of p).
Proof.
  intros Q. unfold append. rewrite Q. destruct (has_filename p) eqn:F.
  - assert (is_absolute (p ^^ "/" ^^ q) = is_absolute p) as A.
    { destruct p as [|c p]; [discriminate|reflexivity]. }
    split; [exact A|]. unfold place_of. rewrite A, split_app. unfold walk. apply fold_left_app.
  - destruct p as [|c0 p0] eqn:Ep.
    + split; [exact Q|]. unfold place_of. cbn. rewrite Q. reflexivity.
    + rewrite <- Ep in *. assert (p <> "") as Hp by (subst; discriminate). clear c0 p0 Ep.
      (* p ends with a slash *)
      assert (exists p', p = p' ^^ "/") as [p' E].
      { pose proof (join_split p) as J. unfold has_filename, filename in F.
        destruct (exists_last (split_nonnil p)) as (l & x & EL). rewrite EL in F, J. rewrite last_last in F.
        destruct x as [|? ?]; [|discriminate].
        destruct l as [|y l]; [cbn in J; congruence|].
        exists (join_slash (y :: l)). rewrite <- J. rewrite join_snoc by discriminate. reflexivity. }
      assert (p ^^ q = p' ^^ "/" ^^ q) as E' by (rewrite E, app_str_assoc; reflexivity).
      assert (is_absolute (p ^^ q) = is_absolute p) as A.
      { destruct p as [|c p0]; [congruence|reflexivity]. }
      split; [exact A|]. unfold place_of. rewrite A, E'.
      assert (split_slash p = split_slash p' ++ [""]) as ES by (rewrite E; exact (split_app p' "")).
      rewrite ES, split_app. unfold walk. rewrite !fold_left_app. reflexivity.
Qed.

Lemma parent_path_join dir name : goodname name -> dir <> "" -> Forall goodname (split_slash dir) ->
  parent_path (dir ^^ "/" ^^ name) = dir.
Proof.
  intros N D G.
  set (ns := split_slash dir ++ [name]).
  assert (dir ^^ "/" ^^ name = join_slash ns) as E.
  { unfold ns. rewrite join_snoc by apply split_nonnil. rewrite join_split. reflexivity. }
  rewrite E. unfold parent_path, has_relative_path.
  assert (split_slash (join_slash ns) = ns) as ES.
  { apply split_join; [unfold ns; destruct (split_slash dir); discriminate|].
    unfold ns. apply Forall_app. split; [now apply goodname_sfree|]. repeat constructor; apply N. }
  rewrite ES. unfold ns at 1. rewrite existsb_app_r by (cbn; rewrite nonempty_true by apply N; reflexivity).
  unfold ns. rewrite removelast_last.
  pose proof (drop_empty_rev_good [] (split_slash dir) (split_nonnil dir) G) as H. cbn [app] in H. rewrite H.
  rewrite join_split. apply match_ne. exact D.
Qed.

Lemma parent_path_single name : goodname name -> parent_path name = "".
Proof.
  intros N. unfold parent_path, has_relative_path. rewrite split_of_sfree by apply N. cbn.
  rewrite nonempty_true by apply N. cbn.
  destruct (is_absolute name) eqn:A; [|reflexivity].
  apply is_absolute_split in A. destruct A as (p & ps & E). rewrite split_of_sfree in E by apply N. discriminate.
Qed.

Lemma confined_exact p link :
  PathIsConfined p link = true <->
  is_absolute p = false /\ is_absolute (parent_path link) = false /\
  never_above (split_slash (parent_path link) ++ split_slash p).
Proof.
  unfold PathIsConfined. destruct (is_absolute p) eqn:A; [split; [discriminate|intros [H _]; discriminate]|].
  rewrite nonupwards_up. destruct (append_place (parent_path link) p A) as [H1 H2]. rewrite H1, H2.
  rewrite <- up_zero_never_above. unfold place_of, walk. rewrite fold_left_app.
  split; intros [B C].
  - rewrite B in C. auto.
  - destruct C as [C D]. rewrite C. auto.
Qed.

(** Statement for a link given by its directory and its name. *)
Lemma confined_link dir name p : goodname name -> Forall goodname (split_slash dir) ->
  (PathIsConfined p (dir ^^ "/" ^^ name) = true <->
   is_absolute p = false /\ never_above (split_slash dir ++ split_slash p)).
Proof.
  intros N G. rewrite confined_exact.
  assert (dir <> "") as D. { intros ->. cbn in G. inversion G; subst. now destruct H1. }
  rewrite (parent_path_join dir name N D G).
  assert (is_absolute dir = false) as A.
  { destruct (is_absolute dir) eqn:A; [|reflexivity]. apply is_absolute_split in A.
    destruct A as (q & qs & E). rewrite E in G. inversion G; subst. now destruct H1. }
  rewrite A. tauto.
Qed.

Lemma confined_toplevel name p : goodname name ->
  (PathIsConfined p name = true <-> is_absolute p = false /\ never_above (split_slash p)).
Proof.
  intros N. rewrite confined_exact, (parent_path_single name N). cbn [split_slash is_absolute].
  assert (never_above ([""] ++ split_slash p) <-> never_above (split_slash p)) as ->; [|tauto].
  rewrite <- !up_zero_never_above. reflexivity.
Qed.

(** ** File names *)
Lemma valid_file_name_exact s :
  IsValidFileName s = true <->
  s <> "" /\ s <> "." /\ s <> ".." /\ ~ In "/"%char (list_ascii_of_string s).
Proof.
  rewrite <- contains_slash_In. unfold IsValidFileName.
  destruct (contains_slash s); [intuition discriminate|].
  destruct (String.eqb_spec s "."); [subst; cbn; intuition discriminate|].
  destruct (String.eqb_spec s ".."); [subst; cbn; intuition discriminate|].
  destruct s; cbn; intuition (try discriminate; try congruence).
Qed.

Lemma valid_file_name_nul :
  exists s, IsValidFileName s = true /\ In "000"%char (list_ascii_of_string s).
Proof. exists (String "a" (String "000" "")). split; [reflexivity|right; left; reflexivity]. Qed.

(** ** Module names *)

Lemma fold_append_names acc ns : Forall goodname ns -> ns <> [] ->
  acc <> [] -> Forall goodname acc ->
  fold_left append ns (join_slash acc) = join_slash (acc ++ ns).
Proof.
  revert acc. induction ns as [|n ns IH]; intros acc G NE A GA; [congruence|].
  inversion G; subst. cbn [fold_left].
  assert (append (join_slash acc) n = join_slash (acc ++ [n])) as ->.
  { unfold append.
    assert (is_absolute n = false) as ->.
    { destruct (is_absolute n) eqn:E; [|reflexivity]. apply is_absolute_split in E.
      destruct E as (p & ps & E). rewrite split_of_sfree in E by apply H1. discriminate. }
    pose proof (has_filename_pre_join false acc A GA) as HF. cbn in HF. rewrite HF.
    rewrite join_snoc by assumption. reflexivity. }
  destruct ns as [|m ns]; [reflexivity|].
  rewrite IH; [|assumption|discriminate|destruct acc; discriminate|apply Forall_app; auto].
  rewrite <- app_assoc. reflexivity.
Qed.

Lemma fold_append_trailing ns : Forall goodname ns -> ns <> [] ->
  fold_left append (ns ++ [""]) "" = join_slash ns ^^ "/".
Proof.
  intros G NE. rewrite fold_left_app. cbn [fold_left].
  assert (fold_left append ns "" = join_slash ns) as ->.
  { destruct ns as [|n ns]; [congruence|]. inversion G; subst. cbn [fold_left].
    assert (append "" n = join_slash [n]) as ->.
    { unfold append. destruct (is_absolute n); reflexivity. }
    destruct ns as [|m ns]; [reflexivity|].
    apply fold_append_names; [assumption|discriminate|discriminate|auto]. }
  unfold append. cbn [is_absolute].
  pose proof (has_filename_pre_join false ns NE G) as HF. cbn in HF. rewrite HF.
  reflexivity.
Qed.

Lemma root_place m : place_of ("/" ^^ m ^^ "/") = walk true (split_slash m).
Proof.
  unfold place_of. change (is_absolute ("/" ^^ m ^^ "/")) with true.
  rewrite split_cons_slash. change ("/" : string) with ("/" ^^ ""). rewrite split_app.
  unfold walk. cbn [fold_left]. rewrite fold_left_app. reflexivity.
Qed.

Lemma walk_true_wf m : wf_place true (walk true (split_slash m)).
Proof. apply fold_wf; [split; [constructor|reflexivity]|apply split_sfree]. Qed.

Lemma lexically_normal_dir x : has_filename x = false -> up (place_of x) = 0 ->
  names (place_of x) <> [] ->
  lexically_normal x = pre (is_absolute x) ^^ join_slash (names (place_of x)) ^^ "/".
Proof.
  intros F U NE.
  assert (x <> "") as Hx by (intros ->; apply NE; reflexivity).
  unfold lexically_normal. destruct x as [|c r] eqn:Ex; [congruence|]. rewrite <- Ex in *. clear c r Ex Hx.
  destruct (normal_fold x) as [tr E].
  assert (tr = true) as ->.
  { unfold rel_elements in E. rewrite F in E. cbn [negb] in E. rewrite andb_true_r in E.
    destruct (has_relative_path x) eqn:HR.
    - rewrite fold_left_app in E. cbn [fold_left] in E.
      destruct (fold_left (normal_step (is_absolute x)) (filter nonempty (split_slash x)) ([], false)) as [st tr'].
      unfold normal_step in E. cbn in E. congruence.
    - exfalso. apply NE. rewrite <- walk_rel_elements. unfold rel_elements. rewrite F, HR. cbn [andb].
      unfold has_relative_path in HR.
      assert (filter nonempty (split_slash x) = []) as ->; [|reflexivity].
      clear -HR. induction (split_slash x) as [|y l IH]; [reflexivity|]. cbn in *.
      apply orb_false_iff in HR. destruct HR as [A B]. rewrite A. auto. }
  rewrite E. rewrite <- rev_stk in NE |- *. destruct (stk (place_of x)) as [|t st] eqn:ES; [exfalso; apply NE; reflexivity|].
  assert (t <> "..") as Ht.
  { unfold stk in ES. rewrite U in ES. cbn in ES. rewrite app_nil_r in ES.
    pose proof (place_of_wf x) as [W _]. rewrite ES in W. inversion W; subst. apply H1. }
  destruct (String.eqb_spec t ".."); [contradiction|]. reflexivity.
Qed.

Lemma lexically_normal_root x : x <> "" -> names (place_of x) = [] ->
  lexically_normal x = if is_absolute x then "/" else ".".
Proof.
  intros Hx NE. destruct (lexically_normal_shape x Hx) as [[_ E]|[C _]]; [exact E|contradiction].
Qed.

Lemma has_filename_slash m : has_filename (m ^^ "/") = false.
Proof.
  unfold has_filename, filename. pose proof (split_app m "") as E. cbn in E. rewrite E, last_last. reflexivity.
Qed.

Lemma normal_module_name_eq m :
  normal_module_name m = join_slash (rev (down (walk true (split_slash m)))).
Proof.
  unfold normal_module_name.
  change ((("/" ++ m ++ "/")%string)) with ("/" ^^ m ^^ "/").
  set (x := "/" ^^ m ^^ "/").
  assert (x <> "") as Hx by discriminate.
  pose proof (root_place m) as RP. fold x in RP.
  assert (is_absolute x = true) as AX by reflexivity.
  pose proof (walk_true_wf m) as W. pose proof (names_good _ _ W) as G.
  assert (up (walk true (split_slash m)) = 0) as U by (apply W; reflexivity).
  assert (names (walk true (split_slash m)) = rev (down (walk true (split_slash m)))) as EN.
  { unfold names. rewrite U. reflexivity. }
  rewrite <- EN. rewrite <- RP in *.
  assert (has_filename x = false) as HF.
  { unfold x. rewrite <- app_str_assoc. apply has_filename_slash. }
  destruct (names (place_of x)) as [|n ns] eqn:ENS.
  - rewrite lexically_normal_root by assumption. rewrite AX. reflexivity.
  - rewrite <- ENS in *. assert (names (place_of x) <> []) as NE by (rewrite ENS; discriminate).
    rewrite lexically_normal_dir by assumption. rewrite AX.
    unfold lexically_relative.
    rewrite is_absolute_pre by assumption. cbn [is_absolute slash Ascii.eqb Bool.eqb negb].
    change (is_absolute "/") with true. cbn [Bool.eqb negb].
    unfold elements at 1. rewrite is_absolute_pre by assumption. cbn [app].
    rewrite rel_elements_join_slash by assumption.
    change (elements "/") with ["/"]. cbn [mismatch String.eqb Ascii.eqb Bool.eqb].
    destruct (names (place_of x) ++ [""]) as [|y l] eqn:EL; [destruct (names (place_of x)); discriminate|].
    assert (mismatch (y :: l) [] = (y :: l, [])) as -> by reflexivity.
    assert (y = n) as Ey by (rewrite ENS in EL; cbn in EL; congruence).
    cbn [count_up Z.eqb]. rewrite ENS in G. inversion G; subst. rewrite nonempty_true by apply H1. cbn [negb andb Z.leb Z.compare Z.to_nat repeat app].
    rewrite <- EL, fold_append_trailing by (rewrite ?ENS; assumption || discriminate).
    pose proof (parent_path_slash false (names (place_of x)) NE) as PP. cbn [pre String.append] in PP.
    apply PP. rewrite ENS. assumption.
Qed.

(** The normal form of a module is itself normal, and two spellings of one module agree. *)
Lemma split_join_down l : Forall okname l ->
  walk true (split_slash (join_slash (rev l))) = mkPlace 0 l.
Proof.
  intros H. destruct l as [|a l]; [reflexivity|].
  rewrite split_join.
  - unfold walk. rewrite walk_names_down by (now apply Forall_rev). rewrite rev_involutive, app_nil_r. reflexivity.
  - cbn. destruct (rev l); discriminate.
  - apply Forall_rev. eapply Forall_impl; [|exact H]. intros x (A & B & C & D). exact D.
Qed.

Lemma normal_module_idem m : normal_module_name (normal_module_name m) = normal_module_name m.
Proof.
  rewrite !normal_module_name_eq. rewrite split_join_down; [reflexivity|]. apply walk_true_wf.
Qed.

Lemma normal_module_same m m' :
  normal_module_name m = normal_module_name m' <->
  walk true (split_slash m) = walk true (split_slash m').
Proof.
  rewrite !normal_module_name_eq. split; [|intros ->; reflexivity].
  intros E. pose proof (walk_true_wf m) as [W1 W2]. pose proof (walk_true_wf m') as [W1' W2'].
  pose proof (split_join_down _ W1) as A. pose proof (split_join_down _ W1') as B. rewrite E, B in A.
  destruct (walk true (split_slash m)) as [u d], (walk true (split_slash m')) as [u' d']. cbn in *.
  rewrite W2, W2' by reflexivity. symmetry. exact A.
Qed.

Lemma normal_module_shape m : exists l, Forall plain l /\ normal_module_name m = join_slash l.
Proof.
  rewrite normal_module_name_eq. eexists. split; [|reflexivity].
  apply Forall_rev. eapply Forall_impl; [|apply walk_true_wf]. intros a. apply okname_plain.
Qed.

(** ** Relative modules *)

Lemma substring_app n : forall a b, String.length a = n -> substring 0 n (a ^^ b) = a.
Proof.
  induction n as [|n IH]; intros [|c a] b H; try discriminate.
  - destruct b; reflexivity.
  - cbn. f_equal. apply IH. cbn in H. congruence.
Qed.

(** Which normalised relative paths start with dot-dot-slash. *)
Lemma starts_updir_names ns tl : Forall goodname ns -> ns <> [] -> (tl = "" \/ tl = "/") ->
  starts_updir (join_slash ns ^^ tl) = true <-> (hd "" ns = ".." /\ (List.length ns > 1 \/ tl = "/")).
Proof.
  intros G NE Ht. destruct ns as [|n ns]; [congruence|]. inversion G; subst. destruct H1 as [N1 N2].
  unfold starts_updir. cbn [hd].
  assert (exists t : string, join_slash (n :: ns) ^^ tl = n ^^ t /\
          ((t = "" /\ ns = [] /\ tl = "") \/ (exists t', t = "/" ^^ t' /\ (ns <> [] \/ tl = "/")))) as (t & Et & Ht').
  { destruct ns as [|m ns].
    - exists tl. split; [reflexivity|]. destruct Ht as [->| ->]; [left; auto|right; exists ""; auto].
    - exists ("/" ^^ join_slash (m :: ns) ^^ tl). rewrite join_cons by discriminate. rewrite !app_str_assoc.
      split; [reflexivity|]. right. eexists. split; [reflexivity|]. left. discriminate. }
  rewrite Et. rewrite String.eqb_eq. split.
  - intros E.
    assert (n = ".." /\ exists t', t = "/" ^^ t') as [En [t' Et']].
    { unfold sfree in N2. destruct n as [|c1 n]; [congruence|]. cbn in E, N2. injection E as E1 E.
      subst c1. cbn in N2. destruct n as [|c2 n].
      - exfalso. cbn in E. destruct Ht' as [[-> _]|(t' & -> & _)]; [discriminate|]. cbn in E. discriminate.
      - cbn in E, N2. injection E as E2 E. subst c2. cbn in N2. destruct n as [|c3 n].
        + split; [reflexivity|]. destruct Ht' as [[-> _]|(t' & -> & _)]; [discriminate|]. eauto.
        + exfalso. cbn in E, N2. injection E as E3 E. subst c3. discriminate. }
    split; [assumption|]. destruct Ht' as [[-> _]|(t'' & _ & [H|H])]; [discriminate| |auto].
    left. destruct ns; [congruence|cbn; lia].
  - intros [-> H]. destruct Ht' as [(-> & -> & ->)|(t' & -> & _)].
    + cbn in H. destruct H as [H|H]; [lia|discriminate].
    + cbn. destruct t'; reflexivity.
Qed.

Lemma relative_module_exact cur rel :
  is_absolute cur = false -> is_absolute rel = false ->
  let l := walk false (split_slash cur ++ split_slash rel) in
  relative_module cur rel =
    (if Nat.eqb (up l) 0 then Some (join_slash (rev (down l)))
     else if Nat.eqb (up l) 1 && match down l with [] => true | _ => false end then Some ""
     else None).
Proof.
  intros AC AR l.
  destruct (append_place cur rel AR) as [HA HP]. rewrite AC in HA, HP.
  assert (place_of (append cur rel) = l) as EL.
  { rewrite HP. unfold l, place_of, walk. rewrite AC, fold_left_app. reflexivity. }
  pose proof (place_of_wf (append cur rel)) as W. rewrite HA, EL in W.
  pose proof (names_good _ _ W) as G. pose proof W as [W1 _].
  unfold relative_module.
  destruct (append cur rel) as [|c0 r0] eqn:Ex.
  { cbn in EL. rewrite <- EL. reflexivity. }
  rewrite <- Ex in *. assert (append cur rel <> "") as Hx by (rewrite Ex; discriminate).
  destruct (lexically_normal_shape _ Hx) as [[E1 E2]|[E1 (tl & Ht & E2 & Hup)]]; rewrite HA, ?EL in *; rewrite E2.
  - apply names_nil in E1. rewrite E1. reflexivity.
  - cbn [pre String.append].
    pose proof (starts_updir_names (names l) tl G E1 Ht) as SU.
    assert (forall cs, walk true (split_slash (join_slash cs ^^ tl)) = walk true (split_slash (join_slash cs))) as WT.
    { intros cs. destruct Ht as [->| ->]; [rewrite app_str_nil_r; reflexivity|].
      pose proof (split_app (join_slash cs) "") as SP. cbn in SP. rewrite SP. unfold walk.
      rewrite fold_left_app. reflexivity. }
    destruct l as [u d] eqn:Hl. cbn [up down] in *. unfold names in *. cbn [up down] in *.
    destruct u as [|[|u]]; cbn [Nat.eqb andb].
    + cbn [repeat app] in *.
      assert (starts_updir (join_slash (rev d) ^^ tl) = false) as ->.
      { destruct (starts_updir (join_slash (rev d) ^^ tl)) eqn:ES; [|reflexivity]. exfalso.
        destruct (proj1 SU eq_refl) as [ES' _]. clear ES. rename ES' into ES. apply Forall_rev in W1.
        destruct (rev d) as [|y ys]; [congruence|]. inversion W1; subst. cbn in ES. destruct H1 as (_ & _ & H1 & _). contradiction. }
      rewrite normal_module_name_eq, WT, split_join_down by assumption. reflexivity.
    + destruct d as [|x d].
      * specialize (Hup ltac:(lia) eq_refl). subst tl. reflexivity.
      * assert (starts_updir (join_slash (repeat ".." 1 ++ rev (x :: d)) ^^ tl) = true) as ->; [|reflexivity].
        apply SU. split; [reflexivity|]. left. cbn [repeat app List.length]. rewrite rev_length. cbn. lia.
    + assert (starts_updir (join_slash (repeat ".." (S (S u)) ++ rev d) ^^ tl) = true) as ->; [|reflexivity].
      apply SU. split; [reflexivity|]. left. cbn. lia.
Qed.

Lemma relative_module_sound cur rel m :
  is_absolute cur = false -> is_absolute rel = false ->
  relative_module cur rel = Some m ->
  ToNormalPath (append cur rel) <> ".." ->
  never_above (split_slash cur ++ split_slash rel) /\ m = join_slash (rev (down (walk false (split_slash cur ++ split_slash rel)))).
Proof.
  intros AC AR E N. rewrite relative_module_exact in E by assumption.
  set (l := walk false (split_slash cur ++ split_slash rel)) in *.
  destruct (Nat.eqb_spec (up l) 0) as [U|U].
  - split; [now apply up_zero_never_above|congruence].
  - exfalso. destruct (Nat.eqb_spec (up l) 1) as [U1|U1]; [|discriminate].
    destruct (down l) as [|x d] eqn:D; [|discriminate]. apply N.
    rewrite ToNormalPath_render. destruct (append_place cur rel AR) as [HA HP]. rewrite HA, HP, AC.
    assert (fold_left (step false) (split_slash rel) (place_of cur) = l) as ->.
    { unfold l, walk, place_of. rewrite AC, fold_left_app. reflexivity. }
    unfold render, names. rewrite U1, D. reflexivity.
Qed.

Lemma relative_module_complete cur rel :
  is_absolute cur = false -> is_absolute rel = false ->
  never_above (split_slash cur ++ split_slash rel) ->
  relative_module cur rel = Some (join_slash (rev (down (walk false (split_slash cur ++ split_slash rel))))).
Proof.
  intros AC AR N. rewrite relative_module_exact by assumption. apply up_zero_never_above in N. rewrite N. reflexivity.
Qed.

Lemma relative_module_escape :
  exists cur rel m, is_absolute cur = false /\ is_absolute rel = false /\   relative_module cur rel = Some m /\ ~ never_above (split_slash cur ++ split_slash rel).
Proof.
  exists "", "..", "". repeat split. intros H. specialize (H 2). cbn in H. lia.
Qed.

Lemma sfree_not_In c : ~ In "/"%char (list_ascii_of_string c) -> sfree c.
Proof.
  intros H. unfold sfree. destruct (contains_slash c) eqn:E; [|reflexivity].
  exfalso. apply H. now apply contains_slash_In.
Qed.

Lemma confined_link_exact dir name target :
  name <> "" -> ~ In "/"%char (list_ascii_of_string name) ->
  Forall (fun c => c <> "") (split_slash dir) ->
  (PathIsConfined target (dir ++ "/" ++ name)%string = true <->
   is_absolute target = false /\ never_above (split_slash dir ++ split_slash target)).
Proof.
  intros A B C. apply confined_link; [split; [assumption|now apply sfree_not_In]|].
  pose proof (split_sfree dir) as D. revert C D. generalize (split_slash dir) as l.
  induction l as [|x l IH]; intros C D; constructor.
  - inversion C; inversion D; subst. split; assumption.
  - inversion C; inversion D; subst. auto.
Qed.

Lemma confined_top_exact name target :
  name <> "" -> ~ In "/"%char (list_ascii_of_string name) ->
  (PathIsConfined target name = true <-> is_absolute target = false /\ never_above (split_slash target)).
Proof. intros A B. apply confined_toplevel. split; [assumption|now apply sfree_not_In]. Qed.

Lemma join_empty_head l : l <> [] -> is_absolute (join_slash ("" :: l)) = true.
Proof. destruct l; [congruence|reflexivity]. Qed.

Lemma drop_rev_head_empty l : hd "" l = "" -> 
  rev (drop_empty (rev l)) = [] \/ (hd "" (rev (drop_empty (rev l))) = "" /\ List.length (rev (drop_empty (rev l))) > 1).
Proof.
  destruct l as [|y l]; [left; reflexivity|]. cbn. intros ->.
  induction l as [|x l IH] using rev_ind; [left; reflexivity|].
  rewrite rev_app_distr. cbn. destruct x as [|a x]; [exact IH|].
  right. cbn. rewrite rev_app_distr. cbn. rewrite rev_involutive. split; [reflexivity|].
  rewrite app_length. cbn. lia.
Qed.

Lemma parent_path_absolute s : is_absolute s = true -> is_absolute (parent_path s) = true.
Proof.
  intros A. unfold parent_path. destruct (has_relative_path s); [|assumption].
  pose proof (proj1 (is_absolute_split s) A) as (p & ps & E). rewrite E.
  assert (hd "" (removelast ("" :: p :: ps)) = "") as H by reflexivity.
  destruct (drop_rev_head_empty _ H) as [D|[D1 D2]].
  - rewrite D. cbn. rewrite A. reflexivity.
  - destruct (rev (drop_empty (rev (removelast ("" :: p :: ps))))) as [|x [|y l]]; cbn [hd List.length] in *; try lia.
    subst x. reflexivity.
Qed.

Lemma confined_absolute target link : is_absolute link = true -> PathIsConfined target link = false.
Proof.
  intros A. destruct (PathIsConfined target link) eqn:E; [|reflexivity].
  apply confined_exact in E. destruct E as (_ & E & _). rewrite parent_path_absolute in E by assumption. discriminate.
Qed.

Lemma normal_module_names m :
  normal_module_name (normal_module_name m) = normal_module_name m /\
  exists l, Forall plain l /\ normal_module_name m = join_slash l.
Proof. split; [apply normal_module_idem|apply normal_module_shape]. Qed.
