(** What is found in a Git root, whatever was looked at before. *)
From Coq Require Import String Ascii List Bool Arith Lia.
From Verif Require Import Common.Strs Path.Spec Path.Model Path.Proofs Path.Proofs2 Symlinks.Paths.
From Verif Require Import Roots.Model Roots.Spec Roots.Paths Roots.Markers.
Import ListNotations.
Local Open Scope string_scope.
Local Open Scope list_scope.
Local Open Scope nat_scope.

(** ** Stripped trees *)

Definition vis (ign : bool) (es : list (string * item)) : list (string * item) :=
  if ign then filter (fun e => ordinary (snd e)) es else es.

Lemma nonspecial_ordinary x : has_type IsNonSpecialObject x = ordinary x.
Proof. destruct x as [[] | | |]; reflexivity. Qed.

Lemma filter_ordinary es : filter (fun e : string * item => has_type IsNonSpecialObject (snd e)) es = vis true es.
Proof. apply filter_ext. intros e. apply nonspecial_ordinary. Qed.

Lemma strip_dir es : strip (Directory es) = Directory (map (fun e => (fst e, strip (snd e))) (vis true es)).
Proof.
  cbn [strip vis]. f_equal. induction es as [|[f x] es IH]; [reflexivity|]. cbn [filter snd].
  destruct (ordinary x); cbn [map fst snd]; now rewrite IH.
Qed.

Definition show (ign : bool) (es : list (string * item)) : list (string * item) :=
  map (fun e => (fst e, shown ign (snd e))) (vis ign es).

Lemma shown_dir ign es : shown ign (Directory es) = Directory (show ign es).
Proof.
  destruct ign; cbn [shown]; [apply strip_dir|]. unfold show, vis, shown. f_equal.
  induction es as [|[f x] es IH]; [reflexivity|]. cbn [map fst snd]. now rewrite <- IH.
Qed.

Lemma alookup_map {V W} (g : V -> W) k (l : list (string * V)) :
  alookup k (map (fun e => (fst e, g (snd e))) l) = option_map g (alookup k l).
Proof. induction l as [|[a b] l IH]; [reflexivity|]. cbn [map alookup fst snd]. destruct (String.eqb k a); [reflexivity|exact IH]. Qed.

Lemma alookup_show ign es c : alookup c (show ign es) = option_map (shown ign) (alookup c (vis ign es)).
Proof. apply alookup_map. Qed.

Lemma vis_incl ign es : incl (vis ign es) es.
Proof. destruct ign; [|apply incl_refl]. intros x I. apply filter_In in I. apply I. Qed.

Lemma NoDup_map_filter {V} (g : string * V -> bool) l : NoDup (map fst l) -> NoDup (map fst (filter g l)).
Proof.
  induction l as [|e l IH]; [constructor|]. cbn [map filter]. intros N. inversion N; subst.
  destruct (g e); [|auto]. cbn [map]. constructor; [|auto]. intros I. apply H1.
  apply in_map_iff in I. destruct I as [x [<- I]]. apply filter_In in I. apply in_map, I.
Qed.

Lemma vis_nodup ign es : NoDup (map fst es) -> NoDup (map fst (vis ign es)).
Proof. destruct ign; [apply NoDup_map_filter|auto]. Qed.

Lemma show_names ign es : map fst (show ign es) = map fst (vis ign es).
Proof. unfold show. rewrite map_map. reflexivity. Qed.

Lemma vis_lookup ign es c n : NoDup (map fst es) -> alookup c (vis ign es) = Some n -> alookup c es = Some n.
Proof. intros N L. apply In_alookup; [exact N|]. apply (vis_incl ign), alookup_In, L. Qed.

Lemma strip_all n : (forall p es, at_path n p = Some (Directory es) -> Forall (fun e => ordinary (snd e) = true) es) ->
  (forall p es, at_path n p = Some (Directory es) -> NoDup (map fst es)) -> strip n = n.
Proof.
  induction n as [x c|c| |es IH] using item_rec'; intros H N; try reflexivity.
  rewrite strip_dir. f_equal. pose proof (H [] es eq_refl) as O. pose proof (N [] es eq_refl) as ND.
  assert (vis true es = es) as E.
  { cbn. clear - O. induction O as [|e l E _ IH]; [reflexivity|]. cbn. now rewrite E, IH. }
  rewrite E.
  assert (Forall (fun e => strip (snd e) = snd e) es) as S.
  { rewrite Forall_forall in IH |- *. intros [f x] I. apply (IH _ I); cbn; intros p es' A.
    - apply (H (f :: p)). cbn. now rewrite (In_alookup _ _ _ ND I).
    - apply (N (f :: p)). cbn. now rewrite (In_alookup _ _ _ ND I). }
  clear - S. induction S as [|[f x] l E _ IH]; [reflexivity|]. cbn in *. now rewrite E, IH.
Qed.

(** ** Flags *)

Section Tree.
Variable top : list (string * item).
Variable ign : bool.
Let t := Directory top.
Let g := mkGit top ign.
Hypothesis P : proper t.
Hypothesis R : readable ign t.

Definition ok_flag (p : list string) (f : bool) : Prop := f = ign \/ (ign = true /\ 2 <= List.length p).
Definition flags_ok (st : flags) : Prop := forall p f, flag_of st p = Some f -> ok_flag p f.

Lemma flags_ok_nil : flags_ok [].
Proof. intros p f E. discriminate. Qed.

Lemma flags_ok_cons st p f : flags_ok st -> ok_flag p f -> flags_ok ((p, f) :: st).
Proof.
  intros S O q h E. unfold flag_of in E. cbn [find fst] in E. unfold path_eqb in E.
  destruct (list_eq_dec string_dec p q) as [<- |NE]; [cbn in E; injection E as <-; exact O|]. now apply S.
Qed.

Lemma direct_of p es : at_path t p = Some (Directory es) -> ign = false -> ReadTree es false = Some es.
Proof.
  intros A E. unfold readable in R. rewrite E in R. apply read_direct.
  apply valid_direct; [exact (proj1 (P _ _ A))|exact (valid_sub _ _ _ R A)].
Qed.

Lemma ordinary_direct es : Forall (fun e : string * item => ordinary (snd e) = true) es -> directly_valid es.
Proof.
  intros F f x I. rewrite Forall_forall in F. specialize (F _ I). cbn in F.
  destruct x; try discriminate F; split; congruence.
Qed.

Lemma ordinary_vis es : Forall (fun e : string * item => ordinary (snd e) = true) es -> vis true es = es.
Proof. intros F. cbn. induction F as [|e l E _ IH]; [reflexivity|]. cbn. now rewrite E, IH. Qed.

Lemma read_true es : ReadTree es true = Some (vis true es).
Proof. unfold ReadTree, ReadDirectTree. cbn [orb]. now rewrite filter_ordinary. Qed.

Lemma read_ok p es f : at_path t p = Some (Directory es) -> ok_flag p f -> ReadTree es f = Some (vis ign es).
Proof.
  intros A O. destruct (Bool.bool_dec ign true) as [E|E].
  - destruct f.
    + rewrite read_true. now rewrite E.
    + destruct O as [O|[_ L]]; [congruence|]. unfold readable in R. rewrite E in *.
      pose proof (R _ _ A L) as F. rewrite (ordinary_vis _ F). apply read_direct. now apply ordinary_direct.
  - apply Bool.not_true_is_false in E. destruct O as [->|[O _]]; [|congruence]. rewrite E.
    rewrite (direct_of _ _ A E). reflexivity.
Qed.

Lemma entry_ok st p es fl st' r : flags_ok st -> at_path t p = Some (Directory es) -> ok_flag p fl ->
  EntryTree st p (Directory es) fl = (st', r) ->
  flags_ok st' /\ exists f, ok_flag p f /\ r = Some (vis ign es, f).
Proof.
  intros S A O E. unfold EntryTree in E.
  set (f := match flag_of st p with Some f => f | None => fl end) in *.
  assert (ok_flag p f) as OF by (unfold f; destruct (flag_of st p) eqn:L; [now apply S|exact O]).
  rewrite (read_ok _ _ _ A OF) in E. injection E as <- <-. split; [now apply flags_ok_cons|eauto].
Qed.

Definition found (here : list string) (es : list (string * item)) (segs : list string) (r : option (list string * item)) : Prop :=
  match r with
  | Some (q, n) => q = here ++ segs /\ segs <> [] /\ at_path t q = Some n /\
                   (ign = true -> ordinary n = true) /\ at_path (Directory (show ign es)) segs = Some (shown ign n)
  | None => segs = [] \/ at_path (Directory (show ign es)) segs = None
  end.

Lemma at_path_shown_leaf b x s r : (forall es, x <> Directory es) -> at_path (shown b x) (s :: r) = None.
Proof. intros N. destruct x as [| | |es]; try (now destruct b). now destruct (N es). Qed.

Lemma lookup_ok segs : forall st here es fl st' r,
  flags_ok st -> at_path t here = Some (Directory es) ->
  (forall s, ok_flag (here ++ [s]) fl) -> (here <> [] -> fl = false) ->
  LookupEntryPyPath st here (vis ign es) segs fl = (st', r) ->
  flags_ok st' /\ found here es segs r.
Proof.
  induction segs as [|s rest IH]; intros st here es fl st' r S A O OF E; cbn [LookupEntryPyPath] in E.
  - injection E as <- <-. split; [exact S|now left].
  - destruct (alookup s (vis ign es)) as [n|] eqn:L.
    2:{ injection E as <- <-. split; [exact S|]. right. cbn [at_path]. now rewrite alookup_show, L. }
    assert (at_path t (here ++ [s]) = Some n) as A'.
    { rewrite at_path_app, A. cbn. now rewrite (vis_lookup _ _ _ _ (proj1 (P _ _ A)) L). }
    assert (at_path (Directory (show ign es)) (s :: rest) = at_path (shown ign n) rest) as AS
      by (cbn [at_path]; now rewrite alookup_show, L).
    assert (ign = true -> ordinary n = true) as ON.
    { intros EI. rewrite EI in L. apply alookup_In in L. apply filter_In in L. apply L. }
    destruct rest as [|s' rest].
    { injection E as <- <-. split; [exact S|]. cbn [found]. split; [reflexivity|]. split; [discriminate|]. split; [exact A'|].
      split; [exact ON|]. now rewrite AS. }
    destruct n as [x c|c| |es'];
      try (cbn [EntryTree] in E; injection E as <- <-; split; [exact S|]; right; rewrite AS; now apply at_path_shown_leaf).
    destruct (EntryTree st (here ++ [s]) (Directory es') fl) as [st1 r1] eqn:E1.
    destruct (entry_ok _ _ _ _ _ _ S A' (O s) E1) as [S1 (f & OF1 & ->)].
    assert (forall s0, ok_flag ((here ++ [s]) ++ [s0]) false) as O2.
    { intros s0. destruct (Bool.bool_dec ign true) as [EI|EI]; [right|left; destruct ign; congruence].
      split; [exact EI|]. rewrite !app_length. cbn. lia. }
    specialize (IH st1 (here ++ [s]) es' false st' r S1 A' O2 ltac:(reflexivity) E).
    destruct IH as [S2 F]. split; [exact S2|].
    rewrite shown_dir in AS. unfold found in *. destruct r as [[q n]|].
    + destruct F as (F1 & F2 & F3 & F4 & F5). rewrite AS. rewrite <- app_assoc in F1. cbn [app] in F1.
      split; [exact F1|]. split; [discriminate|]. split; [exact F3|]. split; [exact F4|exact F5].
    + right. rewrite AS. destruct F as [F|F]; [discriminate|exact F].
Qed.

Lemma root_entries_ok : root_entries g = Some (vis ign top).
Proof.
  unfold root_entries, g. cbn [g_tree g_ignore]. destruct (Bool.bool_dec ign true) as [E|E].
  - rewrite E. unfold ReadDirectTree. now rewrite filter_ordinary.
  - apply Bool.not_true_is_false in E. pose proof (direct_of [] top eq_refl E) as D. unfold ReadTree in D. rewrite E.
    destruct (ReadDirectTree top false) as [x|]; [|discriminate]. destruct (_ || _)%bool; [|discriminate].
    cbn [vis]. congruence.
Qed.

(** A single element that is no name is not found. *)
Lemma no_name_not_found s r : ~ plain s -> at_path (Directory (show ign top)) (s :: r) = None.
Proof.
  intros N. cbn [at_path]. destruct (alookup s (show ign top)) as [n|] eqn:L; [|reflexivity]. exfalso. apply N.
  apply alookup_In in L. apply (in_map fst) in L. rewrite show_names in L.
  apply in_map_iff in L. destruct L as [e [EE I]]. cbn in EE. subst s. apply vis_incl in I.
  pose proof (proj2 (P [] top eq_refl)) as F. rewrite Forall_forall in F. apply F. now apply in_map.
Qed.

Lemma not_plain_dot : ~ plain ".". Proof. intros (_ & H & _). now apply H. Qed.
Lemma not_plain_dotdot : ~ plain "..". Proof. intros (_ & _ & H & _). now apply H. Qed.
Lemma not_plain_empty : ~ plain "". Proof. intros (H & _). now apply H. Qed.
Lemma not_plain_slash : ~ plain "/". Proof. intros (_ & _ & _ & H). apply H. now left. Qed.

Lemma absolute_elements p : is_absolute p = true -> exists l, elements (ResolveRelativePath p) = "/" :: l.
Proof.
  intros A. unfold elements. assert (is_absolute (ResolveRelativePath p) = true) as ->; [|eexists; reflexivity].
  assert (p <> "") as N by (intros ->; discriminate).
  pose proof (place_of_wf p) as W. pose proof (names_good _ _ W) as G. unfold ResolveRelativePath.
  destruct (lexically_normal_shape p N) as [[E1 E2]|[E1 (tl & Ht & E2 & _)]]; rewrite E2, A.
  - reflexivity.
  - set (ns := names (place_of p)) in *. cbn [pre].
    assert (parent_path (append (("/" ++ join_slash ns ++ tl)%string) "") = ("/" ++ join_slash ns)%string) as ->; [|reflexivity].
    unfold append. cbn [is_absolute]. destruct Ht as [->| ->].
    + rewrite app_str_nil_r. rewrite (has_filename_pre_join true ns E1 G : has_filename ("/" ++ join_slash ns)%string = true).
      rewrite app_str_assoc. exact (parent_path_slash true ns E1 G).
    + rewrite (has_filename_pre_join_slash true ns E1 G : has_filename ("/" ++ join_slash ns ++ "/")%string = false).
      rewrite app_str_nil_r. exact (parent_path_slash true ns E1 G).
Qed.

(** The item found and its path. *)
Definition finds (path : string) (r : option (list string * item)) : Prop :=
  match r with
  | Some (q, n) => is_absolute path = false /\ place_of path = mkPlace 0 (rev q) /\ q <> [] /\ at_path t q = Some n /\
                   (ign = true -> ordinary n = true) /\ seen (shown ign t) path = Some (shown ign n)
  | None => seen (shown ign t) path = None
  end.

Lemma seen_names ns path : is_absolute path = false -> place_of path = mkPlace 0 (rev ns) -> ns <> [] ->
  forall n, seen n path = at_path n ns.
Proof.
  intros A E N n. unfold seen. rewrite A, E. destruct (rev ns) as [|x d] eqn:D.
  - apply (f_equal (@rev _)) in D. rewrite rev_involutive in D. contradiction.
  - rewrite <- D, rev_involutive. reflexivity.
Qed.

Lemma lookup_path st path st' r : flags_ok st -> LookupEntryByPath g st path = (st', r) ->
  flags_ok st' /\ finds path r.
Proof.
  intros S E. unfold LookupEntryByPath in E. rewrite root_entries_ok in E.
  set (segs := match elements (ResolveRelativePath path) with [] => [""] | l => l end) in *.
  assert (forall s, ok_flag ([] ++ [s]) ign) as O by (intros s; now left).
  destruct (lookup_ok segs st [] top ign st' r S eq_refl O ltac:(congruence) E) as [S' F].
  split; [exact S'|].
  assert (forall s l, segs = s :: l -> ~ plain s -> r = None) as NP.
  { intros s l E1 NP. destruct r as [[q n]|]; [|reflexivity]. destruct F as (_ & _ & _ & _ & F). rewrite E1 in F.
    rewrite (no_name_not_found s l NP) in F. discriminate. }
  destruct (string_dec path "") as [Ep|NE].
  { rewrite (NP "" []); [now subst path|unfold segs; now subst path|exact not_plain_empty]. }
  destruct (is_absolute path) eqn:A.
  { destruct (absolute_elements path A) as [l EL]. rewrite (NP "/" l); [|unfold segs; now rewrite EL|exact not_plain_slash].
    unfold finds, seen. now rewrite A. }
  pose proof (resolve_elements path NE A) as RE. pose proof (place_of_wf path) as W.
  destruct (place_of path) as [u d] eqn:EP. destruct u as [|u].
  - unfold names in RE. cbn [repeat up down app] in RE. destruct d as [|x d].
    + cbn in RE. rewrite (NP "." []); [|unfold segs; now rewrite RE|exact not_plain_dot].
      unfold finds, seen. now rewrite A, EP.
    + assert (rev (x :: d) <> []) as ND by (intros X; apply (f_equal (@rev _)) in X; rewrite rev_involutive in X; discriminate).
      assert (segs = rev (x :: d)) as EG by (unfold segs; rewrite RE; destruct (rev (x :: d)); congruence).
      assert (place_of path = mkPlace 0 (rev (rev (x :: d)))) as EP' by (now rewrite rev_involutive).
      pose proof (seen_names _ _ A EP' ND) as SN. unfold finds, found in *. rewrite EG in F. cbn [app] in F.
      destruct r as [[q n]|].
      * destruct F as (-> & _ & F3 & F4 & F5). rewrite SN. unfold t. rewrite shown_dir. rewrite rev_involutive. auto 10.
      * rewrite SN. unfold t. rewrite shown_dir. destruct F as [F|F]; [contradiction|exact F].
  - unfold names in RE. cbn [repeat up down app] in RE.
    rewrite (NP ".." (repeat ".." u ++ rev d)); [|unfold segs; now rewrite RE|exact not_plain_dotdot].
    unfold finds, seen. now rewrite A, EP.
Qed.
End Tree.
