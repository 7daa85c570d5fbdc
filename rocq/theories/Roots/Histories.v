(** The answers of a Git root after any history. *)
From Coq Require Import String Ascii List Bool Arith Lia.
From Verif Require Import Common.Strs Path.Spec Path.Model Path.Proofs Path.Proofs2 Symlinks.Paths.
From Verif Require Import Roots.Model Roots.Spec Roots.Questions Roots.Paths Roots.Markers Roots.Lookups Roots.Answers.
Import ListNotations.
Local Open Scope string_scope.
Local Open Scope list_scope.
Local Open Scope nat_scope.

Section Histories.
Variable tree_id : list (string * item) -> string.
Variables blob_id plain_id : string -> string.
Variable fs : item.
Variable native : bool.
Variable fnmatch : string -> string -> bool.

(** ** Operations that depend on the state through what they look up only *)

Section Compose.
Variable r : root.
Variable inv : state -> Prop.
(** [strict]: also the result must not depend on the state. *)
Variable strict : bool.

Definition indep {A} (op : state -> state * A) : Prop := forall s1 s2, inv s1 -> inv s2 ->
  inv (fst (op s1)) /\ (strict = true -> snd (op s1) = snd (op s2)).

Lemma indep_ret {A} (a : A) : indep (fun st => (st, a)).
Proof. intros s1 s2 I _. split; [exact I|reflexivity]. Qed.

Lemma indep_bind {A B} (op : state -> state * A) (f : A -> state -> state * B) :
  indep op -> (forall a, indep (f a)) -> indep (fun st => let '(st, a) := op st in f a st).
Proof.
  intros H1 H2 s1 s2 I1 I2. destruct (H1 s1 s2 I1 I2) as [J1 E1]. destruct (H1 s2 s1 I2 I1) as [J2 _].
  destruct (op s1) as [t1 a1], (op s2) as [t2 a2]. cbn in *. split.
  - exact (proj1 (H2 a1 t1 t1 J1 J1)).
  - intros E. rewrite (E1 E). exact (proj2 (H2 a2 t1 t2 J1 J2) E).
Qed.

Lemma indep_ext {A} (op op' : state -> state * A) : (forall st, op st = op' st) -> indep op -> indep op'.
Proof. intros E H s1 s2 I1 I2. rewrite <- !E. now apply H. Qed.

Lemma indep_map {A B} (op : state -> state * A) (f : A -> B) : indep op -> indep (fun st => map_snd f (op st)).
Proof.
  intros H s1 s2 I1 I2. destruct (H s1 s2 I1 I2) as [J E]. cbn. split; [exact J|]. intros ES. now rewrite (E ES).
Qed.

Lemma indep_all_of {K V} (f : state -> K -> state * option V) ks :
  (forall k, indep (fun st => f st k)) -> indep (fun st => all_of f st ks).
Proof.
  intros H. induction ks as [|k ks IH]; [apply indep_ret|].
  apply (indep_ext (fun st => let '(st, o) := f st k in
    match o with None => (st, None) | Some v => let '(st, o) := all_of f st ks in
      (st, match o with Some vs => Some (v :: vs) | None => None end) end)).
  { intros st. cbn [all_of]. destruct (f st k) as [st' [v|]]; [|reflexivity]. now destruct (all_of f st' ks) as [st2 [vs|]]. }
  apply indep_bind; [apply H|]. intros [v|]; [|apply indep_ret].
  apply indep_bind; [exact IH|]. intros o. apply indep_ret.
Qed.
End Compose.

Section Root.
Variable g : git_root.
Let r := GitRoot g.
Variable inv : state -> Prop.
Variable strict : bool.
Notation ind := (indep inv strict).
Hypothesis L : forall p, ind (fun st => lookup g st p).
Hypothesis DIR : forall p, ind (fun st => ReadDirectory tree_id fs r st p).

Lemma on_lookup {A} p (f : option (list string * item) -> A) : ind (fun st => let '(st, e) := lookup g st p in (st, f e)).
Proof. apply (indep_bind inv strict (fun st => lookup g st p)); [apply L|]. intros e. apply indep_ret. Qed.

Lemma Exists_ind p : ind (fun st => Exists fs r st p).
Proof. unfold Exists, r. destruct (String.eqb p "."); [apply indep_ret|]. refine (on_lookup p _). Qed.
Lemma IsFile_ind p : ind (fun st => IsFile fs r st p).
Proof. unfold IsFile, r. refine (on_lookup p _). Qed.
Lemma IsSymlink_ind p : ind (fun st => IsSymlink fs r st p).
Proof. unfold IsSymlink, r. destruct (ignoring (GitRoot g)); [apply indep_ret|]. refine (on_lookup p _). Qed.
Lemma IsBlob_ind p : ind (fun st => IsBlob fs r st p).
Proof.
  apply (indep_ext inv strict (fun st => let '(st, b) := IsFile fs r st p in if b then (st, true) else IsSymlink fs r st p)).
  { intros st. unfold IsBlob. now destruct (IsFile fs r st p) as [? []]. }
  apply indep_bind; [apply IsFile_ind|]. intros []; [apply indep_ret|apply IsSymlink_ind].
Qed.
Lemma IsDirectory_ind p : ind (fun st => IsDirectory fs r st p).
Proof. unfold IsDirectory, r. destruct (String.eqb p "."); [apply indep_ret|]. refine (on_lookup p _). Qed.
Lemma ReadContent_ind p : ind (fun st => ReadContent fs r st p).
Proof. unfold ReadContent, r. refine (on_lookup p _). Qed.
Lemma BlobType_ind p : ind (fun st => BlobType fs r st p).
Proof. unfold BlobType, r. refine (on_lookup p _). Qed.
Lemma describe_ind p rep : ind (fun st => ToArtifactDescription blob_id plain_id native r st p rep).
Proof. unfold ToArtifactDescription, r. refine (on_lookup p _). Qed.

Lemma entries_ind m : ind (fun st => DirectoryEntriesOf tree_id fs r st m).
Proof.
  unfold DirectoryEntriesOf. set (p := match m with "" => "." | _ => m end).
  apply (indep_ext inv strict (fun st => let '(st, b) := IsDirectory fs r st p in
     if b then ReadDirectory tree_id fs r st p else (st, Some (Pairs [])))).
  { intros st. now destruct (IsDirectory fs r st p) as [? []]. }
  apply indep_bind; [apply IsDirectory_ind|]. intros []; [apply DIR|apply indep_ret].
Qed.

Lemma source_ind rep m n : ind (fun st => SourceTarget tree_id blob_id plain_id fs native r st rep m n).
Proof.
  unfold SourceTarget. destruct (outside (lexically_normal n)); [apply indep_ret|]. unfold r at 1.
  apply (indep_bind inv strict (fun st => IsBlob fs r st (append m (lexically_normal n)))); [apply IsBlob_ind|].
  intros []; [|apply indep_ret].
  apply (indep_bind inv strict (fun st => ToArtifactDescription blob_id plain_id native r st (append m (lexically_normal n)) rep)
    (fun a st => (st, match a with Some a => Some (n, a) | None => None end))); [apply describe_ind|].
  intros a. apply indep_ret.
Qed.

Lemma tree_ind k rep : forall m n, ind (fun st => TreeTarget tree_id blob_id plain_id fs native k r st rep m n).
Proof.
  induction k as [|k IH]; intros m n; [apply indep_ret|]. cbn [TreeTarget].
  set (child := fun st (x : bool * string) => if fst x
     then TreeTarget tree_id blob_id plain_id fs native k r st rep (normal_module_name (append m n)) (snd x)
     else SourceTarget tree_id blob_id plain_id fs native r st rep (normal_module_name (append m n)) (snd x)).
  set (keys := fun e => map (pair false) (map fst (filter (fun x => IsFileObject (snd x)) (listing e)))
     ++ map (pair false) (map fst (filter (fun x => IsSymlinkObject (snd x)) (listing e)))
     ++ map (pair true) (map fst (filter (fun x => IsTreeObject (snd x)) (listing e)))).
  apply (indep_ext inv strict (fun st => let '(st, o) := DirectoryEntriesOf tree_id fs r st (append m n) in
    match o with
    | None => (st, None)
    | Some e => match AsKnownTree tree_id native e rep with
        | Some a => (st, Some (n, a))
        | None => let '(st, vs) := all_of child st (keys e) in
                  (st, match vs with Some vs => Some (n, TreeOf (emplace_all vs)) | None => None end)
        end
    end)).
  { intros st. destruct (DirectoryEntriesOf tree_id fs r st (append m n)) as [st1 [e|]]; [|reflexivity].
    destruct (AsKnownTree tree_id native e rep); [reflexivity|]. fold child. fold (keys e).
    now destruct (all_of child st1 (keys e)) as [st2 [vs|]]. }
  apply indep_bind; [apply entries_ind|]. intros [e|]; [|apply indep_ret].
  destruct (AsKnownTree tree_id native e rep); [apply indep_ret|].
  apply indep_bind; [|intros; apply indep_ret]. apply indep_all_of. intros [[] c]; unfold child; cbn [fst snd].
  - apply IH.
  - apply source_ind.
Qed.

Lemma glob_ind rep m p : ind (fun st => GlobTarget tree_id blob_id plain_id fs native fnmatch r st rep m p).
Proof.
  unfold GlobTarget.
  set (keys := fun e => filter (fnmatch p) (map fst (filter (fun x => IsFileObject (snd x)) (listing e)))
     ++ filter (fnmatch p) (map fst (filter (fun x => IsSymlinkObject (snd x)) (listing e)))).
  apply (indep_ext inv strict (fun st => let '(st, o) := DirectoryEntriesOf tree_id fs r st m in
    match o with
    | None => (st, None)
    | Some e => let '(st, vs) := all_of (fun st x => SourceTarget tree_id blob_id plain_id fs native r st rep m x) st (keys e) in
                (st, match vs with Some vs => Some (fold_left (fun acc e => ainsert (fst e) (snd e) acc) vs []) | None => None end)
    end)).
  { intros st. destruct (DirectoryEntriesOf tree_id fs r st m) as [st1 [e|]]; [|reflexivity]. fold (keys e).
    now destruct (all_of _ st1 (keys e)) as [st2 [vs|]]. }
  apply indep_bind; [apply entries_ind|]. intros [e|]; [|apply indep_ret].
  apply indep_bind; [|intros; apply indep_ret]. apply indep_all_of. intros c. apply source_ind.
Qed.

Lemma ask_ind q : ind (fun st => ask tree_id blob_id plain_id fs native fnmatch r st q).
Proof.
  destruct q; cbn [ask]; apply indep_map.
  - apply Exists_ind. - apply IsFile_ind. - apply IsSymlink_ind. - apply IsBlob_ind. - apply IsDirectory_ind.
  - apply ReadContent_ind. - apply BlobType_ind. - apply DIR. - apply source_ind. - apply tree_ind. - apply glob_ind.
Qed.

Lemma after_inv qs : forall st, inv st -> inv (after tree_id blob_id plain_id fs native fnmatch r st qs).
Proof.
  unfold after. induction qs as [|q qs IH]; intros st I; [exact I|]. cbn [fold_left]. apply IH.
  exact (proj1 (ask_ind q st st I I)).
Qed.
End Root.

(** ** Readable trees: the invariant of the answers *)
Section Readable.
Variable top : list (string * item).
Variable ign : bool.
Hypothesis P : proper (Directory top).
Hypothesis R : readable ign (Directory top).
Let g := mkGit top ign.

Lemma inv_lookup p : indep (inv ign) false (fun st => lookup g st p).
Proof.
  intros s1 s2 I _. split; [|discriminate]. destruct (lookup g s1 p) as [st e] eqn:E.
  exact (proj1 (lookup_inv top ign P R _ _ _ _ I E)).
Qed.

Lemma inv_directory p : indep (inv ign) false (fun st => ReadDirectory tree_id fs (GitRoot g) st p).
Proof.
  intros s1 s2 I _. split; [|discriminate]. destruct (String.eqb_spec p ".") as [->|N].
  - destruct (ReadDirectory_top tree_id fs native top ign P R s1 I) as (st' & d & E & I' & _). unfold g. now rewrite E.
  - destruct (ReadDirectory_ok tree_id fs native top ign P R s1 p I N) as (st' & d & E & I' & _). unfold g. now rewrite E.
Qed.

Lemma inv_after qs st : inv ign st -> inv ign (after tree_id blob_id plain_id fs native fnmatch (GitRoot g) st qs).
Proof. apply (after_inv g (inv ign) false inv_lookup inv_directory). Qed.
End Readable.

(** ** Roots that show everything *)
Section Plain.
Variable top : list (string * item).
Let t := Directory top.
Let g := mkGit top false.
(** The directories that have been or will be checked. *)
Variable U : list (string * item) -> Prop.
Hypothesis U_top : U top.
Hypothesis U_proper : forall es, U es -> proper (Directory es).
Hypothesis U_closed : forall es, U es -> Forall (fun e => within U (snd e)) es.
Hypothesis no_collision : forall a b, U a -> U b -> tree_id a = tree_id b -> a = b.

Definition all_false (f : flags) : Prop := forall p b, flag_of f p = Some b -> b = false.
Definition pinv (st : state) : Prop :=
  all_false (s_flags st) /\ no_failures (s_marks st) /\ sound tree_id U (s_marks st).

Lemma U_below p : forall n, within U n -> forall es, at_path n p = Some (Directory es) -> U es.
Proof.
  induction p as [|c p IH]; intros n W es A; cbn in A; [injection A as ->; exact W|].
  destruct n as [| | |es0]; try discriminate A. cbn in W. destruct (alookup c es0) as [m|] eqn:L; [|discriminate].
  apply alookup_In in L. pose proof (U_closed _ W) as F. rewrite Forall_forall in F. exact (IH m (F _ L) es A).
Qed.

Lemma all_false_cons f p : all_false f -> all_false ((p, false) :: f).
Proof.
  intros A q b E. unfold flag_of in E. cbn [find fst] in E. destruct (path_eqb p q); [now injection E as <-|]. now apply (A q).
Qed.

Lemma entry_false f p n : all_false f -> exists f', EntryTree f p n false =
  (f', match n with Directory es => option_map (fun es => (es, false)) (ReadTree es false) | _ => None end) /\ all_false f'.
Proof.
  intros A. unfold EntryTree. destruct n as [| | |es]; try (exists f; split; [reflexivity|exact A]).
  destruct (flag_of f p) as [b|] eqn:E.
  - rewrite (A _ _ E). eexists. split; [reflexivity|now apply all_false_cons].
  - eexists. split; [reflexivity|now apply all_false_cons].
Qed.

Lemma lookup_false segs : forall f1 f2 here es, all_false f1 -> all_false f2 ->
  all_false (fst (LookupEntryPyPath f1 here es segs false)) /\
  snd (LookupEntryPyPath f1 here es segs false) = snd (LookupEntryPyPath f2 here es segs false).
Proof.
  induction segs as [|s rest IH]; intros f1 f2 here es A1 A2; cbn [LookupEntryPyPath]; [auto|].
  destruct (alookup s es) as [n|]; [|auto]. destruct rest as [|s' rest]; [auto|].
  destruct (entry_false f1 (here ++ [s]) n A1) as (f1' & -> & B1). destruct (entry_false f2 (here ++ [s]) n A2) as (f2' & -> & B2).
  destruct n as [| | |es']; try (split; [exact B1|reflexivity]).
  destruct (ReadTree es' false) as [es2|]; cbn [option_map]; [|split; [exact B1|reflexivity]]. apply IH; assumption.
Qed.

Lemma plain_lookup p : indep pinv true (fun st => lookup g st p).
Proof.
  intros s1 s2 (A1 & B1) (A2 & B2). unfold lookup, LookupEntryByPath.
  destruct (root_entries g) as [es|]; [|cbn; split; [split; assumption|reflexivity]]. change (g_ignore g) with false.
  set (segs := match elements (ResolveRelativePath p) with [] => [""] | l => l end).
  destruct (lookup_false segs (s_flags s1) (s_flags s2) [] es A1 A2) as [C E].
  destruct (LookupEntryPyPath (s_flags s1) [] es segs false) as [f1 r1], (LookupEntryPyPath (s_flags s2) [] es segs false) as [f2 r2].
  cbn in *. split; [split; assumption|]. intros _. exact E.
Qed.

Lemma lookup_within st p : pinv st ->
  match snd (lookup g st p) with Some (q, n) => within U n | None => True end.
Proof.
  intros (A0 & _). unfold lookup, LookupEntryByPath, root_entries. change (g_ignore g) with false. change (g_tree g) with top.
  destruct (ReadDirectTree top false) as [es|] eqn:RD; [|exact I].
  assert (es = top) as -> by (unfold ReadDirectTree in RD; destruct (forallb _ top); congruence). clear RD.
  set (segs := match elements (ResolveRelativePath p) with [] => [""] | l => l end).
  assert (forall sg f here es f' q n, all_false f -> at_path t here = Some (Directory es) ->
    LookupEntryPyPath f here es sg false = (f', Some (q, n)) -> at_path t q = Some n) as G.
  { clear. induction sg as [|s rest IH]; intros f here es f' q n AF A E; cbn [LookupEntryPyPath] in E; [discriminate|].
    destruct (alookup s es) as [m|] eqn:LK; [|discriminate].
    assert (at_path t (here ++ [s]) = Some m) as A' by (rewrite at_path_app, A; cbn; now rewrite LK).
    destruct rest as [|s' rest]; [injection E as _ <- <-; exact A'|].
    destruct (entry_false f (here ++ [s]) m AF) as (f1 & E1 & B1). rewrite E1 in E.
    destruct m as [| | |es']; try discriminate E.
    destruct (ReadTree es' false) as [es2|] eqn:RT; cbn [option_map] in E; [|discriminate].
    rewrite (read_direct_some _ _ RT) in E. exact (IH _ _ _ _ _ _ B1 A' E). }
  destruct (LookupEntryPyPath (s_flags st) [] top segs false) as [f [[q n]|]] eqn:E; cbn [snd]; [|exact I].
  destruct n as [| | |es]; try exact I. exact (U_below q t U_top es (G _ _ [] top _ _ _ A0 eq_refl E)).
Qed.

Lemma valid_answer n m : within U n -> no_failures m -> sound tree_id U m ->
  no_failures (fst (IsGitTreeValid tree_id n m)) /\ sound tree_id U (fst (IsGitTreeValid tree_id n m)) /\
  (snd (IsGitTreeValid tree_id n m) = true <-> valid n /\ is_directory n = true).
Proof.
  intros W F S. pose proof (history_no_failures tree_id [Checked n] m F) as F'. cbn in F'. split; [exact F'|].
  destruct (IsGitTreeValid tree_id n m) as [m' b] eqn:E. cbn [fst snd].
  destruct (git_tree_sound tree_id U no_collision U_closed n m m' b S W E) as [S' V].
  split; [exact S'|]. split.
  - intros T. split; [now apply V|]. destruct n; try (cbn in E; injection E as _ <-; discriminate). reflexivity.
  - intros [VN D]. destruct n as [| | |es]; try discriminate D. cbn in W.
    destruct (git_tree_complete tree_id es (U_proper _ W) VN m F) as (m2 & E2 & _). rewrite E in E2. now injection E2.
Qed.

Definition check n st := let '(m, b) := IsGitTreeValid tree_id n (s_marks st) in (mkState (s_flags st) m, b).

Lemma check_ind n : within U n -> indep pinv true (check n).
Proof.
  intros W s1 s2 (A1 & B1 & C1) (A2 & B2 & C2). unfold check.
  destruct (valid_answer n (s_marks s1) W B1 C1) as (F1 & S1 & V1). destruct (valid_answer n (s_marks s2) W B2 C2) as (F2 & S2 & V2).
  destruct (IsGitTreeValid tree_id n (s_marks s1)) as [m1 b1], (IsGitTreeValid tree_id n (s_marks s2)) as [m2 b2]. cbn in *.
  split; [split; [exact A1|split; assumption]|]. intros _. destruct b1, b2; try reflexivity.
  - symmetry. apply V2, V1. reflexivity.
  - apply V1, V2. reflexivity.
Qed.

Definition entry q n st := let '(f, x) := EntryTree (s_flags st) q n false in
  (mkState f (s_marks st), match x, n with Some (es, flag), Directory raw => Some (TreeEntries es raw flag) | _, _ => None end).

Lemma entry_ind q n : indep pinv true (entry q n).
Proof.
  intros s1 s2 (A1 & B1) (A2 & B2). unfold entry.
  destruct (entry_false (s_flags s1) q n A1) as (f1 & -> & C1). destruct (entry_false (s_flags s2) q n A2) as (f2 & -> & C2).
  cbn. split; [split; assumption|reflexivity].
Qed.

(** As [indep_bind], where the continuation needs to be considered for reachable results only. *)
Lemma indep_bind_if {A B} (Q : A -> Prop) (op : state -> state * A) (f : A -> state -> state * B) :
  indep pinv true op -> (forall st, pinv st -> Q (snd (op st))) -> (forall a, Q a -> indep pinv true (f a)) ->
  indep pinv true (fun st => let '(st, a) := op st in f a st).
Proof.
  intros H1 HQ H2 s1 s2 I1 I2. destruct (H1 s1 s2 I1 I2) as [J1 E1]. destruct (H1 s2 s1 I2 I1) as [J2 _].
  specialize (HQ s1 I1) as Q1. destruct (op s1) as [t1 a1], (op s2) as [t2 a2]. cbn in *. rewrite <- (E1 eq_refl). split.
  - exact (proj1 (H2 a1 Q1 t1 t1 J1 J1)).
  - intros E. exact (proj2 (H2 a1 Q1 t1 t2 J1 J2) E).
Qed.

Lemma plain_directory p : indep pinv true (fun st => ReadDirectory tree_id fs (GitRoot g) st p).
Proof.
  unfold ReadDirectory. change (g_ignore g) with false. change (g_tree g) with top. destruct (String.eqb p ".").
  - destruct (root_entries g) as [es|]; [|apply indep_ret].
    apply (indep_ext pinv true (fun st => let '(st, b) := check t st in (st, if b then Some (TreeEntries es top false) else None))).
    { intros st. unfold check, t. now destruct (IsGitTreeValid tree_id (Directory top) (s_marks st)) as [m []]. }
    apply indep_bind; [|intros; apply indep_ret]. apply check_ind. exact U_top.
  - apply (indep_ext pinv true (fun st => let '(st, o) := lookup g st p in
      match o with
      | None => (st, Some (Pairs []))
      | Some (q, n) => let '(st, b) := check n st in if b then entry q n st else (st, None)
      end)).
    { intros st. destruct (lookup g st p) as [st1 [[q n]|]]; [|reflexivity]. unfold check, entry.
      destruct (IsGitTreeValid tree_id n (s_marks st1)) as [m []]; reflexivity. }
    apply (indep_bind_if (fun o => match o with Some (q, n) => within U n | None => True end)).
    + apply plain_lookup.
    + intros st I. apply lookup_within. exact I.
    + intros [[q n]|] W; [|apply indep_ret].
      apply indep_bind; [now apply check_ind|]. intros []; [apply entry_ind|apply indep_ret].
Qed.

Lemma plain_answers qs1 qs2 q s1 s2 : pinv s1 -> pinv s2 ->
  snd (ask tree_id blob_id plain_id fs native fnmatch (GitRoot g) (after tree_id blob_id plain_id fs native fnmatch (GitRoot g) s1 qs1) q) =
  snd (ask tree_id blob_id plain_id fs native fnmatch (GitRoot g) (after tree_id blob_id plain_id fs native fnmatch (GitRoot g) s2 qs2) q).
Proof.
  intros I1 I2. apply (ask_ind g pinv true plain_lookup plain_directory q); [..|reflexivity];
    apply (after_inv g pinv true plain_lookup plain_directory); assumption.
Qed.

Lemma plain_after qs st : pinv st -> pinv (after tree_id blob_id plain_id fs native fnmatch (GitRoot g) st qs).
Proof. apply (after_inv g pinv true plain_lookup plain_directory). Qed.

(** Only valid trees are given. *)
Lemma listed_valid st p es raw b : pinv st ->
  snd (ReadDirectory tree_id fs (GitRoot g) st p) = Some (TreeEntries es raw b) -> valid (Directory raw) /\ es = raw /\ b = false.
Proof.
  intros I E. unfold ReadDirectory in E. change (g_ignore g) with false in E. change (g_tree g) with top in E.
  destruct (String.eqb p ".").
  - destruct (root_entries g) as [es0|] eqn:RE; [|discriminate].
    assert (es0 = top) as -> by (unfold root_entries, g in RE; cbn in RE; destruct (forallb _ top); congruence).
    destruct I as (_ & F & S). destruct (valid_answer t (s_marks st) U_top F S) as (_ & _ & V). fold t in E.
    destruct (IsGitTreeValid tree_id t (s_marks st)) as [m []]; cbn in E; [|discriminate]. injection E as <- <- <-.
    cbn in V. split; [now apply V|]. auto.
  - pose proof (proj1 (plain_lookup p st st I I)) as I1. pose proof (lookup_within st p I) as W.
    destruct (lookup g st p) as [st1 [[q n]|]]; cbn [fst snd] in *; [|discriminate].
    destruct I1 as (A & F & S). destruct (valid_answer n (s_marks st1) W F S) as (_ & _ & V).
    destruct (IsGitTreeValid tree_id n (s_marks st1)) as [m bb]; cbn [fst snd] in V.
    destruct bb; [|discriminate]. cbn [s_flags s_marks] in E.
    destruct (entry_false (s_flags st1) q n A) as (f1 & E1 & _). rewrite E1 in E. cbn [snd] in E.
    destruct n as [| | |raw0]; try discriminate E. destruct (ReadTree raw0 false) as [es2|] eqn:RT; [|discriminate].
    cbn in E. injection E as <- <- <-. split; [now apply V|]. split; [exact (read_direct_some _ _ RT)|reflexivity].
Qed.

Lemma pinv_fresh gens : sound tree_id U (mkMarkers gens []) -> pinv (mkState [] (mkMarkers gens [])).
Proof. intros S. split; [intros p b E; discriminate|]. split; [reflexivity|exact S]. Qed.
End Plain.
End Histories.
