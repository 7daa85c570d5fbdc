(** What a Git root answers, after any other questions. *)
From Coq Require Import String Ascii List Bool Arith Lia.
From Verif Require Import Common.Strs Path.Spec Path.Model Path.Proofs Path.Proofs2 Symlinks.Paths.
From Verif Require Import Roots.Model Roots.Spec Roots.Paths Roots.Markers Roots.Lookups.
Import ListNotations.
Local Open Scope string_scope.
Local Open Scope list_scope.
Local Open Scope nat_scope.

Definition blob_at (o : option item) : option (object_type * string) :=
  match o with Some x => as_blob x | None => None end.
Definition is_some {A} (o : option A) : bool := match o with Some _ => true | None => false end.
Definition on (f : item -> bool) (o : option item) : bool := match o with Some x => f x | None => false end.

Definition is_regular (x : item) : bool := match x with Regular _ _ => true | _ => false end.
Definition is_symlink (x : item) : bool := match x with SymLink _ => true | _ => false end.
Definition is_directory (x : item) : bool := match x with Directory _ => true | _ => false end.

Lemma shown_regular b x : is_regular (shown b x) = is_regular x. Proof. destruct b, x; reflexivity. Qed.
Lemma shown_symlink b x : is_symlink (shown b x) = is_symlink x. Proof. destruct b, x; reflexivity. Qed.
Lemma shown_directory b x : is_directory (shown b x) = is_directory x. Proof. destruct b, x; reflexivity. Qed.
Lemma shown_blob b x : as_blob (shown b x) = as_blob x. Proof. destruct b, x as [[] | | |]; reflexivity. Qed.
Lemma shown_type b x : type_of (shown b x) = type_of x. Proof. destruct b, x as [[] | | |]; reflexivity. Qed.
Lemma is_file_regular x : has_type IsFileObject x = is_regular x. Proof. destruct x as [[] | | |]; reflexivity. Qed.
Lemma is_link_symlink x : has_type IsSymlinkObject x = is_symlink x. Proof. destruct x as [[] | | |]; reflexivity. Qed.
Lemma is_tree_directory x : has_type IsTreeObject x = is_directory x. Proof. destruct x as [[] | | |]; reflexivity. Qed.
Lemma blob_type_as x : blob_type x = option_map fst (as_blob x). Proof. destruct x as [[] | | |]; reflexivity. Qed.

(** The names and types listed are those of the entries. *)
Definition lists (e : entries) (es : list (string * item)) : Prop :=
  map (fun x => (fst x, Some (snd x))) (listing e) = map (fun x => (fst x, type_of (snd x))) es.

Lemma typed_all es : (forall f, ~ In (f, Special) es) ->
  map (fun x => (fst x, Some (snd x))) (typed es) = map (fun x => (fst x, type_of (snd x))) es.
Proof.
  induction es as [|[f x] es IH]; intros N; [reflexivity|]. unfold typed. cbn [flat_map fst snd map]. fold (typed es).
  assert (forall g, ~ In (g, Special) es) as N' by (intros g I; apply (N g); now right). specialize (IH N').
  destruct x as [[] | | |]; cbn [type_of app map fst snd]; rewrite ?IH; try reflexivity.
  exfalso. apply (N f). now left.
Qed.

Section Git.
Variable tree_id : list (string * item) -> string.
Variables blob_id plain_id : string -> string.
Variable fs : item.
Variable native : bool.
Variable top : list (string * item).
Variable ign : bool.
Let t := Directory top.
Let g := mkGit top ign.
Let r := GitRoot g.
Let T := shown ign t.
Hypothesis P : proper t.
Hypothesis R : readable ign t.

Definition inv (st : state) : Prop :=
  flags_ok ign (s_flags st) /\ (ign = false -> no_failures (s_marks st)).

Lemma inv_fresh m : (ign = false -> no_failures m) -> inv (mkState [] m).
Proof. intros H. split; [apply flags_ok_nil|exact H]. Qed.

Lemma lookup_inv st p st' e : inv st -> lookup g st p = (st', e) -> inv st' /\ finds top ign p e.
Proof.
  intros [A B] E. unfold lookup in E. destruct (LookupEntryByPath g (s_flags st) p) as [f x] eqn:L.
  injection E as <- <-. destruct (lookup_path top ign P R _ _ _ _ A L) as [A' F]. split; [split; [exact A'|exact B]|exact F].
Qed.

(** What is found is as the root shows it. *)
Lemma found_ok q n : at_path t q = Some n -> (ign = true -> ordinary n = true) ->
  n <> Special /\ link_ok n = true /\ (ign = true -> is_symlink n = false).
Proof.
  intros A O. destruct (Bool.bool_dec ign true) as [E|E].
  - specialize (O E). destruct n; try discriminate O; (split; [discriminate|]; split; reflexivity).
  - assert (ign = false) as E' by now destruct ign. unfold readable in R. rewrite E' in R. destruct (R _ _ A) as [V1 V2].
    split; [exact V1|]. split; [|congruence]. destruct n; try reflexivity. cbn. apply downward_ok. now apply V2.
Qed.

Ltac looks st p I :=
  let E := fresh "E" in destruct (lookup g st p) as [st' e] eqn:E; destruct (lookup_inv _ _ _ _ I E) as [I' F]; clear E.

Lemma Exists_ok st p : inv st ->
  exists st', Exists fs r st p = (st', (String.eqb p "." || is_some (seen T p))%bool) /\ inv st'.
Proof.
  intros I. unfold Exists, r. destruct (String.eqb p ".") eqn:D; [exists st; split; [reflexivity|exact I]|].
  looks st p I. exists st'. split; [|exact I']. f_equal. cbn [orb]. destruct e as [[q n]|].
  - destruct F as (_ & _ & _ & A & O & S). fold t in S. fold T in S. rewrite S. destruct (found_ok q n A O) as (N1 & N2 & N3).
    cbn [is_some g g_ignore]. rewrite nonspecial_ordinary, is_link_symlink, N2, andb_true_r.
    destruct n; try reflexivity; [|contradiction]. destruct ign; [discriminate (N3 eq_refl)|reflexivity].
  - cbn in F. fold t in F. fold T in F. now rewrite F.
Qed.

Lemma IsFile_ok st p : inv st -> exists st', IsFile fs r st p = (st', on is_regular (seen T p)) /\ inv st'.
Proof.
  intros I. unfold IsFile, r. looks st p I. exists st'. split; [|exact I']. f_equal. destruct e as [[q n]|].
  - destruct F as (_ & _ & _ & A & O & S). fold t in S. fold T in S. rewrite S. cbn [on]. now rewrite is_file_regular, shown_regular.
  - cbn in F. fold t in F. fold T in F. now rewrite F.
Qed.

Lemma IsSymlink_ok st p : inv st -> exists st', IsSymlink fs r st p = (st', on is_symlink (seen T p)) /\ inv st'.
Proof.
  intros I. unfold IsSymlink, r. cbn [ignoring g g_ignore]. destruct (Bool.bool_dec ign true) as [E|E].
  - exists st. rewrite E. split; [|exact I]. f_equal. symmetry.
    destruct (lookup g st p) as [st' e] eqn:L. destruct (lookup_inv _ _ _ _ I L) as [I' F]. destruct e as [[q n]|].
    + destruct F as (_ & _ & _ & A & O & S). fold t in S. fold T in S. rewrite S. cbn [on]. rewrite shown_symlink.
      now apply (proj2 (proj2 (found_ok q n A O))).
    + cbn in F. fold t in F. fold T in F. now rewrite F.
  - assert (ign = false) as E' by now destruct ign. rewrite E'. change (mkGit top false) with (mkGit top false).
    rewrite <- E'. fold g. looks st p I. exists st'. split; [|exact I']. f_equal. destruct e as [[q n]|].
    + destruct F as (_ & _ & _ & A & O & S). fold t in S. fold T in S. rewrite S. cbn [on]. rewrite shown_symlink.
      destruct (found_ok q n A O) as (N1 & N2 & N3). now rewrite N2, andb_true_r, is_link_symlink.
    + cbn in F. fold t in F. fold T in F. now rewrite F.
Qed.

Lemma IsBlob_ok st p : inv st -> exists st', IsBlob fs r st p = (st', is_some (blob_at (seen T p))) /\ inv st'.
Proof.
  intros I. unfold IsBlob. destruct (IsFile_ok st p I) as (st1 & -> & I1).
  destruct (on is_regular (seen T p)) eqn:A.
  - exists st1. split; [|exact I1]. f_equal. destruct (seen T p) as [[[] | | |]|]; (reflexivity || discriminate A).
  - destruct (IsSymlink_ok st1 p I1) as (st2 & -> & I2). exists st2. split; [|exact I2]. f_equal.
    destruct (seen T p) as [[[] | | |]|]; (reflexivity || discriminate A).
Qed.

Lemma IsDirectory_ok st p : inv st ->
  exists st', IsDirectory fs r st p = (st', (String.eqb p "." || on is_directory (seen T p))%bool) /\ inv st'.
Proof.
  intros I. unfold IsDirectory, r. destruct (String.eqb p ".") eqn:D; [exists st; split; [reflexivity|exact I]|].
  looks st p I. exists st'. split; [|exact I']. f_equal. cbn [orb]. destruct e as [[q n]|].
  - destruct F as (_ & _ & _ & A & O & S). fold t in S. fold T in S. rewrite S. cbn [on].
    now rewrite is_tree_directory, shown_directory.
  - cbn in F. fold t in F. fold T in F. now rewrite F.
Qed.

Lemma blob_content_ok q n : at_path t q = Some n -> (ign = true -> ordinary n = true) ->
  blob_content n = option_map snd (as_blob n).
Proof.
  intros A O. destruct (found_ok q n A O) as (_ & L & _). destruct n as [[] | | |]; try reflexivity. cbn in L |- *. now rewrite L.
Qed.

Lemma ReadContent_ok st p : inv st ->
  exists st', ReadContent fs r st p = (st', option_map snd (blob_at (seen T p))) /\ inv st'.
Proof.
  intros I. unfold ReadContent, r. looks st p I. exists st'. split; [|exact I']. f_equal. destruct e as [[q n]|].
  - destruct F as (_ & _ & _ & A & O & S). fold t in S. fold T in S. rewrite S. cbn [blob_at].
    rewrite shown_blob. now apply (blob_content_ok q).
  - cbn in F. fold t in F. fold T in F. now rewrite F.
Qed.

Lemma BlobType_ok st p : inv st ->
  exists st', BlobType fs r st p = (st', option_map fst (blob_at (seen T p))) /\ inv st'.
Proof.
  intros I. unfold BlobType, r. looks st p I. exists st'. split; [|exact I']. f_equal. destruct e as [[q n]|].
  - destruct F as (_ & _ & _ & A & O & S). fold t in S. fold T in S. rewrite S. cbn [blob_at].
    rewrite shown_blob. apply blob_type_as.
  - cbn in F. fold t in F. fold T in F. now rewrite F.
Qed.

(** The artifact of a blob. *)
Definition git_artifact (repository : string) (b : object_type * string) : artifact :=
  if native then Known (blob_id (snd b)) (fst b) (Some repository) else Known (plain_id (snd b)) (fst b) None.

Lemma describe_ok st p repository : inv st ->
  exists st', ToArtifactDescription blob_id plain_id native r st p repository =
    (st', option_map (git_artifact repository) (blob_at (seen T p))) /\ inv st'.
Proof.
  intros I. unfold ToArtifactDescription, r. looks st p I. exists st'. split; [|exact I']. f_equal. destruct e as [[q n]|].
  - destruct F as (_ & _ & _ & A & O & S). fold t in S. fold T in S. rewrite S. cbn [blob_at].
    rewrite shown_blob, blob_type_as, (blob_content_ok q n A O). destruct (as_blob n) as [[ty c]|]; reflexivity.
  - cbn in F. fold t in F. fold T in F. now rewrite F.
Qed.

(** ** Directories *)

Lemma vis_no_special q es : at_path t q = Some (Directory es) -> forall f, ~ In (f, Special) (vis ign es).
Proof.
  intros A f I. destruct (Bool.bool_dec ign true) as [E|E].
  - rewrite E in I. apply filter_In in I. destruct I as [_ I]. discriminate.
  - assert (ign = false) as E' by now destruct ign. rewrite E' in I. cbn in I. unfold readable in R. rewrite E' in R.
    destruct (R (q ++ [f]) Special) as [V _]; [|now apply V].
    rewrite at_path_app, A. cbn. now rewrite (In_alookup _ _ _ (proj1 (P _ _ A)) I).
Qed.

Lemma tree_lists q es f raw : at_path t q = Some (Directory es) -> lists (TreeEntries (vis ign es) raw f) (show ign es).
Proof.
  intros A. unfold lists. cbn [listing]. rewrite typed_all by exact (vis_no_special q es A).
  unfold show. rewrite map_map. apply map_ext. intros [a x]. cbn. now rewrite shown_type.
Qed.

(** A directory as it is given: with its entries as they are shown; if it is used as it is in the repository, nothing
    is hidden in it. *)
Definition given (e : entries) (es : list (string * item)) : Prop :=
  lists e es /\
  forall repository a, AsKnownTree tree_id native e repository = Some a ->
    native = true /\ a = Known (tree_id es) Tree (Some repository).

Lemma show_false es : show false es = es.
Proof. unfold show, vis, shown. induction es as [|[f x] es IH]; [reflexivity|]. cbn in *. now rewrite IH. Qed.

Lemma all_shown q es : at_path t q = Some (Directory es) -> ok_flag ign q false -> show ign es = es.
Proof.
  intros A [O|[O L]]; [rewrite <- O; apply show_false|]. unfold readable in R. rewrite O in *.
  assert (strip (Directory es) = Directory es) as S.
  { apply strip_all.
    - intros p es' A'. apply (R (q ++ p)); [now rewrite at_path_app, A|]. rewrite app_length. lia.
    - intros p es' A'. apply (P (q ++ p)). now rewrite at_path_app, A. }
  pose proof (shown_dir true es) as X. unfold shown in X. rewrite S in X. congruence.
Qed.

Lemma tree_given q es f : at_path t q = Some (Directory es) -> ok_flag ign q f ->
  given (TreeEntries (vis ign es) es f) (show ign es).
Proof.
  intros A O. split; [now apply (tree_lists q)|]. intros repository a E. cbn in E. destruct f; [discriminate|].
  destruct native; [|discriminate]. injection E as <-. rewrite (all_shown _ _ A O). auto.
Qed.

Definition validity n st :=
  if g_ignore g then (st, true)
  else let '(m, b) := IsGitTreeValid tree_id n (s_marks st) in (mkState (s_flags st) m, b).

Lemma validity_ok st q es : inv st -> at_path t q = Some (Directory es) ->
  exists st', validity (Directory es) st = (st', true) /\ inv st'.
Proof.
  intros I A. unfold validity. cbn [g g_ignore]. destruct (Bool.bool_dec ign true) as [E|E].
  - rewrite E. exists st. auto.
  - assert (ign = false) as E' by now destruct ign. rewrite E'. unfold readable in R. rewrite E' in R. destruct I as [I1 I2].
    destruct (git_tree_complete tree_id es (proper_sub _ _ _ P A) (valid_sub _ _ _ R A) (s_marks st) (I2 E')) as (m & -> & F).
    eexists. split; [reflexivity|]. split; [exact I1|intros _; exact F].
Qed.

Definition directory_answer (o : option item) (e : option entries) : Prop :=
  match o with
  | None => e = Some (Pairs [])
  | Some (Directory es) => exists d, e = Some d /\ given d es
  | Some _ => e = None
  end.

Lemma ReadDirectory_top st : inv st ->
  exists st' d, ReadDirectory tree_id fs r st "." = (st', Some d) /\ inv st' /\ given d (show ign top).
Proof.
  intros I. unfold ReadDirectory, r. rewrite String.eqb_refl. rewrite (root_entries_ok top ign P R : root_entries g = _).
  destruct (validity_ok st [] top I eq_refl) as (st' & E & I'). unfold validity in E. change (g_tree g) with top.
  rewrite E. eexists _, _. split; [reflexivity|]. split; [exact I'|]. apply (tree_given []); [reflexivity|now left].
Qed.

Lemma ReadDirectory_ok st p : inv st -> p <> "." ->
  exists st' e, ReadDirectory tree_id fs r st p = (st', e) /\ inv st' /\ directory_answer (seen T p) e.
Proof.
  intros I N. unfold ReadDirectory, r. apply String.eqb_neq in N. rewrite N. looks st p I.
  destruct e as [[q n]|]; [|exists st', (Some (Pairs [])); split; [reflexivity|]; split; [exact I'|];
    cbn in F; fold t in F; fold T in F; now rewrite F].
  destruct F as (_ & _ & _ & A & O & S). fold t in S. fold T in S. rewrite S.
  destruct n as [x c|c| |es].
  1-3: unfold IsGitTreeValid; cbn [EntryTree]; destruct (g_ignore g);
       (eexists _, None; split; [reflexivity|]; split; [destruct I' as [J1 J2]; split; [exact J1|exact J2]|]; now destruct ign).
  rewrite shown_dir. destruct (validity_ok st' q es I' A) as (st2 & E2 & I2). unfold validity in E2. rewrite E2.
  destruct (EntryTree (s_flags st2) q (Directory es) (g_ignore g)) as [f x] eqn:E3.
  destruct I2 as [J1 J2].
  destruct (entry_ok top ign P R _ _ _ _ _ _ J1 A ltac:(now left) E3) as [J3 (fl & OF & ->)].
  eexists _, _. split; [reflexivity|]. split; [split; [exact J3|exact J2]|].
  eexists. split; [reflexivity|]. now apply (tree_given q).
Qed.

(** ** Modules *)

Definition names_directory (path : string) (ps : list string) : Prop :=
  is_absolute path = false /\ place_of path = mkPlace 0 (rev ps) /\ (ps = [] -> path = "" \/ path = ".").

Lemma entries_ok st path ps : inv st -> names_directory path ps ->
  exists st' e, DirectoryEntriesOf tree_id fs r st path = (st', Some e) /\ inv st' /\
    match at_path T ps with Some (Directory es) => given e es | _ => e = Pairs [] end.
Proof.
  intros I (A & PL & TOP). unfold DirectoryEntriesOf.
  destruct ps as [|p0 ps0] eqn:EPS.
  - assert ((match path with "" => "." | _ => path end) = ".") as ->.
    { destruct (TOP eq_refl) as [->| ->]; reflexivity. }
    cbn [IsDirectory r]. unfold r. cbn [IsDirectory String.eqb Ascii.eqb]. cbn -[ReadDirectory DirectoryEntriesOf].
    destruct (ReadDirectory_top st I) as (st' & d & E & I' & G). fold r. rewrite E. exists st', d. split; [reflexivity|].
    split; [exact I'|]. unfold T, t. rewrite shown_dir. exact G.
  - rewrite <- EPS in *. assert (ps <> []) as NE by (rewrite EPS; discriminate). clear EPS p0 ps0 TOP.
    assert (path <> "") as N1.
    { intros ->. cbn in PL. injection PL as PL. apply (f_equal (@rev _)) in PL. rewrite rev_involutive in PL. now apply NE. }
    assert (path <> ".") as N2.
    { intros ->. cbn in PL. injection PL as PL. apply (f_equal (@rev _)) in PL. rewrite rev_involutive in PL. now apply NE. }
    rewrite match_ne by exact N1.
    destruct (IsDirectory_ok st path I) as (st1 & -> & I1).
    pose proof (proj2 (String.eqb_neq _ _) N2) as N2'. rewrite N2'. cbn [orb].
    pose proof (seen_names ps path A PL NE T) as SN. rewrite SN.
    destruct (on is_directory (at_path T ps)) eqn:D.
    + destruct (ReadDirectory_ok st1 path I1 N2) as (st2 & e & -> & I2 & AN). rewrite SN in AN.
      destruct (at_path T ps) as [[| | |es]|]; try discriminate D. destruct AN as (d & -> & G). exists st2, d. auto.
    + exists st1, (Pairs []). split; [reflexivity|]. split; [exact I1|].
      destruct (at_path T ps) as [[| | |es]|]; try reflexivity. discriminate D.
Qed.

(** ** Source targets *)

Lemma blob_at_seen path ps : is_absolute path = false -> place_of path = mkPlace 0 (rev ps) ->
  blob_at (seen T path) = blob_at (at_path T ps).
Proof.
  intros A PL. destruct ps as [|p0 ps0].
  - unfold seen. rewrite A, PL. cbn. unfold T, t. now rewrite shown_dir.
  - now rewrite (seen_names (p0 :: ps0) path A PL ltac:(discriminate)).
Qed.

Lemma source_ok st repository ms name : inv st -> Forall plain ms ->
  exists st', inv st' /\
    (~ downward name -> SourceTarget tree_id blob_id plain_id fs native r st repository (join_slash ms) name = (st', None)) /\
    (forall ns, is_absolute name = false -> place_of name = mkPlace 0 (rev ns) ->
     SourceTarget tree_id blob_id plain_id fs native r st repository (join_slash ms) name =
      (st', option_map (fun b => (name, git_artifact repository b)) (blob_at (at_path T (ms ++ ns))))).
Proof.
  intros I M. unfold SourceTarget. rewrite outside_normal.
  destruct (PathIsNonUpwards name) eqn:U; cbn [negb].
  2:{ exists st. split; [exact I|]. split; [reflexivity|]. intros ns A PL. exfalso.
      assert (PathIsNonUpwards name = true); [|congruence]. apply nonupwards_exact. split; [exact A|].
      apply up_zero_never_above. unfold place_of in PL. rewrite A in PL. now rewrite PL. }
  apply nonupwards_exact in U. destruct U as [A NA]. destruct (downward_place name A NA) as (ns & NP & PL).
  destruct (normal_place name) as [A' PL']. rewrite A in A'. rewrite PL in PL'.
  destruct (append_module ms (lexically_normal name) ns M A' PL') as [A2 PL2].
  unfold r at 1 3. destruct (IsBlob_ok st (append (join_slash ms) (lexically_normal name)) I) as (st1 & -> & I1).
  pose proof (blob_at_seen _ _ A2 PL2) as B. rewrite B.
  assert (forall ns', place_of name = mkPlace 0 (rev ns') -> ns' = ns) as UN.
  { intros ns' E. rewrite PL in E. injection E as E. apply (f_equal (@rev _)) in E. now rewrite !rev_involutive in E. }
  destruct (blob_at (at_path T (ms ++ ns))) as [b|] eqn:BE; cbn [is_some].
  - destruct (describe_ok st1 (append (join_slash ms) (lexically_normal name)) repository I1) as (st2 & E & I2).
    rewrite B in E. rewrite E. exists st2. split; [exact I2|]. split.
    + intros ND. exfalso. apply ND. now split.
    + intros ns' _ PL3. rewrite (UN _ PL3), BE. reflexivity.
  - exists st1. split; [exact I1|]. split; [reflexivity|]. intros ns' _ PL3. now rewrite (UN _ PL3), BE.
Qed.
End Git.
