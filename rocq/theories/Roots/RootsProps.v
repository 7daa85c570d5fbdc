(** C76-C80: workspace roots and the targets that refer to their files. *)
From Coq Require Import String Ascii List Bool.
From Verif Require Import Common.Strs Path.Spec Path.Model.
From Verif Require Import Roots.Model Roots.Spec Roots.Questions Roots.Paths Roots.Markers Roots.Lookups Roots.Answers.
From Verif Require Import Roots.Files Roots.References Roots.Instances Roots.Histories.
Import ListNotations.
Local Open Scope string_scope.
Local Open Scope list_scope.

(** ** C78: markers of valid trees *)

(** A tree that is accepted by the check is valid, whatever happened before: checks of other trees, killed checks,
    failures to write markers, garbage collection. No two directories that were ever considered have the same
    identifier. *)
Theorem C78_checked_trees_valid : forall tree_id h t failures m,
  (forall e u, In e (h ++ [Checked t]) -> tree_of e = Some u -> proper u) ->
  (forall a b, directory_in (h ++ [Checked t]) a -> directory_in (h ++ [Checked t]) b -> tree_id a = tree_id b -> a = b) ->
  IsGitTreeValid tree_id t (history tree_id h (mkMarkers [] failures)) = (m, true) -> valid t.
Proof. exact checked_valid. Qed.
Print Assumptions C78_checked_trees_valid.

(** The same for trees that are read by their identifier. *)
Theorem C78_read_trees_valid : forall tree_id h es failures m es',
  (forall e u, In e (h ++ [Read_by_id es]) -> tree_of e = Some u -> proper u) ->
  (forall a b, directory_in (h ++ [Read_by_id es]) a -> directory_in (h ++ [Read_by_id es]) b -> tree_id a = tree_id b -> a = b) ->
  ReadValidGitCASTree tree_id es (history tree_id h (mkMarkers [] failures)) = (m, Some es') -> es' = es /\ valid (Directory es).
Proof. exact read_valid. Qed.
Print Assumptions C78_read_trees_valid.

(** Valid trees are accepted after every history in which markers can be written. *)
Theorem C78_valid_trees_accepted : forall tree_id h es, proper (Directory es) -> valid (Directory es) ->
  snd (IsGitTreeValid tree_id (Directory es) (history tree_id h (mkMarkers [] []))) = true /\
  snd (ReadValidGitCASTree tree_id es (history tree_id h (mkMarkers [] []))) = Some es.
Proof.
  intros tree_id h es P V. pose proof (history_no_failures tree_id h (mkMarkers [] []) eq_refl) as F. split.
  - destruct (git_tree_complete tree_id es P V _ F) as (m & -> & _). reflexivity.
  - destruct (read_complete tree_id es P V _ F) as (m & -> & _). reflexivity.
Qed.
Print Assumptions C78_valid_trees_accepted.

Section Roots.
Variable tree_id : list (string * item) -> string.
Variables blob_id plain_id : string -> string.
Variable fs : item.
Variable native : bool.
Variable fnmatch : string -> string -> bool.
Notation source := (SourceTarget tree_id blob_id plain_id fs native).
Notation tree := (TreeTarget tree_id blob_id plain_id fs native).
Notation glob := (GlobTarget tree_id blob_id plain_id fs native fnmatch).
Notation later := (after tree_id blob_id plain_id fs native fnmatch).
Notation ask := (ask tree_id blob_id plain_id fs native fnmatch).
Notation stands := (stands_for tree_id blob_id plain_id fs native).

(** What is in [st]: nothing was asked yet; markers are there from earlier builds; they can be written. *)
Definition fresh (st : state) : Prop := s_flags st = [] /\ m_fail (s_marks st) = [].

Lemma fresh_inv ign st : fresh st -> inv ign st.
Proof.
  destruct st as [f m]. intros [A B]. cbn in *. subst f. apply inv_fresh. intros _. exact B.
Qed.

(** ** C76: source files *)

(** A name that leaves the module, or is absolute, is no source target, in any root. *)
Theorem C76_never_outside : forall r st repository module name, ~ downward name ->
  source r st repository module name = (st, None).
Proof.
  intros r st repository module name D. unfold SourceTarget. rewrite outside_normal.
  destruct (PathIsNonUpwards name) eqn:E; [|reflexivity]. exfalso. apply D. now apply downward_ok.
Qed.

(** In a Git root whose tree is valid: the target is there exactly if there is a file or symlink, and it has the
    identifier of its content and its type; whatever was asked before. *)
Definition git_source_is (ign : bool) (top : list (string * item)) : Prop :=
  forall st qs repository ms name ns, fresh st -> Forall plain ms -> is_absolute name = false -> place_of name = mkPlace 0 (rev ns) ->
  let r := GitRoot (mkGit top ign) in
  snd (source r (later r st qs) repository (join_slash ms) name) =
  match at_path (shown ign (Directory top)) (ms ++ ns) with
  | Some x => match as_blob x with
              | Some (type, content) => Some (name, if native then Known (blob_id content) type (Some repository)
                                                    else Known (plain_id content) type None)
              | None => None
              end
  | None => None
  end.

Lemma git_source_readable ign top : proper (Directory top) -> readable ign (Directory top) -> git_source_is ign top.
Proof.
  intros P R st qs repository ms name ns F M A PL r.
  pose proof (inv_after tree_id blob_id plain_id fs native fnmatch top ign P R qs st (fresh_inv ign st F)) as I.
  destruct (source_ok tree_id blob_id plain_id fs native top ign P R _ repository ms name I M) as (st' & _ & _ & H).
  unfold r. rewrite (H ns A PL). cbn [snd]. destruct (at_path _ _) as [x|]; cbn [blob_at option_map]; [|reflexivity].
  destruct (as_blob x) as [[ty c]|]; reflexivity.
Qed.

Theorem C76_git_source : forall top, proper (Directory top) -> valid (Directory top) -> git_source_is false top.
Proof. intros top P V. exact (git_source_readable false top P V). Qed.

(** In a Git root that ignores special entries; missing: trees with special entries further down. *)
Theorem C76_git_source_ignoring_partial : forall top, proper (Directory top) -> special_at_top (Directory top) -> git_source_is true top.
Proof. intros top P V. exact (git_source_readable true top P V). Qed.

(** In a root in the file system: the target is there exactly if its directory can be read and has such a file, and
    it stands for the file at this path. The name has to end with a name, and the path has no symlinks before its
    last component. *)
Theorem C76_file_source : forall d t ign st repository ms name ns x a,
  root_dir fs d t -> proper t -> Forall plain ms -> is_absolute name = false -> place_of name = mkPlace 0 (rev ns) ->
  plain (filename name) -> no_link_before t (ms ++ ns) ->
  (snd (source (FsRoot d ign) st repository (join_slash ms) name) = Some (x, a) <->
   x = name /\ a = Local (join_slash (ms ++ ns)) repository /\
   (exists es, at_path t (removelast (ms ++ ns)) = Some (Directory es) /\ (ign = false -> directly_valid es)) /\
   exists y, at_path (shown ign t) (ms ++ ns) = Some y /\ as_blob y <> None).
Proof.
  intros d t ign st repository ms name ns x a RD P M A PL F L.
  rewrite (fs_source fs d t RD ign P tree_id blob_id plain_id native st repository ms name ns M A PL F L). cbn [snd].
  split.
  - destruct (at_path t (removelast (ms ++ ns))) as [[| | |raw]|] eqn:AR; try discriminate.
    destruct (fs_entries raw ign) as [l|] eqn:FE; [|discriminate]. apply fs_entries_spec in FE; [|auto].
    destruct (blob_at (at_path (shown ign t) (ms ++ ns))) as [b|] eqn:B; cbn [is_some]; [|discriminate].
    intros E. injection E as <- <-. split; [reflexivity|]. split; [reflexivity|]. split; [exists raw; split; [reflexivity|apply FE]|].
    destruct (at_path (shown ign t) (ms ++ ns)) as [y|]; [|discriminate]. exists y. split; [reflexivity|]. cbn in B. congruence.
  - intros (-> & -> & (es & -> & DV) & y & -> & B).
    rewrite (proj2 (fs_entries_spec ign es (typed (vis ign es)) ltac:(auto)) (conj DV eq_refl)). cbn [blob_at].
    destruct (as_blob y); [reflexivity|congruence].
Qed.

(** What such a target stands for is the file the root shows. *)
Theorem C76_file_source_content : forall d t ign repository ps y,
  root_dir fs d t -> proper t -> (ign = false -> valid t) -> Forall plain ps -> ps <> [] -> no_link_before t ps ->
  at_path (shown ign t) ps = Some y -> as_blob y <> None ->
  stands (FsRoot d ign) repository (Local (join_slash ps) repository) y.
Proof.
  intros d t ign repository ps y RD P V F N L A B. destruct (as_blob y) as [b|] eqn:E; [|congruence].
  exact (fs_stands tree_id blob_id plain_id fs native repository d t ign RD P V ps y b F N L A E).
Qed.

(** ** C77: answers do not depend on what was asked before *)

(** Roots that do not ignore special entries: the same answers after all histories. The markers of valid trees are
    those of any history of the storage. *)
Theorem C77_independent : forall top h q qs1 qs2,
  let t := Directory top in let all := h ++ [Checked t] in
  (forall e u, In e all -> tree_of e = Some u -> proper u) ->
  (forall a b, directory_in all a -> directory_in all b -> tree_id a = tree_id b -> a = b) ->
  let r := GitRoot (mkGit top false) in
  let st := mkState [] (history tree_id h (mkMarkers [] [])) in
  snd (ask r (later r st qs1) q) = snd (ask r (later r st qs2) q).
Proof.
  intros top h q qs1 qs2 t all P C r st.
  assert (In (Checked t) all) as I by (apply in_or_app; right; now left).
  assert (sound tree_id (directory_in all) (s_marks st)) as S.
  { apply (history_sound tree_id all P C); [intros x J; apply in_or_app; now left|apply sound_fresh]. }
  assert (pinv tree_id (directory_in all) st) as PI.
  { split; [intros p b E; discriminate|]. split; [apply history_no_failures; reflexivity|exact S]. }
  assert (forall es, directory_in all es -> proper (Directory es)) as UP.
  { intros es (e & u & p & IE & TE & AE). exact (proper_sub _ _ _ (P _ _ IE TE) AE). }
  apply (plain_answers tree_id blob_id plain_id fs native fnmatch top (directory_in all)); try assumption.
  - exists (Checked t), t, []. auto.
  - exact (in_closed all P).
Qed.

(** The answers of any root of a Git repository are those of the tree it shows; missing: special entries that are to
    be ignored further down. *)
Theorem C77_answers_partial : forall top ign st qs p, proper (Directory top) -> readable ign (Directory top) -> fresh st ->
  let r := GitRoot (mkGit top ign) in let st' := later r st qs in let x := seen (shown ign (Directory top)) p in
  snd (Exists fs r st' p) = (String.eqb p "." || match x with Some _ => true | None => false end)%bool /\
  snd (IsFile fs r st' p) = match x with Some (Regular _ _) => true | _ => false end /\
  snd (IsSymlink fs r st' p) = match x with Some (SymLink _) => true | _ => false end /\
  snd (IsBlob fs r st' p) = match x with Some (Regular _ _) | Some (SymLink _) => true | _ => false end /\
  snd (IsDirectory fs r st' p) = (String.eqb p "." || match x with Some (Directory _) => true | _ => false end)%bool /\
  snd (ReadContent fs r st' p) = match x with Some (Regular _ c) | Some (SymLink c) => Some c | _ => None end /\
  snd (BlobType fs r st' p) = match x with
    | Some (Regular false _) => Some File | Some (Regular true _) => Some Executable | Some (SymLink _) => Some Symlink
    | _ => None end /\
  match (if String.eqb p "." then Some (shown ign (Directory top)) else x) with
  | Some (Directory es) => exists e, snd (ReadDirectory tree_id fs r st' p) = Some e /\
      map (fun x => (fst x, Some (snd x))) (listing e) = map (fun x => (fst x, type_of (snd x))) es
  | Some _ => snd (ReadDirectory tree_id fs r st' p) = None
  | None => exists e, snd (ReadDirectory tree_id fs r st' p) = Some e /\ listing e = []
  end.
Proof.
  intros top ign st qs p P R F r st' x.
  pose proof (inv_after tree_id blob_id plain_id fs native fnmatch top ign P R qs st (fresh_inv ign st F)) as I. fold r in I. fold st' in I.
  destruct (Exists_ok fs top ign P R st' p I) as (s1 & E1 & _). fold r in E1. rewrite E1.
  destruct (IsFile_ok fs top ign P R st' p I) as (s2 & E2 & _). fold r in E2. rewrite E2.
  destruct (IsSymlink_ok fs top ign P R st' p I) as (s3 & E3 & _). fold r in E3. rewrite E3.
  destruct (IsBlob_ok fs top ign P R st' p I) as (s4 & E4 & _). fold r in E4. rewrite E4.
  destruct (IsDirectory_ok fs top ign P R st' p I) as (s5 & E5 & _). fold r in E5. rewrite E5.
  destruct (ReadContent_ok fs top ign P R st' p I) as (s6 & E6 & _). fold r in E6. rewrite E6.
  destruct (BlobType_ok fs top ign P R st' p I) as (s7 & E7 & _). fold r in E7. rewrite E7.
  cbn [snd]. fold x. split; [reflexivity|]. split; [reflexivity|]. split; [reflexivity|].
  split; [destruct x as [[[] | | |]|]; reflexivity|]. split; [reflexivity|].
  split; [destruct x as [[[] | | |]|]; reflexivity|]. split; [destruct x as [[[] | | |]|]; reflexivity|].
  destruct (String.eqb_spec p ".") as [->|N].
  - destruct (ReadDirectory_top tree_id fs native top ign P R st' I) as (s8 & d & E8 & _ & G & _). fold r in E8. rewrite E8.
    rewrite shown_dir. exists d. split; [reflexivity|exact G].
  - destruct (ReadDirectory_ok tree_id fs native top ign P R st' p I N) as (s8 & e & E8 & _ & AN). fold r in E8. rewrite E8. fold x in AN.
    unfold directory_answer in AN. destruct x as [[| | |es]|].
    1-3: exact AN.
    + destruct AN as (d & -> & G & _). exists d. split; [reflexivity|exact G].
    + exists (Pairs []). split; [exact AN|reflexivity].
Qed.

(** A directory of a root that does not ignore special entries is given only if its tree is valid. *)
Theorem C78_listed_trees_valid : forall top h qs p es raw b,
  let t := Directory top in let all := h ++ [Checked t] in
  (forall e u, In e all -> tree_of e = Some u -> proper u) ->
  (forall a b, directory_in all a -> directory_in all b -> tree_id a = tree_id b -> a = b) ->
  let r := GitRoot (mkGit top false) in
  let st := mkState [] (history tree_id h (mkMarkers [] [])) in
  snd (ReadDirectory tree_id fs r (later r st qs) p) = Some (TreeEntries es raw b) -> es = raw /\ valid (Directory raw).
Proof.
  intros top h qs p es raw b t all P C r st E.
  assert (In (Checked t) all) as I by (apply in_or_app; right; now left).
  assert (sound tree_id (directory_in all) (s_marks st)) as S.
  { apply (history_sound tree_id all P C); [intros x J; apply in_or_app; now left|apply sound_fresh]. }
  assert (pinv tree_id (directory_in all) st) as PI.
  { split; [intros p0 b0 E0; discriminate|]. split; [apply history_no_failures; reflexivity|exact S]. }
  assert (forall es, directory_in all es -> proper (Directory es)) as UP.
  { intros es0 (e & u & p0 & IE & TE & AE). exact (proper_sub _ _ _ (P _ _ IE TE) AE). }
  assert (directory_in all top) as UT by (exists (Checked t), t, []; auto).
  pose proof (plain_after tree_id blob_id plain_id fs native fnmatch top (directory_in all) UT UP (in_closed all P) C qs st PI) as PA.
  destruct (listed_valid tree_id fs top (directory_in all) UT UP (in_closed all P) C _ p es raw b PA E) as (V & EQ & _). auto.
Qed.

(** ** C79: tree references *)

(** A reference to a directory of a Git root stands for the directory shown there; a reference to something else
    for the empty tree. *)
Definition git_tree_is (ign : bool) (top : list (string * item)) : Prop :=
  forall st qs k repository module name ps, fresh st -> is_absolute (append module name) = false ->
  place_of (append module name) = mkPlace 0 (rev ps) -> (ps = [] -> append module name = "" \/ append module name = ".") ->
  let r := GitRoot (mkGit top ign) in
  match at_path (shown ign (Directory top)) ps with
  | Some (Directory es) => height (Directory es) <= S k ->
      exists a, snd (tree (S k) r (later r st qs) repository module name) = Some (name, a) /\ stands r repository a (Directory es)
  | _ => snd (tree (S k) r (later r st qs) repository module name) = Some (name, TreeOf [])
  end.

Lemma git_tree_readable ign top : proper (Directory top) -> readable ign (Directory top) -> git_tree_is ign top.
Proof.
  intros P R st qs k repository module name ps F A PL TOP r.
  pose proof (inv_after tree_id blob_id plain_id fs native fnmatch top ign P R qs st (fresh_inv ign st F)) as I. fold r in I.
  assert (names_directory (append module name) ps) as N by (split; [exact A|split; [exact PL|exact TOP]]).
  pose proof (git_missing tree_id blob_id plain_id fs native repository top ign P R k (later r st qs) module name ps I N) as X.
  fold r in X. destruct (at_path (shown ign (Directory top)) ps) as [[| | |es]|] eqn:E.
  1-3,5: destruct X as (st' & -> & _); [congruence|reflexivity].
  intros H. destruct (git_tree tree_id blob_id plain_id fs native repository top ign P R (S k) (later r st qs) module name ps es I N E H) as (st' & a & EQ & _ & ST).
  fold r in EQ. rewrite EQ. exists a. split; [reflexivity|exact ST].
Qed.

Theorem C79_git_tree : forall top, proper (Directory top) -> valid (Directory top) -> git_tree_is false top.
Proof. intros top P V. exact (git_tree_readable false top P V). Qed.

(** missing: trees with special entries further down. *)
Theorem C79_git_tree_ignoring_partial : forall top, proper (Directory top) -> special_at_top (Directory top) -> git_tree_is true top.
Proof. intros top P V. exact (git_tree_readable true top P V). Qed.

(** The same for roots in the file system, for names of directories below the module; missing: names with dots. *)
Theorem C79_file_tree_partial : forall d t ign st k repository ms ns,
  root_dir fs d t -> proper t -> (ign = false -> valid t) -> Forall plain ms -> Forall plain ns -> ns <> [] -> no_link_before t (ms ++ ns) ->
  let r := FsRoot d ign in
  match at_path (shown ign t) (ms ++ ns) with
  | Some (Directory es) => height (Directory es) <= S k ->
      exists a, snd (tree (S k) r st repository (join_slash ms) (join_slash ns)) = Some (join_slash ns, a) /\ stands r repository a (Directory es)
  | _ => snd (tree (S k) r st repository (join_slash ms) (join_slash ns)) = Some (join_slash ns, TreeOf [])
  end.
Proof.
  intros d t ign st k repository ms ns RD P V M N NE L r.
  assert (fs_path t (append (join_slash ms) (join_slash ns)) (ms ++ ns)) as FP.
  { rewrite (append_join ms ns M N NE). split; [now apply Forall_app|]. split; [exact L|now left]. }
  pose proof (fs_missing tree_id blob_id plain_id fs native repository d t ign RD P V k st (join_slash ms) (join_slash ns) _ I FP) as X.
  fold r in X. destruct (at_path (shown ign t) (ms ++ ns)) as [[| | |es]|] eqn:E.
  1-3,5: destruct X as (st' & -> & _); [congruence|reflexivity].
  intros H. destruct (fs_tree tree_id blob_id plain_id fs native repository d t ign RD P V (S k) st (join_slash ms) (join_slash ns) _ es I FP E H)
    as (st' & a & EQ & _ & ST).
  fold r in EQ. rewrite EQ. exists a. split; [reflexivity|exact ST].
Qed.

(** ** C80: glob references *)

(** A glob has exactly the files and symlinks of the directory of the module that match, each of them standing for
    what is there. *)
Definition glob_is (r : root) (st : state) (shown_tree : item) (ms : list string) : Prop := forall repository pattern,
  exists l, snd (glob r st repository (join_slash ms) pattern) = Some l /\ NoDup (map fst l) /\
    (forall f a, In (f, a) l -> exists x, at_path shown_tree (ms ++ [f]) = Some x /\ as_blob x <> None /\
                                          fnmatch pattern f = true /\ stands r repository a x) /\
    (forall f x, plain f -> at_path shown_tree (ms ++ [f]) = Some x -> as_blob x <> None -> fnmatch pattern f = true ->
       exists a, In (f, a) l).

Lemma is_some_ne {A} (o : option A) : is_some o = true <-> o <> None.
Proof. destruct o; cbn; split; congruence. Qed.

Lemma git_glob_readable ign top st qs ms : proper (Directory top) -> readable ign (Directory top) -> fresh st -> Forall plain ms ->
  let r := GitRoot (mkGit top ign) in glob_is r (later r st qs) (shown ign (Directory top)) ms.
Proof.
  intros P R F M r repository pattern.
  pose proof (inv_after tree_id blob_id plain_id fs native fnmatch top ign P R qs st (fresh_inv ign st F)) as I. fold r in I.
  destruct (git_glob tree_id blob_id plain_id fs native fnmatch repository top ign P R (later r st qs) (join_slash ms) ms pattern I
    (names_directory_join ms M) eq_refl) as (st' & l & E & _ & S & A & B).
  fold r in E. rewrite E. exists l. split; [reflexivity|]. split; [now apply sorted_NoDup|]. split.
  - intros f a J. destruct (A f a J) as (x & A1 & A2 & A3 & A4). exists x. apply is_some_ne in A2. auto.
  - intros f x PF AT NB FM. apply (B f x); try assumption. now apply is_some_ne.
Qed.

Theorem C80_git_glob : forall top st qs ms, proper (Directory top) -> valid (Directory top) -> fresh st -> Forall plain ms ->
  let r := GitRoot (mkGit top false) in glob_is r (later r st qs) (Directory top) ms.
Proof. intros top st qs ms P V. exact (git_glob_readable false top st qs ms P V). Qed.

(** missing: trees with special entries further down. *)
Theorem C80_git_glob_ignoring_partial : forall top st qs ms, proper (Directory top) -> special_at_top (Directory top) ->
  fresh st -> Forall plain ms ->
  let r := GitRoot (mkGit top true) in glob_is r (later r st qs) (strip (Directory top)) ms.
Proof. intros top st qs ms P V. exact (git_glob_readable true top st qs ms P V). Qed.

Theorem C80_file_glob : forall d t ign st ms,
  root_dir fs d t -> proper t -> (ign = false -> valid t) -> Forall plain ms -> no_link_before t ms ->
  glob_is (FsRoot d ign) st (shown ign t) ms.
Proof.
  intros d t ign st ms RD P V M L repository pattern.
  assert (fs_path t (join_slash ms) ms) as FP by (split; [exact M|split; [exact L|now left]]).
  destruct (fs_glob tree_id blob_id plain_id fs native fnmatch repository d t ign RD P V st (join_slash ms) ms pattern I FP eq_refl)
    as (st' & l & E & _ & S & A & B).
  rewrite E. exists l. split; [reflexivity|]. split; [now apply sorted_NoDup|]. split.
  - intros f a J. destruct (A f a J) as (x & A1 & A2 & A3 & A4). exists x. apply is_some_ne in A2. auto.
  - intros f x PF AT NB FM. apply (B f x); try assumption. now apply is_some_ne.
Qed.
End Roots.
Print Assumptions C76_never_outside.
Print Assumptions C76_git_source.
Print Assumptions C76_git_source_ignoring_partial.
Print Assumptions C76_file_source.
Print Assumptions C76_file_source_content.
Print Assumptions C77_independent.
Print Assumptions C77_answers_partial.
Print Assumptions C78_listed_trees_valid.
Print Assumptions C79_git_tree.
Print Assumptions C79_git_tree_ignoring_partial.
Print Assumptions C79_file_tree_partial.
Print Assumptions C80_git_glob.
Print Assumptions C80_git_glob_ignoring_partial.
Print Assumptions C80_file_glob.
