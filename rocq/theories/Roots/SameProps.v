(** C76-C80, continued: Git roots and roots in the file system compared; what does not hold; examples. *)
From Coq Require Import String Ascii List Bool Lia.
From Verif Require Import Common.Strs Path.Spec Path.Model Path.Proofs.
From Verif Require Import Roots.Model Roots.Spec Roots.Questions Roots.Paths Roots.Markers Roots.Lookups Roots.Answers.
From Verif Require Import Roots.Files Roots.References Roots.Instances Roots.Histories Roots.RootsProps.
Import ListNotations.
Local Open Scope string_scope.
Local Open Scope list_scope.

(** The same tree as a Git root and as a root in the file system: the same names are source targets, and they stand
    for the same file. Missing: names that do not end with a name. *)
Theorem C76_same_partial : forall tree_id blob_id plain_id fs native fnmatch d top ign st st' qs repository ms name,
  root_dir fs d (Directory top) -> proper (Directory top) -> readable ign (Directory top) -> fresh st ->
  Forall plain ms -> downward name -> plain (filename name) ->
  (forall ns, place_of name = mkPlace 0 (rev ns) -> no_link_before (Directory top) (ms ++ ns)) ->
  let g := GitRoot (mkGit top ign) in let f := FsRoot d ign in
  match snd (SourceTarget tree_id blob_id plain_id fs native g (after tree_id blob_id plain_id fs native fnmatch g st qs) repository (join_slash ms) name),
        snd (SourceTarget tree_id blob_id plain_id fs native f st' repository (join_slash ms) name) with
  | Some (x, a), Some (y, b) => x = name /\ y = name /\
      exists n, stands_for tree_id blob_id plain_id fs native g repository a n /\ stands_for tree_id blob_id plain_id fs native f repository b n
  | None, None => True
  | _, _ => False
  end.
Proof.
  intros tree_id blob_id plain_id fs native fnmatch d top ign st st' qs repository ms name RD P R F M [A NA] PF L g f.
  assert (ign = false -> valid (Directory top)) as V by (intros X; rewrite X in R; exact R).
  destruct (downward_place name A NA) as (ns & PN & PL). specialize (L ns PL).
  pose proof (git_source_readable tree_id blob_id plain_id fs native fnmatch ign top P R st qs repository ms name ns F M A PL) as G.
  fold g in G. cbv zeta in G. rewrite G. clear G.
  pose proof (fs_source fs d (Directory top) RD ign P tree_id blob_id plain_id native st' repository ms name ns M A PL PF L) as S.
  change (FsRoot d ign) with f in S. rewrite !S. cbn [snd].
  destruct (at_path (shown ign (Directory top)) (ms ++ ns)) as [y|] eqn:E.
  2: { cbn [blob_at is_some]. repeat match goal with |- match match ?x with _ => _ end with _ => _ end => destruct x end; exact I. }
  cbn [blob_at]. destruct (as_blob y) as [[ty c]|] eqn:B.
  2: { cbn [is_some]. repeat match goal with |- match match ?x with _ => _ end with _ => _ end => destruct x end; exact I. }
  cbn [is_some]. assert (ms ++ ns <> []) as NE.
  { intros X. rewrite X in E. cbn [at_path] in E. rewrite shown_dir in E. injection E as <-. discriminate. }
  destruct (exists_last NE) as (ps & l & X). pose proof E as E'. rewrite X in E'. rewrite (at_snoc (Directory top) ign P) in E'.
  rewrite X, removelast_last, <- X. destruct (at_path (Directory top) ps) as [[| | |raw]|] eqn:Y; try discriminate.
  assert (fs_entries raw ign = Some (typed (vis ign raw))) as ->.
  { apply fs_entries_spec; [auto|]. split; [|reflexivity]. intros NI g0 x J. apply (V NI (ps ++ [g0])).
    rewrite at_path_app, Y. cbn. now rewrite (In_alookup _ _ _ (proj1 (P _ _ Y)) J). }
  destruct native eqn:NT; (split; [reflexivity|]; split; [reflexivity|]; exists y; split).
  - now apply (s_blob tree_id blob_id plain_id fs true g repository y ty c).
  - apply (fs_stands tree_id blob_id plain_id fs true repository d (Directory top) ign RD P V (ms ++ ns) y (ty, c)); auto.
    now apply Forall_app.
  - now apply (s_plain tree_id blob_id plain_id fs false g repository y ty c).
  - apply (fs_stands tree_id blob_id plain_id fs false repository d (Directory top) ign RD P V (ms ++ ns) y (ty, c)); auto.
    now apply Forall_app.
Qed.
Print Assumptions C76_same_partial.

(** ** Examples and counterexamples *)

(** Identifiers that differ for different values. *)
Fixpoint item_text (n : item) : string :=
  match n with
  | Regular x c => ("f" ++ (if x then "x" else "-") ++ c ++ ";")%string
  | SymLink c => ("l" ++ c ++ ";")%string
  | Special => "s;"
  | Directory es => ("d" ++ (fix go (l : list (string * item)) := match l with [] => "" | (f, x) :: r => (f ++ "/" ++ item_text x ++ go r)%string end) es ++ ";")%string
  end.
Definition tid (es : list (string * item)) : string := item_text (Directory es).
Definition bid (c : string) : string := ("b" ++ c)%string.
Definition pid (c : string) : string := ("p" ++ c)%string.
Definition all_match (_ _ : string) : bool := true.
Definition start : state := mkState [] (mkMarkers [[]] []).

Ltac follow H :=
  repeat (match type of H with
          | at_path _ ?p = Some _ => destruct p as [|?c ?p]; cbn in H
          | context[String.eqb ?a ?b] => destruct (String.eqb a b); cbn in H
          | None = Some _ => discriminate H
          | Some _ = Some _ => injection H as H; subst
          | Regular _ _ = Directory _ => discriminate H
          | SymLink _ = Directory _ => discriminate H
          | Special = Directory _ => discriminate H
          | Directory _ = Directory _ => injection H as H; subst
          | (_, _) = (_, _) => injection H as H; subst
          end).
Ltac names := repeat constructor; cbn; try (intuition discriminate).

Definition upward_link : list (string * item) :=
  [("a", Directory [("b", Directory [("f", Regular false "x"); ("l", SymLink "../g")])])].

Lemma upward_proper : proper (Directory upward_link).
Proof. intros p es H. unfold upward_link in H. follow H; names. Qed.

(** A root that ignores special entries does not show a file beside an upwards link, from the third level of
    directories on. *)
Theorem C76_ignoring_refuted : exists top, proper (Directory top) /\ ~ git_source_is tid bid pid (Directory []) true all_match true top.
Proof.
  exists upward_link. split; [exact upward_proper|]. intros H.
  specialize (H start [] "r" ["a"; "b"] "f" ["f"] ltac:(now split) ltac:(names) eq_refl eq_refl). vm_compute in H. discriminate.
Qed.
Print Assumptions C76_ignoring_refuted.

(** The name of a file followed by a slash is a source target of a Git root, but not of the same root in the file
    system. *)
Theorem C76_same_refuted : exists fs d top name, root_dir fs d (Directory top) /\ proper (Directory top) /\ valid (Directory top) /\ downward name /\
  snd (SourceTarget tid bid pid fs true (GitRoot (mkGit top false)) start "r" "" name) <> None /\
  snd (SourceTarget tid bid pid fs true (FsRoot d false) start "r" "" name) = None.
Proof.
  exists (Directory [("r", Directory [("f", Regular false "x")])]), "/r", [("f", Regular false "x")], "f/". split.
  { exists ["r"]. split; [names|]. split; [reflexivity|]. split; [reflexivity|]. now eexists. }
  split; [intros p es H; follow H; names|]. split; [intros p x H; follow H; split; [discriminate|intros; discriminate| |]; try discriminate; intros; discriminate|].
  split; [apply downward_ok; reflexivity|]. split; vm_compute; [discriminate|reflexivity].
Qed.
Print Assumptions C76_same_refuted.

(** The content of a directory as it is shown depends on what was asked before. *)
Theorem C77_ignoring_refuted : exists top q qs, proper (Directory top) /\
  let r := GitRoot (mkGit top true) in
  snd (ask tid bid pid (Directory []) true all_match r (after tid bid pid (Directory []) true all_match r start qs) q) <>
  snd (ask tid bid pid (Directory []) true all_match r start q).
Proof.
  exists [("a", Directory [("b", Directory [("f", Regular false "x"); ("l", SymLink "f")])])], (Q_directory "a/b"), [Q_is_file "a/b/f"].
  split; [intros p es H; follow H; names|]. vm_compute. discriminate.
Qed.
Print Assumptions C77_ignoring_refuted.

(** So do tree references. *)
Theorem C79_ignoring_refuted : exists top, proper (Directory top) /\ ~ git_tree_is tid bid pid (Directory []) true all_match true top.
Proof.
  exists upward_link. split; [exact upward_proper|]. intros H.
  specialize (H start [Q_is_file "a/b/f"] 3 "r" "a" "b" ["a"; "b"] ltac:(now split) eq_refl eq_refl ltac:(discriminate)). vm_compute in H.
  destruct H as (a & H & _); [lia|discriminate].
Qed.
Print Assumptions C79_ignoring_refuted.

(** A tree reference in a root in the file system can lead outside of the root: the result depends on what is
    there. *)
Theorem C79_outside_refuted : exists fs1 fs2 d t module name, root_dir fs1 d t /\ root_dir fs2 d t /\ proper t /\ valid t /\
  snd (TreeTarget tid bid pid fs1 true 5 (FsRoot d false) start "r" module name) <>
  snd (TreeTarget tid bid pid fs2 true 5 (FsRoot d false) start "r" module name).
Proof.
  set (t := Directory [("m", Directory [])]).
  exists (Directory [("r", t); ("o", Directory [])]), (Directory [("r", t); ("o", Directory [("x", Regular false "x")])]), "/r", t, "m", "../../o".
  split; [exists ["r"]; split; [names|]; split; [reflexivity|]; split; [reflexivity|now eexists]|].
  split; [exists ["r"]; split; [names|]; split; [reflexivity|]; split; [reflexivity|now eexists]|].
  split; [intros p es H; unfold t in H; follow H; names|].
  split; [intros p x H; unfold t in H; follow H; split; intros; discriminate|].
  vm_compute. discriminate.
Qed.
Print Assumptions C79_outside_refuted.

(** The top directory of a Git root, referred to by a path with a slash, is taken to be empty. *)
Theorem C79_top_refuted : exists top name, proper (Directory top) /\ valid (Directory top) /\ top <> [] /\ place_of name = mkPlace 0 [] /\
  snd (TreeTarget tid bid pid (Directory []) true 5 (GitRoot (mkGit top false)) start "r" "" name) = Some (name, TreeOf []).
Proof.
  exists [("f", Regular false "x")], "./".
  split; [intros p es H; follow H; names|]. split; [intros p x H; follow H; split; intros; discriminate|].
  split; [discriminate|]. split; reflexivity.
Qed.
Print Assumptions C79_top_refuted.

Theorem C80_ignoring_refuted : exists top qs ms, proper (Directory top) /\ Forall plain ms /\
  let r := GitRoot (mkGit top true) in
  ~ glob_is tid bid pid (Directory []) true all_match r (after tid bid pid (Directory []) true all_match r start qs) (strip (Directory top)) ms.
Proof.
  exists upward_link, [Q_is_file "a/b/f"], ["a"; "b"]. split; [exact upward_proper|]. split; [names|]. intros r H.
  destruct (H "r" "*") as (l & E & _). vm_compute in E. discriminate.
Qed.
Print Assumptions C80_ignoring_refuted.

(** ** The hypotheses of the theorems are met *)

Definition sample : list (string * item) :=
  [("d", Directory [("e", Directory [("h", Regular false "z")]); ("f", Regular true "x"); ("l", SymLink "e/h")]); ("g", Regular false "y")].
Definition sample_fs : item := Directory [("home", Directory [("r", Directory sample)])].
Definition special_sample : list (string * item) :=
  [("d", Directory [("e", Directory [("h", Regular false "z")]); ("l", SymLink "../g")]); ("s", Special)].

Lemma sample_proper : proper (Directory sample).
Proof. intros p es H. unfold sample in H. follow H; names. Qed.
Lemma sample_valid : valid (Directory sample).
Proof.
  intros p x H. unfold sample in H. follow H; (split; [discriminate|]); intros k K; try discriminate. injection K as <-.
  apply downward_ok. reflexivity.
Qed.
Lemma sample_root : root_dir sample_fs "/home/r" (Directory sample).
Proof. exists ["home"; "r"]. split; [names|]. split; [reflexivity|]. split; [reflexivity|now eexists]. Qed.
Lemma special_proper : proper (Directory special_sample).
Proof. intros p es H. unfold special_sample in H. follow H; names. Qed.
Lemma special_top : special_at_top (Directory special_sample).
Proof. intros p es H L. unfold special_sample in H. follow H; cbn in L; try lia; names. Qed.
Lemma start_fresh : fresh start.
Proof. split; reflexivity. Qed.

Example C76_nonvacuous :
  proper (Directory sample) /\ valid (Directory sample) /\ fresh start /\ root_dir sample_fs "/home/r" (Directory sample) /\
  no_link_before (Directory sample) ["d"; "l"] /\ plain (filename "e/../l") /\ downward "e/../l" /\ ~ downward "../g" /\
  at_path (Directory sample) ["d"; "l"] = Some (SymLink "e/h") /\
  snd (SourceTarget tid bid pid sample_fs true (GitRoot (mkGit sample false)) start "r" "d" "e/../l") =
    Some ("e/../l", Known "be/h" Symlink (Some "r")) /\
  snd (SourceTarget tid bid pid sample_fs true (FsRoot "/home/r" false) start "r" "d" "e/../l") = Some ("e/../l", Local "d/l" "r") /\
  proper (Directory special_sample) /\ special_at_top (Directory special_sample) /\
  snd (SourceTarget tid bid pid sample_fs true (GitRoot (mkGit special_sample true)) start "r" "d/e" "h") = Some ("h", Known "bz" File (Some "r")) /\
  snd (SourceTarget tid bid pid sample_fs true (GitRoot (mkGit special_sample true)) start "r" "d" "l") = None.
Proof.
  split; [exact sample_proper|]. split; [exact sample_valid|]. split; [exact start_fresh|]. split; [exact sample_root|].
  split. { intros a b c E N. destruct a as [|? [|? [|]]]; cbn in E; inversion E; subst; cbn; try discriminate. now destruct N. }
  split; [names|]. split; [apply downward_ok; reflexivity|]. split; [intros H; apply downward_ok in H; discriminate|].
  split; [reflexivity|]. split; [vm_compute; reflexivity|]. split; [vm_compute; reflexivity|]. split; [exact special_proper|].
  split; [exact special_top|]. split; vm_compute; reflexivity.
Qed.

(** The history of the storage: a check of another tree that fails, a check that is killed, a collection. *)
Definition storage_history : list event :=
  [Checked (Directory upward_link); Killed (Directory sample) 1; Collected; Read_by_id [("h", Regular false "z")]].
Example C77_nonvacuous :
  let all := storage_history ++ [Checked (Directory sample)] in
  (forall e u, In e all -> tree_of e = Some u -> proper u) /\
  (forall a b, directory_in all a -> directory_in all b -> tid a = tid b -> a = b) /\
  snd (ReadDirectory tid sample_fs (GitRoot (mkGit sample false)) start "d/./e") =
    Some (TreeEntries [("h", Regular false "z")] [("h", Regular false "z")] false) /\
  snd (IsSymlink sample_fs (GitRoot (mkGit sample false)) start "d/l") = true.
Proof.
  assert (proper (Directory [("h", Regular false "z")])) as P1 by (intros p es H; follow H; names).
  split.
  { intros e u I E. cbn in I. repeat destruct I as [<-|I]; cbn in E; try discriminate; try injection E as <-;
      try exact upward_proper; try exact sample_proper; try exact P1; destruct I. }
  split; [|split; vm_compute; reflexivity].
  assert (forall a, directory_in (storage_history ++ [Checked (Directory sample)]) a ->
    In a [upward_link; [("b", Directory [("f", Regular false "x"); ("l", SymLink "../g")])]; [("f", Regular false "x"); ("l", SymLink "../g")];
          sample; [("e", Directory [("h", Regular false "z")]); ("f", Regular true "x"); ("l", SymLink "e/h")]; [("h", Regular false "z")]]) as K.
  { intros a (e & u & p & I & E & A). cbn in I. repeat destruct I as [<-|I]; cbn in E; try discriminate; try injection E as <-; try destruct I;
      unfold sample, upward_link in *; follow A; cbn; tauto. }
  intros a b IA IB E. apply K in IA. apply K in IB. clear K.
  cbn [In] in IA, IB. repeat destruct IA as [<-|IA]; try destruct IA; repeat destruct IB as [<-|IB]; try destruct IB; try reflexivity;
    vm_compute in E; discriminate.
Qed.

Example C78_nonvacuous :
  snd (IsGitTreeValid tid (Directory sample) (history tid storage_history (mkMarkers [] [true; false]))) = true /\
  snd (IsGitTreeValid tid (Directory upward_link) (history tid storage_history (mkMarkers [] [true; false]))) = false /\
  snd (ReadValidGitCASTree tid sample (history tid storage_history (mkMarkers [] [true; false]))) = Some sample.
Proof. split; [|split]; vm_compute; reflexivity. Qed.

Example C79_nonvacuous :
  place_of (append "d" "./e") = mkPlace 0 (rev ["d"; "e"]) /\
  snd (TreeTarget tid bid pid sample_fs true 5 (GitRoot (mkGit sample false)) start "r" "d" "./e") =
    Some ("./e", Known (tid [("h", Regular false "z")]) Tree (Some "r")) /\
  snd (TreeTarget tid bid pid sample_fs true 5 (FsRoot "/home/r" false) start "r" "" "d") =
    Some ("d", TreeOf [("e", TreeOf [("h", Local "d/e/h" "r")]); ("f", Local "d/f" "r"); ("l", Local "d/l" "r")]) /\
  snd (TreeTarget tid bid pid sample_fs true 5 (GitRoot (mkGit special_sample true)) start "r" "" "d") =
    Some ("d", TreeOf [("e", TreeOf [("h", Known "bz" File (Some "r"))])]).
Proof. repeat split; vm_compute; reflexivity. Qed.

Example C80_nonvacuous :
  snd (GlobTarget tid bid pid sample_fs true all_match (GitRoot (mkGit sample false)) start "r" "d" "*") =
    Some [("f", Known "bx" Executable (Some "r")); ("l", Known "be/h" Symlink (Some "r"))] /\
  snd (GlobTarget tid bid pid sample_fs true all_match (FsRoot "/home/r" false) start "r" "d" "*") =
    Some [("f", Local "d/f" "r"); ("l", Local "d/l" "r")] /\
  snd (GlobTarget tid bid pid sample_fs true all_match (GitRoot (mkGit special_sample true)) start "r" "d/e" "*") =
    Some [("h", Known "bz" File (Some "r"))].
Proof. repeat split; vm_compute; reflexivity. Qed.
