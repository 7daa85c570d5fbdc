(** What directories contain after objects have been put there, and what storage contains after directories have been
    read. *)
From Coq Require Import String Ascii List Bool NArith Arith Lia Permutation.
From Verif Require Import Common.Strs Hex.Model Describe.Model Executor.Wire Rehash.Directory Rehash.DirectoryProofs.
From Verif Require Import GitTree.Model GitTree.Spec GitTree.Ids TreeOps.Spec Path.Model Rehash.Model Rehash.Spec Rehash.Examples.
From Verif Require Import Staging.FileSystem Staging.Model Staging.Spec Staging.Base Staging.Install Staging.Leafs Staging.Retrieve Staging.Inputs Staging.Structure.
From Verif Require Import Staging.Collect Staging.CollectProofs Staging.Cas Staging.CasProofs Staging.Round Staging.Examples.
Import ListNotations.
Local Open Scope string_scope.
Local Open Scope list_scope.

(** ** C93: the directory in which an action is run *)

(** It has exactly the content of the input tree, and the directories for the outputs. *)
Theorem C93_exactly_the_inputs : forall read blob too_many root f, ordered f -> linkable f -> is_dir f = true ->
  says read (fun t h => blob h (IsExecutableObject t)) f (Tree, root) ->
  forall fuel cwd o d, CreateDirectoryStructure read blob too_many fuel root cwd o = Done d ->
  (forall q, for_outputs cwd o q -> look d q = Some ADirectory) /\
  (forall q, ~ for_outputs cwd o q -> look d q = look f q) /\
  (forall q x, for_outputs cwd o q -> look f q = Some x -> x = ADirectory).
Proof. intros read blob tm root f O K D S fuel cwd o d. exact (structure_exact read blob tm root f O K D S fuel cwd o d). Qed.
Print Assumptions C93_exactly_the_inputs.

(** If all objects are there, and no file or link is where there is to be a directory for outputs, it is created. *)
Theorem C93_succeeds : forall read blob too_many root f, ordered f -> linkable f -> is_dir f = true ->
  says read (fun t h => blob h (IsExecutableObject t)) f (Tree, root) ->
  forall cwd o, plain f -> plain_path cwd -> Forall plain_path (request_paths o) ->
  (forall q, for_outputs cwd o q -> forall t, look f q <> Some (ALink t)) ->
  (forall fuel, CreateDirectoryStructure read blob too_many fuel root cwd o <> Elsewhere) /\
  (there read (fun t h => blob h (IsExecutableObject t)) f (Tree, root) ->
   (forall q, for_outputs cwd o q -> look f q = None \/ look f q = Some ADirectory) ->
   exists n, forall fuel, n <= fuel -> exists d, CreateDirectoryStructure read blob too_many fuel root cwd o = Done d).
Proof. intros read blob tm root f O K D S cwd o. exact (structure_succeeds read blob tm root f O K D S cwd o). Qed.
Print Assumptions C93_succeeds.

(** The storage with the objects of a directory: the directory itself. *)
Theorem C93_native : forall H, (forall s, String.length (H s) = 20) -> forall too_many S f,
  named f -> linkable f -> plain f -> is_dir f = true -> incl (git_objects H f) S -> level_links f ->
  collision_free H (git_texts H (fun n => In n (parts f)) S) ->
  exists n, forall fuel, n <= fuel -> StageInputs (ReadGitTree H S) (BlobPath H S) too_many fuel (git_hash H f) (FDir []) = Done f.
Proof. exact native_inputs. Qed.
Print Assumptions C93_native.
Theorem C93_compatible : forall H2 utf8, hex_digests H2 utf8 -> forall too_many S f,
  named f -> linkable f -> plain f -> is_dir f = true -> expressible H2 utf8 f -> incl (comp_objects H2 f) S ->
  collision_free H2 (comp_texts H2 (fun n => In n (parts f)) S) ->
  exists n, forall fuel, n <= fuel -> StageInputs (ReadCompatible H2 utf8 S) (CBlobPath H2 S) too_many fuel (comp_hash H2 f) (FDir []) = Done f.
Proof. exact comp_inputs. Qed.
Print Assumptions C93_compatible.

(** ** C94: installing artifacts *)

(** Everything is at its place; nothing else has changed. *)
Theorem C94_installed : forall read blob git_read git_blob has_git ps fs infos,
  Forall2 (stands_for read blob git_read git_blob has_git) fs infos -> apart ps ->
  forall fuel d d', RetrieveToPaths read blob git_read git_blob has_git fuel infos ps d = Done d' ->
  installed (all_files (combine ps fs)) d d'.
Proof. exact retrieved. Qed.
Print Assumptions C94_installed.

(** Also if it fails, nothing else has changed. *)
Theorem C94_unharmed : forall read blob git_read git_blob has_git ps fs infos,
  Forall2 (stands_for read blob git_read git_blob has_git) fs infos -> apart ps ->
  forall fuel d, match RetrieveToPaths read blob git_read git_blob has_git fuel infos ps d with
    | Done d' | Fails d' => unharmed (all_files (combine ps fs)) d d'
    | Elsewhere => ~ inside (all_files (combine ps fs)) d
    end.
Proof.
  intros read blob gr gb hg ps fs infos F A fuel d. destruct (retrieve_unharmed read blob gr gb hg ps fs infos F A fuel d) as [U I].
  unfold unharmed_result in U. destruct (RetrieveToPaths _ _ _ _ _ _ _ _ _); auto. intros X. now apply (I X).
Qed.
Print Assumptions C94_unharmed.

Theorem C94_succeeds : forall read blob git_read git_blob has_git ps fs infos,
  Forall2 (stands_for read blob git_read git_blob has_git) fs infos -> apart ps ->
  forall d, length ps = length infos ->
  Forall2 (fun f i => there read (fun t h => blob h (IsExecutableObject t)) f i \/
    (has_git = true /\ there git_read (fun t h => git_blob h (IsSymlinkObject t)) f i)) fs infos ->
  room (all_files (combine ps fs)) d ->
  exists n, forall fuel, n <= fuel -> exists d', RetrieveToPaths read blob git_read git_blob has_git fuel infos ps d = Done d'.
Proof. exact retrieve_succeeds. Qed.
Print Assumptions C94_succeeds.

(** In the storage with the objects of the directories. *)
Theorem C94_native : forall H, (forall s, String.length (H s) = 20) -> forall S ps fs,
  apart ps -> length ps = length fs -> (forall f, In f fs -> named f /\ linkable f /\ level_links f /\ incl (git_objects H f) S) ->
  (forall f, In f fs -> collision_free H (git_texts H (fun n => In n (parts f)) S)) ->
  forall d, room (all_files (combine ps fs)) d ->
  exists n, forall fuel, n <= fuel -> exists d',
    RetrieveToPaths (ReadGitTree H S) (BlobPath H S) (fun _ => None) (fun _ _ => None) false fuel
      (map (fun f => (ftype f, git_hash H f)) fs) ps d = Done d' /\
    installed (all_files (combine ps fs)) d d'.
Proof.
  intros H HL S ps fs A L F C d R.
  assert (X : Forall2 (stands_for (ReadGitTree H S) (BlobPath H S) (fun _ => None) (fun _ _ => None) false) fs (map (fun f => (ftype f, git_hash H f)) fs)).
  { clear R L A. induction fs as [|f fs IH]; cbn [map]; constructor; [|apply IH; intros; [apply F|apply C]; now right].
    destruct (F f (or_introl eq_refl)) as (N & K & _). split; [now apply named_ordered|]. split; [exact K|]. split; [|discriminate].
    apply (native_says H HL S f); auto; [apply C; now left|apply parts_self]. }
  destruct (retrieve_succeeds _ _ _ _ _ ps fs _ X A d) as [n N]; auto.
  - now rewrite map_length.
  - clear R L A X. induction fs as [|f fs IH]; cbn [map]; constructor; [|apply IH; intros; [apply F|apply C]; now right].
    destruct (F f (or_introl eq_refl)) as (N & K & V & I). left. apply (native_there H HL S f); auto; [apply C; now left|apply parts_self].
  - exists n. intros fuel Le. destruct (N fuel Le) as [d' E]. exists d'. split; [exact E|]. exact (retrieved _ _ _ _ _ ps fs _ X A fuel d d' E).
Qed.
Print Assumptions C94_native.

(** A tree without empty directories, installed where nothing was, is there as a whole ... *)
Theorem C94_whole_tree_partial : forall read blob git_read git_blob has_git f i p,
  stands_for read blob git_read git_blob has_git f i ->
  forall fuel d d', RetrieveToPaths read blob git_read git_blob has_git fuel [i] [p] d = Done d' -> no_empty_dir f ->
  (forall q, p <> [] -> look d (p ++ q) = None) -> (p = [] -> forall x q, look d (x :: q) = None) ->
  forall q, look d' (p ++ q) = look f q.
Proof. intros read blob gr gb hg f i p S. exact (one_whole read blob gr gb hg f i p S). Qed.
Print Assumptions C94_whole_tree_partial.
(** ... but empty directories are left out. *)
Theorem C94_whole_tree_refuted : exists H S f d', (forall s, String.length (H s) = 20) /\ named f /\ plain f /\ linkable f /\ level_links f /\
  incl (git_objects H f) S /\ collision_free H (git_texts H (fun n => In n (parts f)) S) /\
  RetrieveToPaths (ReadGitTree H S) (BlobPath H S) (fun _ => None) (fun _ _ => None) false 5 [(Tree, git_hash H f)] [["p"]] (FDir []) = Done d' /\
  look f ["e"] = Some ADirectory /\ look d' ["p"; "e"] = None.
Proof.
  exists toy1, (git_objects toy1 hollow), hollow, (FDir [("p", FDir [("a", FFile true "data")])]). split; [exact toy1_length|]. split; [apply hollow_named|]. split; [apply hollow_named|]. split; [apply hollow_named|].
  split; [intros t [E|[E|[E|[]]]]; discriminate|]. split; [apply incl_refl|]. split; [exact hollow_free|].
  split; [vm_compute; reflexivity|]. split; vm_compute; reflexivity.
Qed.
Print Assumptions C94_whole_tree_refuted.
(** Entries of trees with names like [..] are followed. *)
Theorem C94_stays_inside_refuted : exists H S f, (forall s, String.length (H s) = 20) /\ named f /\ linkable f /\ level_links f /\
  incl (git_objects H f) S /\ collision_free H (git_texts H (fun n => In n (parts f)) S) /\
  RetrieveToPaths (ReadGitTree H S) (BlobPath H S) (fun _ => None) (fun _ _ => None) false 5 [(Tree, git_hash H f)] [["p"]] (FDir []) = Elsewhere /\
  StageInputs (ReadGitTree H S) (BlobPath H S) (fun _ _ => false) 5 (git_hash H f) (FDir []) = Elsewhere.
Proof.
  exists toy1, (git_objects toy1 climbing), climbing. split; [exact toy1_length|]. split; [apply climbing_named|]. split; [apply climbing_named|].
  split; [intros t [E|[E|[]]]; discriminate|]. split; [apply incl_refl|]. split; [exact climbing_free|]. split; vm_compute; reflexivity.
Qed.
Print Assumptions C94_stays_inside_refuted.

(** ** C95: directories that are read into the storage *)

(** As a git tree, links checked or not. *)
Theorem C95_git_tree : forall H accepts order check, (forall s, String.length (H s) = 20) -> (forall l, Permutation (order l) l) ->
  forall fuel n E, named n -> is_dir n = true -> depth n <= fuel ->
  let r := git_from_local H accepts order check fuel n E in
  incl E (snd r) /\ incl (snd r) (git_objects H n ++ E) /\
  (forall d, fst r = Some d -> d = nat_digest H true (git_data H n) /\ incl (git_objects H n) (snd r) /\ (check = true -> level_links n)) /\
  ((forall k s, In (k, s) (git_objects H n) -> accepts k s = true) -> (check = true -> level_links n) -> fst r <> None).
Proof.
  intros H accepts order check HL OP fuel n E N D L. destruct (git_ran H accepts order check HL OP fuel n E N D L) as [A B C F].
  split; [exact A|]. split; [exact B|]. split; [|exact F]. intros d Ed. destruct (C d Ed) as (-> & I). split; [|exact I]. unfold ToNative.td. now rewrite D.
Qed.
Print Assumptions C95_git_tree.

Theorem C95_directory_message : forall H2 accepts order, (forall l, Permutation (order l) l) ->
  forall fuel n E, named n -> is_dir n = true -> depth n <= fuel ->
  let r := CreateDirectoryDigestFromLocalTree H2 accepts order fuel n E in
  incl E (snd r) /\ incl (snd r) (comp_objects H2 n ++ E) /\
  (forall d, fst r = Some d -> d = comp_digest H2 (comp_data H2 n) /\ incl (comp_objects H2 n) (snd r)) /\
  ((forall k s, In (k, s) (comp_objects H2 n) -> accepts k s = true) ->
   (forall m, In m (parts n) -> is_dir m = true -> (strlen (comp_data H2 m) < 2 ^ 31)%N) -> fst r <> None).
Proof.
  intros H2 accepts order OP fuel n E N D L. destruct (comp_ran H2 accepts order OP fuel n E N D L) as [A B C F].
  split; [exact A|]. split; [exact B|]. split; [|exact F]. intros d Ed. now destruct (C d Ed) as (-> & I & _).
Qed.
Print Assumptions C95_directory_message.

(** ** C96: from directories to the storage and back *)

(** An output directory of an action, used as the inputs of another one. *)
Theorem C96_outputs_as_inputs : forall H, (forall s, String.length (H s) = 20) -> forall accepts order, (forall l, Permutation (order l) l) ->
  forall too_many fuel n E d S, named n -> plain n -> linkable n -> is_dir n = true -> depth n <= fuel ->
  fst (CreateGitTreeDigestFromLocalTree H accepts order fuel n E) = Some d ->
  incl (snd (CreateGitTreeDigestFromLocalTree H accepts order fuel n E)) S ->
  collision_free H (git_texts H (fun m => In m (parts n)) S) ->
  exists k, forall fuel', k <= fuel' -> StageInputs (ReadGitTree H S) (BlobPath H S) too_many fuel' (d_hash d) (FDir []) = Done n.
Proof. exact native_round. Qed.
Print Assumptions C96_outputs_as_inputs.
Theorem C96_outputs_as_inputs_compatible : forall H2 utf8, hex_digests H2 utf8 -> forall accepts order, (forall l, Permutation (order l) l) ->
  forall too_many fuel n E d S, named n -> plain n -> linkable n -> is_dir n = true -> expressible H2 utf8 n -> depth n <= fuel ->
  fst (CreateDirectoryDigestFromLocalTree H2 accepts order fuel n E) = Some d ->
  incl (snd (CreateDirectoryDigestFromLocalTree H2 accepts order fuel n E)) S ->
  collision_free H2 (comp_texts H2 (fun m => In m (parts n)) S) ->
  exists k, forall fuel', k <= fuel' -> StageInputs (ReadCompatible H2 utf8 S) (CBlobPath H2 S) too_many fuel' (d_hash d) (FDir []) = Done n.
Proof. exact comp_round. Qed.
Print Assumptions C96_outputs_as_inputs_compatible.

(** Inputs left as they are and collected as outputs have the same id. *)
Theorem C96_inputs_as_outputs : forall H, (forall s, String.length (H s) = 20) -> forall accepts order, (forall l, Permutation (order l) l) ->
  forall too_many fuel1 fuel2 f S d dg E, named f -> linkable f -> is_dir f = true -> depth f <= fuel2 ->
  collision_free H (git_texts H (fun n => In n (parts f)) S) ->
  StageInputs (ReadGitTree H S) (BlobPath H S) too_many fuel1 (git_hash H f) (FDir []) = Done d ->
  fst (CreateGitTreeDigestFromLocalTree H accepts order fuel2 d E) = Some dg -> d_hash dg = git_hash H f.
Proof. exact native_back. Qed.
Print Assumptions C96_inputs_as_outputs.

(** A tree installed into an empty directory and imported into a repository has the same id if it has no empty
    directories ... *)
Theorem C96_install_and_import_partial : forall H, (forall s, String.length (H s) = 20) -> forall accepts order, (forall l, Permutation (order l) l) ->
  forall fuel1 fuel2 f S d dg E, named f -> linkable f -> is_dir f = true -> depth f <= fuel2 -> no_empty_dir f ->
  collision_free H (git_texts H (fun n => In n (parts f)) S) ->
  RetrieveToPaths (ReadGitTree H S) (BlobPath H S) (fun _ => None) (fun _ _ => None) false fuel1 [(Tree, git_hash H f)] [[]] (FDir []) = Done d ->
  fst (CreateTreeFromDirectory H accepts order fuel2 d E) = Some dg -> d = f /\ d_hash dg = git_hash H f.
Proof. exact install_import. Qed.
Print Assumptions C96_install_and_import_partial.
(** ... and otherwise not. *)
Theorem C96_install_and_import_refuted : exists H S f d dg E, (forall s, String.length (H s) = 20) /\ named f /\ plain f /\ linkable f /\ level_links f /\
  incl (git_objects H f) S /\ collision_free H (git_texts H (fun n => In n (parts f)) S) /\
  RetrieveToPaths (ReadGitTree H S) (BlobPath H S) (fun _ => None) (fun _ _ => None) false 5 [(Tree, git_hash H f)] [[]] (FDir []) = Done d /\
  fst (CreateTreeFromDirectory H (fun _ _ => true) (fun l => l) 5 d E) = Some dg /\ d_hash dg <> git_hash H f.
Proof.
  exists toy1, (git_objects toy1 hollow), hollow, (FDir [("a", FFile true "data")]), (nat_digest toy1 true (git_data toy1 (FDir [("a", FFile true "data")]))), []. split; [exact toy1_length|]. split; [apply hollow_named|]. split; [apply hollow_named|]. split; [apply hollow_named|].
  split; [intros t [E|[E|[E|[]]]]; discriminate|]. split; [apply incl_refl|]. split; [exact hollow_free|].
  split; [vm_compute; reflexivity|]. split; [vm_compute; reflexivity|]. intros E. vm_compute in E. discriminate.
Qed.
Print Assumptions C96_install_and_import_refuted.

(** ** Nonvacuity *)

(** The inputs of an action with two outputs below a working directory that does not exist. *)
Example C93_nonvacuous :
  named full /\ linkable full /\ plain full /\ is_dir full = true /\ level_links full /\
  says (ReadGitTree toy1 (git_objects toy1 full)) (fun t h => BlobPath toy1 (git_objects toy1 full) h (IsExecutableObject t)) full (Tree, git_hash toy1 full) /\
  there (ReadGitTree toy1 (git_objects toy1 full)) (fun t h => BlobPath toy1 (git_objects toy1 full) h (IsExecutableObject t)) full (Tree, git_hash toy1 full) /\
  collision_free toy1 (git_texts toy1 (fun n => In n (parts full)) (git_objects toy1 full)) /\
  expressible toy2 any full /\ collision_free toy2 (comp_texts toy2 (fun n => In n (parts full)) (comp_objects toy2 full)) /\
  CreateDirectoryStructure (ReadGitTree toy1 (git_objects toy1 full)) (BlobPath toy1 (git_objects toy1 full)) (fun _ _ => true) 5 (git_hash toy1 full) ["s"; "w"]
    (FilesAndDirs [["o"; "f"]] [["d"]]) =
  Done (FDir [("a", FFile false "data"); ("e", FDir []); ("l", FLink "a"); ("s", FDir [("w", FDir [("d", FDir []); ("o", FDir [])]); ("x", FFile true "run")])]).
Proof.
  split; [exact full_named|]. split; [exact full_linkable|]. split; [exact full_plain|]. split; [reflexivity|]. split; [exact full_level|].
  split; [apply (native_says toy1 toy1_length _ full full_free full full_named (parts_self full))|].
  split; [apply (native_there toy1 toy1_length _ full full_free full full_named (parts_self full) (incl_refl _) full_level)|].
  split; [exact full_free|]. split; [exact full_expressible|]. split; [exact full_comp_free|]. vm_compute. reflexivity.
Qed.

(** A tree and a file, installed into a directory where there already are files. *)
Example C94_nonvacuous :
  let S := git_objects toy1 full in
  let d := FDir [("k", FLink "elsewhere"); ("p", FDir [("a", FLink "b"); ("old", FFile false "old")])] in
  apart [["p"]; ["q"; "f"]] /\
  (forall f, In f [full; FFile true "run"] -> named f /\ linkable f /\ level_links f /\ incl (git_objects toy1 f) S) /\
  (forall f, In f [full; FFile true "run"] -> collision_free toy1 (git_texts toy1 (fun n => In n (parts f)) S)) /\
  (no_empty_dir (FFile true "run")) /\
  RetrieveToPaths (ReadGitTree toy1 S) (BlobPath toy1 S) (fun _ => None) (fun _ _ => None) false 5
    (map (fun f => (ftype f, git_hash toy1 f)) [full; FFile true "run"]) [["p"]; ["q"; "f"]] d =
  Done (FDir [("k", FLink "elsewhere"); ("p", FDir [("a", FFile false "data"); ("l", FLink "a"); ("old", FFile false "old"); ("s", FDir [("x", FFile true "run")])]);
    ("q", FDir [("f", FFile true "run")])]).
Proof.
  cbv zeta. split.
  { intros i j p q A B N [r E]. destruct i as [|[|[|i]]], j as [|[|[|j]]]; cbn in A, B; try congruence; injection A as <-; injection B as <-; discriminate. }
  split.
  { intros f [<-|[<-|[]]]; [split; [exact full_named|split; [exact full_linkable|split; [exact full_level|apply incl_refl]]]|].
    repeat split; [intros t [E|[]]; discriminate|]. intros o [<-|[]]. vm_compute. tauto. }
  split.
  { intros f I x y X Y. assert (K : forall z, git_texts toy1 (fun n => In n (parts f)) (git_objects toy1 full) z -> git_texts toy1 (fun n => In n (parts full)) (git_objects toy1 full) z).
    { intros z [(n & J & E)|J]; [left|right; exact J]. exists n. split; auto. destruct I as [<-|[<-|[]]]; [exact J|]. destruct J as [<-|[]]. cbn. tauto. }
    apply full_free; auto. }
  split; [intros r [E _]; destruct r; discriminate|]. vm_compute. reflexivity.
Qed.

(** The directory is read in two orders. *)
Example C95_nonvacuous :
  fst (CreateGitTreeDigestFromLocalTree toy1 (fun _ _ => true) (fun l => rev l) 5 full []) = Some (nat_digest toy1 true (git_data toy1 full)) /\
  fst (CreateTreeFromDirectory toy1 (fun _ _ => true) (fun l => l) 5 (FDir [("l", FLink "../a")]) []) <> None /\
  fst (CreateGitTreeDigestFromLocalTree toy1 (fun _ _ => true) (fun l => l) 5 (FDir [("l", FLink "../a")]) []) = None /\
  fst (CreateDirectoryDigestFromLocalTree toy2 (fun _ _ => true) (fun l => rev l) 5 full []) = Some (comp_digest toy2 (comp_data toy2 full)) /\
  (forall l : list (string * fnode), Permutation (rev l) l).
Proof.
  split; [vm_compute; reflexivity|]. split; [vm_compute; discriminate|]. split; [vm_compute; reflexivity|]. split; [vm_compute; reflexivity|].
  intros l. apply Permutation_sym, Permutation_rev.
Qed.

Example C96_nonvacuous :
  let S := snd (CreateGitTreeDigestFromLocalTree toy1 (fun _ _ => true) (fun l => rev l) 5 full []) in
  collision_free toy1 (git_texts toy1 (fun n => In n (parts full)) S) /\
  StageInputs (ReadGitTree toy1 S) (BlobPath toy1 S) (fun _ _ => false) 5 (git_hash toy1 full) (FDir []) = Done full /\
  no_empty_dir sub /\ named sub /\ linkable sub /\
  RetrieveToPaths (ReadGitTree toy1 S) (BlobPath toy1 S) (fun _ => None) (fun _ _ => None) false 5 [(Tree, git_hash toy1 sub)] [[]] (FDir []) = Done sub.
Proof.
  cbv zeta. split.
  { intros x y X Y. assert (K : forall z, git_texts toy1 (fun n => In n (parts full)) (snd (CreateGitTreeDigestFromLocalTree toy1 (fun _ _ => true) (fun l => rev l) 5 full [])) z ->
      git_texts toy1 (fun n => In n (parts full)) (git_objects toy1 full) z).
    { intros z [J|(k & s & J & E)]; [left; exact J|right]. exists k, s. split; [|exact E].
      destruct (C95_git_tree toy1 (fun _ _ => true) (fun l => rev l) true toy1_length (fun l => Permutation_sym (Permutation_rev l)) 5 full [] full_named eq_refl) as (_ & B & _); [vm_compute; lia|].
      rewrite app_nil_r in B. exact (B _ J). }
    apply full_free; auto. }
  split; [vm_compute; reflexivity|]. split.
  { intros r [E N]. destruct r as [|x r]; [specialize (N "x"); discriminate|]. cbn [look sub] in E. cbn [alookup] in E. destruct (String.eqb _ _); [destruct r; discriminate|discriminate]. }
  split; [apply root_named; unfold in_root, all; cbn; tauto|]. split; [repeat split|]. vm_compute. reflexivity.
Qed.
