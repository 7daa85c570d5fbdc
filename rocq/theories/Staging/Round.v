(** From directories to the storage and back. *)
From Coq Require Import String Ascii List Bool NArith Arith Lia Sorted Permutation.
From Verif Require Import Common.Strs Hex.Model Hex.Proofs Describe.Model Executor.Wire Rehash.Directory Rehash.DirectoryProofs.
From Verif Require Import GitTree.Model GitTree.Spec GitTree.Proofs GitTree.Ids TreeOps.Spec TreeOps.Proofs Path.Model.
From Verif Require Import Rehash.Model Rehash.Spec Rehash.Nodes Rehash.ToCompatible Rehash.ToNative.
From Verif Require Import Staging.FileSystem Staging.Model Staging.Spec Staging.Base Staging.Install Staging.Leafs Staging.Retrieve Staging.Inputs Staging.Structure.
From Verif Require Import Staging.Collect Staging.CollectProofs Staging.Cas Staging.CasProofs.
Import ListNotations.
Local Open Scope string_scope.
Local Open Scope list_scope.

(** *** A whole tree is installed where nothing was, if it has no empty directories *)
Lemma file_below f : no_empty_dir f -> forall q, look f q = Some ADirectory -> exists r o, r <> [] /\ look f (q ++ r) = Some o /\ o <> ADirectory.
Proof.
  intros N q L. destruct (has_leaf f q L) as (r & o & [(r' & E & M & O)|(r' & E & M & _)]); cbn in E.
  - subst r'. exists r, o. split; auto. intros ->. rewrite app_nil_r in M. congruence.
  - exfalso. now apply (N r').
Qed.
Lemma installed_whole W p f d d' : (forall q o, W q o <-> files_of p f q o) -> no_empty_dir f -> (forall q, p <> [] -> look d (p ++ q) = None) ->
  (p = [] -> forall x q, look d (x :: q) = None) ->
  installed W d d' -> forall q, look d' (p ++ q) = look f q.
Proof.
  intros EW N Z Z' [I Wy R] q. destruct (look f q) as [o|] eqn:E.
  - destruct o as [x s|t|].
    + apply I, EW. exists q. repeat split; auto. discriminate.
    + apply I, EW. exists q. repeat split; auto. discriminate.
    + destruct (file_below f N q E) as (r & o & Nr & L & O). apply Wy. exists r, o. split; auto. apply EW. exists (q ++ r). rewrite app_assoc. auto.
  - destruct (look d' (p ++ q)) as [o|] eqn:E'; auto. exfalso.
    assert (C : ~ concerns W (p ++ q)).
    { intros [(r & o' & H)|(p' & r & o' & Eq & H & O)].
      - apply EW in H as (r' & Er & L & O). rewrite <- app_assoc in Er. apply app_inv_head in Er. subst r'.
        destruct r as [|y r]; [rewrite app_nil_r in L; congruence|]. rewrite (look_up _ _ _ _ L) in E; discriminate.
      - apply EW in H as (r' & -> & L & _). rewrite <- app_assoc in Eq. apply app_inv_head in Eq. subst q.
        assert (H : look d' (p ++ r') = Some o') by (apply I, EW; exists r'; auto).
        destruct r as [|y r]; [rewrite app_nil_r in E; congruence|]. rewrite app_assoc in E'. apply look_up in E'; [congruence|discriminate]. }
    rewrite R in E' by exact C. destruct p as [|y p]; [|rewrite Z in E' by discriminate; discriminate]. cbn [app] in *.
    destruct q as [|y q]; [rewrite look_nil in E; discriminate|]. rewrite (Z' eq_refl) in E'. discriminate.
Qed.

(** *** Directories stay ordered *)
Definition tidy (op : fnode -> result) : Prop := forall d, ordered d -> match op d with Done d' | Fails d' => ordered d' | Elsewhere => True end.
Lemma tidy_andthen a b : tidy a -> tidy b -> tidy (fun d => andthen (a d) b).
Proof. intros A B d O. specialize (A d O). destruct (a d); cbn [andthen]; auto. now apply B. Qed.
Lemma tidy_mkdirs p : tidy (mkdirs p).
Proof. intros d O. destruct (mkdirs p d) eqn:E; auto; [eapply mkdirs_ordered; eauto|apply mkdirs_fails in E; now subst]. Qed.
Lemma tidy_act f p : (forall o n, f o = Put n -> ordered n) -> tidy (act f p).
Proof. intros F d O. destruct (act f p d) eqn:E; auto; [eapply act_ordered; eauto|apply act_fails in E; now subst]. Qed.
Ltac put := intros o n E; destruct o as [[? ?|?|[|? ?]]|]; try discriminate; try (injection E as <-; exact Logic.I).
Lemma tidy_remove p : tidy (RemoveFile p).
Proof. apply tidy_act. put. Qed.
Lemma tidy_existing p : tidy (remove_existing p).
Proof. apply tidy_act. put. Qed.
Lemma tidy_copy x data p : tidy (copy_file x data p).
Proof. apply tidy_act. put. Qed.
Lemma tidy_perm p x : tidy (SetFilePermissions p x).
Proof. apply tidy_act. put. Qed.
Lemma tidy_make t p : tidy (make_link t p).
Proof. apply tidy_act. intros o n E. destruct o; [discriminate|]. destruct (String.eqb _ _); [discriminate|]. injection E as <-. exact Logic.I. Qed.
Lemma tidy_symlink t p : tidy (CreateSymlink t p).
Proof. apply tidy_andthen; [apply tidy_mkdirs|]. apply tidy_andthen; [apply tidy_remove|apply tidy_make]. Qed.
Lemma tidy_fails : tidy (fun d => Fails d).
Proof. intros d O. exact O. Qed.
Lemma tidy_copy_as t x data p : tidy (CopyFileAs t x data p).
Proof.
  assert (C : tidy (CopyFile x data p)) by (apply tidy_andthen; [apply tidy_remove|apply tidy_copy]).
  destruct t; cbn [CopyFileAs]; [apply tidy_andthen; [exact C|apply tidy_perm]..|apply tidy_fails|].
  apply tidy_andthen; [apply tidy_existing|apply tidy_symlink].
Qed.
Lemma tidy_write_as t data p : tidy (WriteFileAs t data p).
Proof.
  assert (C : tidy (WriteFile data p)) by (apply tidy_andthen; [apply tidy_mkdirs|]; apply tidy_andthen; [apply tidy_remove|apply tidy_copy]).
  destruct t; cbn [WriteFileAs]; [apply tidy_andthen; [exact C|apply tidy_perm]..|apply tidy_fails|apply tidy_symlink].
Qed.
Lemma tidy_all f l : (forall i p, tidy (f i p)) -> tidy (stage_all f l).
Proof. intros F. induction l as [|[p i] l IH]; [intros d O; exact O|]. cbn [stage_all]. apply tidy_andthen; auto. Qed.
Section Tidy.
Variable read : string -> option (list (string * oinfo)).
Variable blob : string -> bool -> option string.
Variable git_read : string -> option (list (string * oinfo)).
Variable git_blob : string -> bool -> option string.
Lemma tidy_stage fuel : forall l, tidy (StageTo read blob fuel l).
Proof.
  induction fuel as [|fuel IH]; intros l; [apply tidy_fails|]. cbn [StageTo]. apply tidy_all. intros i p. destruct (IsTreeObject (fst i)) eqn:T.
  - destruct (leafs read false fuel p (snd i)); [apply IH|apply tidy_fails].
  - unfold StageBlobTo. rewrite T. destruct (blob _ _); [|apply tidy_fails]. apply tidy_andthen; [apply tidy_mkdirs|apply tidy_copy_as].
Qed.
Lemma tidy_git fuel : forall i p, tidy (GitRetrieve git_read git_blob fuel i p).
Proof.
  induction fuel as [|fuel IH]; intros i p; [apply tidy_fails|]. cbn [GitRetrieve]. destruct (IsTreeObject (fst i)).
  - destruct (git_read (snd i)); [now apply tidy_all|apply tidy_fails].
  - destruct (git_blob _ _); [|apply tidy_fails]. apply tidy_andthen; [apply tidy_mkdirs|apply tidy_write_as].
Qed.
Lemma retrieve_ordered has_git fuel infos ps d d' : ordered d ->
  RetrieveToPaths read blob git_read git_blob has_git fuel infos ps d = Done d' -> ordered d'.
Proof.
  intros O E. unfold RetrieveToPaths in E. destruct (Nat.eqb _ _); [|discriminate].
  assert (T : tidy (stage_all (retrieve_one read blob git_read git_blob has_git fuel) (combine ps infos))).
  { apply tidy_all. intros i p d0 O0. unfold retrieve_one. pose proof (tidy_stage fuel [(p, i)] d0 O0) as X.
    destruct (StageTo read blob fuel [(p, i)] d0); auto. destruct has_git; auto. now apply tidy_git. }
  specialize (T d O). now rewrite E in T.
Qed.
End Tidy.

Section One.
Variable read : string -> option (list (string * oinfo)).
Variable blob : string -> bool -> option string.
Variable git_read : string -> option (list (string * oinfo)).
Variable git_blob : string -> bool -> option string.
Variable has_git : bool.
Variables (f : fnode) (i : oinfo) (p : path).
Hypothesis St : stands_for read blob git_read git_blob has_git f i.
Lemma one_apart : apart [p].
Proof.
  intros a b x y A B N. destruct a as [|a], b as [|b]; try congruence; cbn in A, B; try (destruct a; discriminate); destruct b; discriminate.
Qed.
Lemma one_whole fuel d d' : RetrieveToPaths read blob git_read git_blob has_git fuel [i] [p] d = Done d' -> no_empty_dir f ->
  (forall q, p <> [] -> look d (p ++ q) = None) -> (p = [] -> forall x q, look d (x :: q) = None) -> forall q, look d' (p ++ q) = look f q.
Proof.
  intros E N Z Z'. apply (installed_whole (all_files (combine [p] [f])) p f d d'); auto.
  - intros q o. split; [intros (p' & f' & [X|[]] & Q); now injection X as <- <-|]. intros Q. exists p, f. split; [now left|exact Q].
  - eapply retrieved; [constructor; [exact St|constructor]|exact one_apart|exact E].
Qed.
End One.

(** *** Native storage *)
Section Native.
Variable H : string -> string.
Hypothesis HL : forall s, String.length (H s) = 20.
Variable accepts : bool -> string -> bool.
Variable order : list (string * fnode) -> list (string * fnode).
Hypothesis OP : forall l, Permutation (order l) l.
Variable too_many : copies -> path -> bool.

Lemma native_inputs S f : named f -> linkable f -> plain f -> is_dir f = true -> incl (git_objects H f) S -> level_links f ->
  collision_free H (git_texts H (fun n => In n (parts f)) S) ->
  exists n, forall fuel, (n <= fuel)%nat -> StageInputs (ReadGitTree H S) (BlobPath H S) too_many fuel (git_hash H f) (FDir []) = Done f.
Proof.
  intros N K P D I V C. pose proof (parts_self f) as Pf.
  assert (T : ftype f = Tree) by (destruct f; try discriminate; reflexivity).
  pose proof (native_says H HL S f C f N Pf) as Sy. pose proof (native_there H HL S f C f N Pf I V) as Th. rewrite T in *.
  apply (inputs_succeed (ReadGitTree H S) (BlobPath H S) too_many (git_hash H f) f (named_ordered f N) K D Sy P); exact Th.
Qed.
(** A directory that is read back and staged again. *)
Lemma native_round fuel n E d S : named n -> plain n -> linkable n -> is_dir n = true -> (depth n <= fuel)%nat ->
  fst (CreateGitTreeDigestFromLocalTree H accepts order fuel n E) = Some d ->
  incl (snd (CreateGitTreeDigestFromLocalTree H accepts order fuel n E)) S ->
  collision_free H (git_texts H (fun m => In m (parts n)) S) ->
  exists k, forall fuel, (k <= fuel)%nat -> StageInputs (ReadGitTree H S) (BlobPath H S) too_many fuel (d_hash d) (FDir []) = Done n.
Proof.
  intros N P K D L E1 I C. destruct (git_ran H accepts order true HL OP fuel n E N D L) as [_ _ R _].
  destruct (R d E1) as (-> & J & V). unfold ToNative.td. rewrite git_digest. apply native_inputs; auto. eapply incl_tran; eauto.
Qed.
(** A tree that is staged and read back. *)
Lemma native_back fuel1 fuel2 f S d dg E : named f -> linkable f -> is_dir f = true -> (depth f <= fuel2)%nat ->
  collision_free H (git_texts H (fun n => In n (parts f)) S) ->
  StageInputs (ReadGitTree H S) (BlobPath H S) too_many fuel1 (git_hash H f) (FDir []) = Done d ->
  fst (CreateGitTreeDigestFromLocalTree H accepts order fuel2 d E) = Some dg -> d_hash dg = git_hash H f.
Proof.
  intros N K D L C E1 E2. pose proof (parts_self f) as Pf.
  assert (T : ftype f = Tree) by (destruct f; try discriminate; reflexivity).
  pose proof (native_says H HL S f C f N Pf) as Sy. rewrite T in *.
  apply (inputs_exact (ReadGitTree H S) (BlobPath H S) too_many (git_hash H f) f (named_ordered f N) K D Sy) in E1. subst d.
  destruct (git_ran H accepts order true HL OP fuel2 f E N D L) as [_ _ R _]. destruct (R dg E2) as (-> & _). apply git_digest.
Qed.
(** A tree that is installed into an empty directory and imported into a repository. *)
Lemma install_import fuel1 fuel2 f S d dg E : named f -> linkable f -> is_dir f = true -> (depth f <= fuel2)%nat -> no_empty_dir f ->
  collision_free H (git_texts H (fun n => In n (parts f)) S) ->
  RetrieveToPaths (ReadGitTree H S) (BlobPath H S) (fun _ => None) (fun _ _ => None) false fuel1 [(Tree, git_hash H f)] [[]] (FDir []) = Done d ->
  fst (CreateTreeFromDirectory H accepts order fuel2 d E) = Some dg -> d = f /\ d_hash dg = git_hash H f.
Proof.
  intros N K D L NE C E1 E2. pose proof (parts_self f) as Pf.
  assert (T : ftype f = Tree) by (destruct f; try discriminate; reflexivity).
  pose proof (native_says H HL S f C f N Pf) as Sy. rewrite T in *.
  assert (St : stands_for (ReadGitTree H S) (BlobPath H S) (fun _ => None) (fun _ _ => None) false f (Tree, git_hash H f)).
  { split; [now apply named_ordered|]. split; [exact K|]. split; [exact Sy|discriminate]. }
  assert (X : d = f).
  { apply look_ext; [|now apply named_ordered|].
    - eapply retrieve_ordered; [|exact E1]. apply ordered_dir. split; [constructor|intros x c []].
    - intros q. exact (one_whole _ _ _ _ _ _ _ [] St fuel1 (FDir []) d E1 NE (fun _ X => False_ind _ (X eq_refl)) (fun _ _ _ => eq_refl) q). }
  subst d. split; auto. destruct (git_ran H accepts order false HL OP fuel2 f E N D L) as [_ _ R _]. destruct (R dg E2) as (-> & _). apply git_digest.
Qed.
End Native.

(** *** Compatible storage *)
Section Compatible.
Variable H2 : string -> string.
Variable utf8 : string -> bool.
Hypothesis HX : hex_digests H2 utf8.
Variable accepts : bool -> string -> bool.
Variable order : list (string * fnode) -> list (string * fnode).
Hypothesis OP : forall l, Permutation (order l) l.
Variable too_many : copies -> path -> bool.

Lemma comp_inputs S f : named f -> linkable f -> plain f -> is_dir f = true -> expressible H2 utf8 f -> incl (comp_objects H2 f) S ->
  collision_free H2 (comp_texts H2 (fun n => In n (parts f)) S) ->
  exists n, forall fuel, (n <= fuel)%nat -> StageInputs (ReadCompatible H2 utf8 S) (CBlobPath H2 S) too_many fuel (comp_hash H2 f) (FDir []) = Done f.
Proof.
  intros N K P D X I C. pose proof (parts_self f) as Pf.
  assert (T : ftype f = Tree) by (destruct f; try discriminate; reflexivity).
  pose proof (comp_says H2 utf8 HX S f C X f N Pf) as Sy. pose proof (comp_there H2 utf8 HX S f C X f N Pf I) as Th. rewrite T in *.
  apply (inputs_succeed (ReadCompatible H2 utf8 S) (CBlobPath H2 S) too_many (comp_hash H2 f) f (named_ordered f N) K D Sy P); exact Th.
Qed.
Lemma comp_round fuel n E d S : named n -> plain n -> linkable n -> is_dir n = true -> expressible H2 utf8 n -> (depth n <= fuel)%nat ->
  fst (CreateDirectoryDigestFromLocalTree H2 accepts order fuel n E) = Some d ->
  incl (snd (CreateDirectoryDigestFromLocalTree H2 accepts order fuel n E)) S ->
  collision_free H2 (comp_texts H2 (fun m => In m (parts n)) S) ->
  exists k, forall fuel, (k <= fuel)%nat -> StageInputs (ReadCompatible H2 utf8 S) (CBlobPath H2 S) too_many fuel (d_hash d) (FDir []) = Done n.
Proof.
  intros N P K D X L E1 I C. destruct (comp_ran H2 accepts order OP fuel n E N D L) as [_ _ R _].
  destruct (R d E1) as (-> & J & V). cbn [comp_digest d_hash]. apply comp_inputs; auto. eapply incl_tran; eauto.
Qed.
End Compatible.
