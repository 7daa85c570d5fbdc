(** Histories, run by run, for the examples and the counterexamples. *)
From Coq Require Import String Ascii List Bool NArith Arith Lia.
From Verif Require Import Common.Strs Hex.Model Describe.Model Executor.Wire Rehash.Directory Rehash.DirectoryProofs.
From Verif Require Import GitTree.Model GitTree.Spec GitTree.Ids TreeOps.Spec Rehash.Model Rehash.Spec Rehash.Nodes Rehash.Examples.
From Verif Require Import Fetch.World Fetch.Model Fetch.Spec Fetch.Proofs Fetch.Safety Fetch.Facts Fetch.Doing.
Import ListNotations.
Local Open Scope string_scope.
Local Open Scope list_scope.
Local Open Scope nat_scope.

Section Alone.
Variable H : string -> string.
Variable extract : string -> string -> option fnode.
Variable resolve : pragma -> fnode -> option fnode.
Variable serve_says : query -> string -> Prop.
Inductive alone : program -> world -> outcome -> world -> Prop :=
| al_ret a w : alone (Ret a) w a w
| al_do X (o : op X) k w x w1 a w2 : spec H extract resolve serve_says o w x w1 -> alone (k x) w1 a w2 -> alone (Do o k) w a w2.
Lemma alone_happens job p w a w' : alone p w a w' -> happens H extract resolve serve_says w [(job, p)] -> happens H extract resolve serve_says w' [(job, Ret a)].
Proof.
  intros A. induction A as [a w|X o k w x w1 a w2 E A IH]; intros R; auto. apply IH.
  exact (R_step H extract resolve serve_says _ _ _ w [] [] job X o k x w1 R E).
Qed.
Lemma run_alone job w a w' rs : happens H extract resolve serve_says w rs -> alone (setup H job) w a w' -> rs = [] ->
  happens H extract resolve serve_says w' [(job, Ret a)].
Proof. intros R A ->. eapply alone_happens; [exact A|]. apply R_start. exact R. Qed.
Lemma finished w r : happens H extract resolve serve_says w [r] -> happens H extract resolve serve_says w [].
Proof. intros R. exact (R_stop H extract resolve serve_says _ _ _ w [] [] r R). Qed.
End Alone.

(** Archives are named "archive", and contain a directory with a file, or, if the bytes say so, more. *)
Definition plain_dir : fnode := FDir [("f", FFile false "x")].
Definition hollow : fnode := FDir [("e", FDir []); ("f", FFile false "x")].
Definition extract0 (ty data : string) : option fnode := if String.eqb data "zip" then Some plain_dir else None.
Definition resolve0 (p : pragma) (n : fnode) : option fnode := Some n.
Definition pin : archive := mkArchive (blob_hash toy1 "zip") true (fun _ => true).
Definition plain : config := mkConfig false false false false 2.
Definition subdir_archive : archive_repo := mkArchiveRepo pin "archive" ["f"] None false.
Definition whole_archive : archive_repo := mkArchiveRepo pin "archive" [] None false.
Definition nobody (q : query) (t : string) : Prop := False.

Ltac sp := split; [reflexivity|].
Ltac st v := eapply al_do with (x := v).
(** An archive found in a distdir. *)
Definition after_zip : world :=
  add_assoc (AArchive "archive" (blob_hash toy1 "zip")) (git_hash toy1 plain_dir) (add_dirs [plain_dir] (add_cas ["zip"] (fresh 2))).
Lemma archive_run serve_says cfg r t : c_serve cfg = false -> c_remote cfg = false -> c_gens cfg = 2 -> r_archive r = pin -> r_type r = "archive" -> r_pragma r = None ->
  r_absent r = false -> entry_of toy1 (git_cache after_zip) (git_hash toy1 plain_dir) (r_subdir r) (Some t) ->
  happens toy1 extract0 resolve0 serve_says after_zip [((cfg, TArchive r), Ret (Root (Present false t (Gen 0))))].
Proof.
  intros S0 S1 S2 Ea Et Ep Eb En. eapply run_alone; [apply (R_fresh _ _ _ _ _ _ _ 2); lia| |reflexivity].
  cbn [setup fst snd]. unfold archive_root, content_cas, old_gens, extract_and_import, resolve_content, set_root, archive_key.
  rewrite S0, S2, Ea, Et, Ep, Eb. cbv zeta. cbn [Nat.sub seq search_old blob_in_old andb a_content pin].
  st false; [sp; split; [discriminate|intros E; now destruct E]|].
  st false; [sp; split; [discriminate|intros E; now destruct E]|].
  cbn [andb]. st false; [sp; split; [discriminate|intros (? & [] & _)]|].
  st (@Some (option string) None); [sp; intros (? & ? & (? & [] & _) & _)|].
  st (@Some (option string) None); [sp; intros (? & ? & (? & [] & _) & _)|].
  st tt; [exists ["zip"]; reflexivity|].
  st true; [sp; split; [intros _|reflexivity]; exists "zip"; split; [now left|reflexivity]|].
  st (Some "zip"); [sp; split; [now left|reflexivity]|].
  st (Some plain_dir); [sp; split; reflexivity|].
  st (Some (git_hash toy1 plain_dir)); [sp; split; reflexivity|].
  st true; [reflexivity|].
  st (Some t); [sp; exact En|].
  apply al_ret.
Qed.

(** A pinned tree with an empty directory, which the remote CAS has. *)
Definition with_remote : config := mkConfig false true false false 2.
Definition pinned_tree : tree_repo := mkTreeRepo (git_hash toy1 hollow) false false.
Definition after_tree : world := add_dirs [plain_dir] (add_trees [hollow] (fresh 2)).
Lemma tree_run serve_says :
  happens toy1 extract0 resolve0 serve_says after_tree [((with_remote, TTree pinned_tree), Ret (Root (Present false (git_hash toy1 hollow) (Gen 0))))].
Proof.
  eapply run_alone; [apply (R_fresh _ _ _ _ _ _ _ 2); lia| |reflexivity].
  cbn [setup fst snd]. unfold tree_root, git_tree_fetch, old_gens, move_cas_tree.
  cbn [t_absent t_hash t_ignore pinned_tree c_gens c_remote c_compat c_serve with_remote andb negb Nat.sub seq tree_in_old].
  st (Some false); [sp; split; [discriminate|intros (? & ((? & [] & _) & _) & _)]|].
  st (Some false); [sp; split; [discriminate|intros (? & ((? & [] & _) & _) & _)]|].
  st false; [sp; discriminate|].
  st true; [exists [hollow]; sp; intros _; exists hollow; split; [now left|split; reflexivity]|].
  st (Some plain_dir); [sp; exists hollow; split; [now left|split; [reflexivity|split; reflexivity]]|].
  st (Some (git_hash toy1 plain_dir)); [sp; split; reflexivity|].
  apply al_ret.
Qed.
Lemma tree_missing : ~ has_tree toy1 (git_cache after_tree) (git_hash toy1 hollow).
Proof.
  intros (n & ((d & [<-|[]] & P) & D) & E). destruct P as [<-|[<-|[]]]; [vm_compute in E; discriminate|discriminate].
Qed.

(** A commit, and a serve endpoint that is wrong about it. *)
Definition commit_bytes : string := ("tree " ++ git_hash toy1 hollow)%string.
Definition serve0 (q : query) (t : string) : Prop := t = git_hash toy1 plain_dir.
Definition full : config := mkConfig true true false false 2.
Definition pinned_commit : commit_repo := mkCommitRepo (commit_id toy1 commit_bytes) [] false false false.
Definition after_commit : world :=
  add_assoc (ACommit (commit_id toy1 commit_bytes)) (git_hash toy1 plain_dir) (add_dirs [plain_dir] (add_trees [plain_dir] (fresh 2))).
Lemma served_run : happens toy1 extract0 resolve0 serve0 after_commit [((full, TCommit pinned_commit), Ret (Root (Present false (git_hash toy1 plain_dir) (Gen 0))))].
Proof.
  eapply run_alone; [apply (R_fresh _ _ _ _ _ _ _ 2); lia| |reflexivity].
  cbn [setup fst snd]. unfold commit_root, old_gens, write_and_set, commit_loc.
  cbn [m_absent m_commit m_subdir m_ignore m_checkout pinned_commit c_gens c_remote c_compat c_serve c_fetch_absent full andb negb Nat.sub seq commit_in_old].
  cbv zeta. unfold commit_loc. cbn [m_checkout pinned_commit place_eqb Nat.eqb].
  st (Some false); [sp; split; [discriminate|intros (? & [] & _)]|].
  st false; [sp; split; [discriminate|intros E; now destruct E]|].
  st (Some false); [sp; split; [discriminate|intros (? & [] & _)]|].
  st (Found (git_hash toy1 plain_dir) (Some (Native (git_hash toy1 plain_dir)))); [sp; reflexivity|].
  st (Some false); [sp; split; [discriminate|intros (? & ((? & [] & _) & _) & _)]|].
  st true; [exists [plain_dir]; sp; intros _; exists plain_dir; split; [now left|split; reflexivity]|].
  st (Some plain_dir); [sp; exists plain_dir; split; [now left|split; [reflexivity|split; reflexivity]]|].
  st (Some (git_hash toy1 plain_dir)); [sp; split; reflexivity|].
  rewrite String.eqb_refl. st true; [reflexivity|]. st (Some (git_hash toy1 plain_dir)); [sp; reflexivity|]. apply al_ret.
Qed.
Lemma later_run : happens toy1 extract0 resolve0 serve0 after_commit [((plain, TCommit pinned_commit), Ret (Root (Present false (git_hash toy1 plain_dir) (Gen 0))))].
Proof.
  eapply run_alone; [eapply finished, served_run| |reflexivity].
  cbn [setup fst snd]. unfold commit_root, old_gens, write_and_set, commit_loc.
  cbn [m_absent m_commit m_subdir m_ignore m_checkout pinned_commit c_gens c_remote c_compat c_serve c_fetch_absent plain andb negb Nat.sub seq commit_in_old].
  cbv zeta. unfold commit_loc. cbn [m_checkout pinned_commit place_eqb Nat.eqb].
  assert (K : known (ACommit (commit_id toy1 commit_bytes)) (g_assoc (gen_at after_commit 0)) = Some (git_hash toy1 plain_dir)).
  { unfold after_commit, gen_at, add_assoc, set_young. cbn [w_gens nth g_assoc known add_dirs add_odb set_young add_trees fresh repeat]. unfold key_eqb. now destruct akey_dec. }
  st (Some false); [sp; split; [discriminate|intros (? & [] & _)]|].
  st true; [sp; rewrite K; split; [discriminate|reflexivity]|].
  st (Some (git_hash toy1 plain_dir)); [sp; now rewrite K|].
  st (Some (git_hash toy1 plain_dir)); [sp; reflexivity|]. apply al_ret.
Qed.

(** A commit that is fetched, moved to an older generation, and then wanted as absent. *)
Definition small_bytes : string := ("tree " ++ git_hash toy1 plain_dir)%string.
Definition fetch_all : config := mkConfig false false false true 2.
Definition absent_commit : commit_repo := mkCommitRepo (commit_id toy1 small_bytes) [] false true false.
Definition fetched : odb := mkOdb [plain_dir] [small_bytes].
Definition after_fetch : world := add_odb (Gen 0) fetched (fresh 2).
Definition moved : world := mkWorld (rename_gen 0 (w_gens after_fetch)) [] [] no_odb [].
Definition after_absent : world := add_odb (Gen 0) fetched moved.
Lemma fetched_whole : whole toy1 fetched.
Proof.
  intros b [<-|[]]. exists (git_hash toy1 plain_dir). split; [vm_compute; reflexivity|]. exists plain_dir. split; [|reflexivity].
  split; [|reflexivity]. exists plain_dir. split; now left.
Qed.
Lemma fetched_entry o : o_dirs o = [plain_dir] -> o_commits o = [small_bytes] ->
  exists b t, In b (o_commits o) /\ commit_id toy1 b = m_commit absent_commit /\ commit_tree b = Some t /\ entry_of toy1 o t [] (Some (git_hash toy1 plain_dir)).
Proof.
  intros D C. exists small_bytes, (git_hash toy1 plain_dir). rewrite C. split; [now left|]. split; [reflexivity|]. split; [vm_compute; reflexivity|reflexivity].
Qed.
Lemma fetch_run : happens toy1 extract0 resolve0 nobody after_fetch [((fetch_all, TCommit absent_commit), Ret (Root (Present false (git_hash toy1 plain_dir) (Gen 0))))].
Proof.
  eapply run_alone; [apply (R_fresh _ _ _ _ _ _ _ 2); lia| |reflexivity].
  cbn [setup fst snd]. unfold commit_root, network_fetch, tag_and_set, old_gens.
  cbn [m_absent m_commit m_subdir m_ignore m_checkout absent_commit c_gens c_remote c_compat c_serve c_fetch_absent fetch_all andb negb Nat.sub seq commit_in_old].
  cbv zeta. unfold commit_loc. cbn [m_checkout absent_commit place_eqb Nat.eqb].
  st (Some false); [sp; split; [discriminate|intros (? & [] & _)]|].
  st false; [sp; split; [discriminate|intros E; now destruct E]|].
  st (Some false); [sp; split; [discriminate|intros (? & [] & _)]|].
  st true; [exists fetched; split; [apply fetched_whole|reflexivity]|].
  st (Some true); [sp; split; [intros _; exists small_bytes; split; [now left|reflexivity]|reflexivity]|].
  st true; [reflexivity|].
  st (Some (git_hash toy1 plain_dir)); [sp; apply fetched_entry; reflexivity|]. apply al_ret.
Qed.
Lemma absent_run : happens toy1 extract0 resolve0 nobody after_absent [((plain, TCommit absent_commit), Ret (Root (Present false (git_hash toy1 plain_dir) (Gen 0))))].
Proof.
  eapply run_alone; [eapply R_between; [eapply finished, fetch_run|apply (B_rename toy1 after_fetch 0); cbn; lia]| |reflexivity].
  cbn [setup fst snd]. unfold commit_root, network_fetch, tag_and_set, old_gens. change (mkWorld (rename_gen 0 (w_gens after_fetch)) _ _ _ _) with moved.
  cbn [m_absent m_commit m_subdir m_ignore m_checkout absent_commit c_gens c_remote c_compat c_serve c_fetch_absent plain andb negb Nat.sub seq commit_in_old].
  cbv zeta. unfold commit_loc. cbn [m_checkout absent_commit place_eqb Nat.eqb].
  st (Some false); [sp; split; [discriminate|intros (? & [] & _)]|].
  st false; [sp; split; [discriminate|intros E; now destruct E]|].
  st (Some true); [sp; split; [intros _; exists small_bytes; split; [now left|reflexivity]|reflexivity]|].
  st true; [reflexivity|].
  st true; [exists fetched; split; [apply fetched_whole|]; sp; split; [intros b I; exact I|]; split; [|intros _; exists small_bytes; split; [now left|reflexivity]]|].
  { intros n [<-|[]]. exists plain_dir. split; now left. }
  unfold tag_and_set, commit_loc. cbn [m_checkout m_commit m_subdir m_ignore absent_commit].
  st true; [reflexivity|].
  st (Some (git_hash toy1 plain_dir)); [sp; apply fetched_entry; reflexivity|]. apply al_ret.
Qed.

(** A file fetched in compatible mode by means of a serve endpoint. *)
Definition compat : config := mkConfig true true true false 2.
Definition one_file : foreign_repo := mkForeign pin "f" false false.
Definition file_dir : fnode := FDir [("f", FFile false "zip")].
Definition after_file : world :=
  add_assoc (AFiles (foreign_key one_file)) (git_hash toy1 file_dir)
    (add_dirs [file_dir] (add_noted (blob_hash toy1 "zip", blob_hash toy1 "zip") (add_cas ["zip"] (add_cas [] (add_cas [] (fresh 2)))))).
Lemma file_run serve_says : happens toy1 extract0 resolve0 serve_says after_file [((compat, TForeign one_file), Ret (Root (Present false (git_hash toy1 file_dir) (Gen 0))))].
Proof.
  eapply run_alone; [apply (R_fresh _ _ _ _ _ _ _ 2); lia| |reflexivity].
  cbn [setup fst snd]. unfold foreign_root, content_cas, old_gens, foreign_key.
  cbn [f_absent f_archive f_name f_exec one_file c_gens c_remote c_compat c_serve c_fetch_absent compat andb negb Nat.sub seq blob_in_old a_content pin].
  cbv zeta.
  st false; [sp; split; [discriminate|intros E; now destruct E]|].
  st false; [sp; split; [discriminate|intros (? & [] & _)]|].
  st (@Some (option string) None); [sp; intros (? & ? & (? & [] & _) & _)|].
  st (@Some (option string) None); [sp; intros (? & ? & (? & [] & _) & _)|].
  st tt; [exists []; reflexivity|].
  st false; [sp; split; [discriminate|intros (? & [] & _)]|].
  st (Some (Compatible "c")); [sp; discriminate|].
  st true; [exists []; sp; reflexivity|].
  replace (String.eqb (served_hash (Compatible "c")) (blob_hash toy1 "zip")) with false by reflexivity. cbn iota.
  st (Some "zip"); [reflexivity|].
  st true; [reflexivity|]. rewrite String.eqb_refl. cbn iota. cbn [andb].
  st true; [reflexivity|]. cbn [link_files].
  st (Some "zip"); [sp; split; [now left|reflexivity]|].
  replace (file_name "f") with true by reflexivity. cbn [add_file alookup ainsert].
  st (Some (git_hash toy1 file_dir)); [sp; split; reflexivity|].
  st true; [reflexivity|]. apply al_ret.
Qed.
