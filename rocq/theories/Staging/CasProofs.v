(** Objects of the storage stand for the directories they were made from. *)
From Coq Require Import String Ascii List Bool NArith Arith Lia Sorted Permutation.
From Verif Require Import Common.Strs Hex.Model Hex.Proofs Describe.Model Executor.Wire Rehash.Directory Rehash.DirectoryProofs.
From Verif Require Import GitTree.Model GitTree.Spec GitTree.Proofs GitTree.Ids TreeOps.Spec TreeOps.Proofs Path.Model.
From Verif Require Import Rehash.Model Rehash.Spec Rehash.Nodes Rehash.ToCompatible Rehash.ToNative.
From Verif Require Import Staging.Collect Staging.CollectProofs Staging.Cas Staging.FileSystem Staging.Spec Staging.Base.
Import ListNotations.
Local Open Scope string_scope.
Local Open Scope list_scope.

Lemma says_dir read blob es i : says read blob (FDir es) i <-> fst i = Tree /\ forall l, read (snd i) = Some l ->
  NoDup (map fst l) /\ (forall x j, In (x, j) l -> In x (map fst es)) /\ forall x c, In (x, c) es -> exists j, In (x, j) l /\ says read blob c j.
Proof.
  cbn [says ftype].
  assert (X : forall l (es : list (string * fnode)), fold_right (fun p P => (match p with (x, c) => exists j, In (x, j) l /\ says read blob c j end) /\ P) True es <->
    forall x c, In (x, c) es -> exists j, In (x, j) l /\ says read blob c j).
  { intros l. induction es0 as [|[x c] es0 IH]; cbn [fold_right]; [split; [intros _ ? ? []|auto]|]. split.
    - intros [A B] y e [J|J]; [injection J as <- <-; exact A|]. now apply (proj1 IH B).
    - intros A. split; [apply A; now left|]. apply IH. intros y e J. apply A. now right. }
  split; intros [A B]; split; auto; intros l E; destruct (B l E) as (C & D & F); (split; [exact C|]); (split; [exact D|]); now apply X.
Qed.
Lemma there_dir read blob es i : there read blob (FDir es) i <-> exists l, read (snd i) = Some l /\ forall x c j, In (x, c) es -> In (x, j) l -> there read blob c j.
Proof.
  cbn [there].
  assert (X : forall l (es : list (string * fnode)), fold_right (fun p P => (match p with (x, c) => forall j, In (x, j) l -> there read blob c j end) /\ P) True es <->
    forall x c j, In (x, c) es -> In (x, j) l -> there read blob c j).
  { intros l. induction es0 as [|[x c] es0 IH]; cbn [fold_right]; [split; [intros _ ? ? ? []|auto]|]. split.
    - intros [A B] y e j [J|J]; [injection J as <- <-; apply A|]. now apply (proj1 IH B).
    - intros A. split; [intros j; apply A; now left|]. apply IH. intros y e j J. apply A. now right. }
  split; intros (l & E & B); exists l; split; auto; now apply X.
Qed.
Lemma parts_self n : In n (parts n).
Proof. destruct n; now left. Qed.
Lemma parts_trans n : forall m k, In m (parts n) -> In k (parts m) -> In k (parts n).
Proof.
  induction n as [x d|t|es IH] using fnode_ind'; intros m k I J; try (destruct I as [<-|[]]; exact J).
  apply parts_dir in I as [->|(x & c & K & I)]; [exact J|]. apply parts_dir. right. exists x, c. split; auto.
  rewrite Forall_forall in IH. eapply (IH (x, c) K); eauto.
Qed.
Lemma named_ordered n : named n -> ordered n.
Proof.
  induction n as [x d|t|es IH] using fnode_ind'; intros N; try exact Logic.I. apply named_dir in N as [S N]. apply ordered_dir. split; auto.
  intros x c I. rewrite Forall_forall in IH. apply (IH (x, c) I). now apply (N x).
Qed.

Lemma find_held {A} (f : A -> bool) l o : find f l = Some o -> In o l /\ f o = true.
Proof. apply find_some. Qed.
Lemma find_there {A} (f : A -> bool) l o : In o l -> f o = true -> find f l <> None.
Proof. intros I E N. eapply find_none in N; eauto. congruence. Qed.

Section Native.
Variable H : string -> string.
Hypothesis HL : forall s, String.length (H s) = 20.
Variable S : stored.
Variable f : fnode.
Hypothesis NC : collision_free H (git_texts H (fun n => In n (parts f)) S).
Notation rd := (ReadGitTree H S).
Notation bl := (fun (t : otype) h => BlobPath H S h (IsExecutableObject t)).

Lemma held_in k h data : held H S k h = Some data -> In (k, data) S /\ ToHexString (H (object_text k data)) = h.
Proof.
  unfold held. destruct (find _ S) as [[k' data']|] eqn:E; [|discriminate]. intros X. injection X as <-. apply find_some in E as [I E]. cbn [fst snd] in *.
  apply andb_true_iff in E as [E1 E2]. apply eqb_prop in E1. subst k'. apply String.eqb_eq in E2. split; auto. rewrite <- E2. now destruct k.
Qed.
Lemma held_ok k data : In (k, data) S -> held H S k (ToHexString (H (object_text k data))) <> None.
Proof.
  intros I. unfold held. destruct (find _ S) eqn:E; [discriminate|]. intros _. eapply find_none in E; [|exact I]. cbn [fst snd] in E.
  rewrite eqb_reflx in E. cbn [andb] in E. apply String.eqb_neq in E. apply E. now destruct k.
Qed.
Lemma held_right n k data : In n (parts f) -> held H S k (git_hash H n) = Some data -> k = is_dir n /\ data = git_data H n.
Proof.
  intros I E. apply held_in in E as [J E]. rewrite git_hash_text in E. apply hex_encode_injective in E. apply NC in E; [|right; eauto|left; eauto].
  now apply object_text_inj in E.
Qed.
Lemma held_there n : In n (parts f) -> incl (git_objects H n) S -> held H S (is_dir n) (git_hash H n) = Some (git_data H n).
Proof.
  intros I L. assert (J : In (is_dir n, git_data H n) S).
  { apply L. unfold git_objects. apply in_map_iff. exists n. split; auto. apply parts_self. }
  apply held_ok in J. rewrite <- git_hash_text in J. destruct (held H S (is_dir n) (git_hash H n)) as [d|] eqn:E; [|congruence].
  now apply (held_right n (is_dir n) d I) in E as [_ ->].
Qed.

Lemma infos_items g : ReadObjectInfos g = map (fun i : item => (fst i, (fst (snd i), ToHexString (snd (snd i))))) (items g).
Proof.
  unfold ReadObjectInfos, items. rewrite concat_map, map_map. f_equal. apply map_ext. intros [raw es]. cbn [fst snd]. rewrite map_map. reflexivity.
Qed.
Lemma lenient check data h g : ReadTreeData H check data h = Some g -> ReadTreeData H (fun _ => true) data h = Some g.
Proof.
  unfold ReadTreeData, ReadTree. destruct (FromHexString h); [|discriminate]. destruct (String.eqb _ _); [|discriminate].
  destruct (ReadDirectTree false data) as [es|]; [|discriminate]. destruct (symlink_ids es); auto. destruct (check _); [auto|discriminate].
Qed.
Lemma strictly check data h g : ReadTreeData H (fun _ => true) data h = Some g -> check (symlink_ids g) = true -> ReadTreeData H check data h = Some g.
Proof.
  unfold ReadTreeData, ReadTree. destruct (FromHexString h); [|discriminate]. destruct (String.eqb _ _); [|discriminate].
  destruct (ReadDirectTree false data) as [es|]; [|discriminate]. destruct (symlink_ids es) eqn:E; auto.
  intros X. injection X as <-. rewrite E. intros ->. reflexivity.
Qed.
Lemma git_entry es i : In i (ditems H (node_entries H es)) <-> exists x c, In (x, c) es /\ i = (x, (ftype c, nid H (git_node H c))).
Proof.
  destruct i as [x [t raw]]. rewrite in_ditems. split.
  - intros (n & I & -> & ->). apply in_node_entries in I as (c & I & ->). exists x, c. now rewrite ntype_git.
  - intros (y & c & I & E). injection E as -> -> ->. exists (git_node H c). rewrite ntype_git. split; auto. apply in_node_entries. eauto.
Qed.
(** What is read of a tree. *)
Lemma read_right es l : named (FDir es) -> In (FDir es) (parts f) -> rd (git_hash H (FDir es)) = Some l ->
  Permutation l (map (fun p => (fst p, (ftype (snd p), git_hash H (snd p)))) es).
Proof.
  intros N I E. unfold ReadGitTree in E. destruct (held H S true _) as [data|] eqn:Eh; [|discriminate].
  apply held_right in Eh as [_ ->]; auto. destruct (ReadTreeData _ _ _ _) as [g|] eqn:Er; [|discriminate]. injection E as <-.
  apply lenient in Er. pose proof (git_wf H HL _ N) as W. change (wf (Dir (node_entries H es))) in W. destruct (read_dir H HL _ W) as (g' & Rg & _ & Pg & _).
  change (ReadTreeData H (fun _ => true) (git_data H (FDir es)) (git_hash H (FDir es)) = Some g') in Rg. rewrite Rg in Er. injection Er as ->.
  rewrite infos_items. eapply perm_trans; [apply Permutation_map, Pg|]. unfold ditems, node_entries. rewrite !map_map. apply Permutation_refl'.
  apply map_ext. intros [x c]. cbn [fst snd]. now rewrite ntype_git.
Qed.
Lemma read_there es : named (FDir es) -> In (FDir es) (parts f) -> incl (git_objects H (FDir es)) S -> level_links (FDir es) -> rd (git_hash H (FDir es)) <> None.
Proof.
  intros N I L V. unfold ReadGitTree. pose proof (held_there _ I L) as E. cbn [is_dir] in E. rewrite E.
  pose proof (git_wf H HL _ N) as W. change (wf (Dir (node_entries H es))) in W. destruct (read_dir H HL _ W) as (g & Rg & _ & Pg & _).
  change (ReadTreeData H (fun _ => true) (git_data H (FDir es)) (git_hash H (FDir es)) = Some g) in Rg.
  rewrite (strictly _ _ _ _ Rg); [discriminate|]. unfold check_symlinks. apply forallb_forall. intros id J. unfold symlink_ids in J.
  apply in_map_iff in J as ([raw es0] & <- & J). apply filter_In in J as [J X]. cbn [snd fst] in *. apply existsb_exists in X as ([x t] & He & Ht). cbn [snd] in Ht.
  pose proof (in_items g raw es0 (x, t) J He) as K. cbn [fst snd] in K. eapply Permutation_in in K; [|exact Pg]. apply git_entry in K as (y & c & Ic & Ei).
  injection Ei as -> -> ->. destruct c as [b d|t|d]; try (destruct b; discriminate); try discriminate. clear Ht.
  assert (Pc : In (FLink t) (parts (FDir es))) by (apply parts_dir; right; exists y, (FLink t); split; auto; now left).
  change (ToHexString (nid H (git_node H (FLink t)))) with (git_hash H (FLink t)). unfold BlobPath.
  change (held H S false) with (held H S (is_dir (FLink t))). rewrite (held_there (FLink t)); [|eapply parts_trans; eauto|].
  - now apply V.
  - intros o [<-|[]]. apply L. unfold git_objects. apply in_map_iff. exists (FLink t). auto.
Qed.

Lemma native_says n : named n -> In n (parts f) -> says rd bl n (ftype n, git_hash H n).
Proof.
  induction n as [x d|t|es IH] using fnode_ind'; intros N I.
  - split; [now destruct x|]. intros s E. unfold BlobPath in E. now apply held_right in E as [_ ->].
  - split; [reflexivity|]. intros s E. unfold BlobPath in E. now apply held_right in E as [_ ->].
  - apply says_dir. split; [reflexivity|]. intros l E. cbn [snd] in E. pose proof (read_right es l N I E) as P. pose proof (proj1 (named_dir es) N) as [Srt Nc]. split; [|split].
    + eapply Permutation_NoDup; [apply Permutation_sym, Permutation_map, P|]. rewrite map_map. cbn [fst]. now apply sorted_NoDup.
    + intros x j J. eapply Permutation_in in J; [|exact P]. apply in_map_iff in J as ([y c] & Ej & J). injection Ej as <- _. apply (in_map fst) in J. exact J.
    + intros x c J. exists (ftype c, git_hash H c). split.
      * eapply Permutation_in; [apply Permutation_sym, P|]. apply in_map_iff. exists (x, c). auto.
      * rewrite Forall_forall in IH. apply (IH (x, c) J); [now apply (Nc x)|]. cbn [snd]. eapply parts_trans; [exact I|]. apply parts_dir. right. exists x, c. split; auto. apply parts_self.
Qed.
Lemma native_there n : named n -> In n (parts f) -> incl (git_objects H n) S -> level_links n -> there rd bl n (ftype n, git_hash H n).
Proof.
  induction n as [x d|t|es IH] using fnode_ind'; intros N I L V.
  - cbn [there snd]. unfold BlobPath. pose proof (held_there _ I L) as E. cbn [is_dir] in E. now rewrite E.
  - cbn [there snd]. unfold BlobPath. pose proof (held_there _ I L) as E. cbn [is_dir] in E. now rewrite E.
  - apply there_dir. cbn [snd]. pose proof (read_there es N I L V) as R. destruct (rd (git_hash H (FDir es))) as [l|] eqn:E; [|congruence]. exists l. split; auto.
    intros x c j J K. pose proof (read_right es l N I E) as P. pose proof (proj1 (named_dir es) N) as [Srt Nc].
    eapply Permutation_in in K; [|exact P]. apply in_map_iff in K as ([y e] & Ej & K). injection Ej as -> <-. cbn [fst snd].
    assert (e = c).
    { apply (sorted_alookup_In _ _ _ Srt) in J, K. congruence. } subst e.
    rewrite Forall_forall in IH. apply (IH (x, c) J); cbn [snd].
    + now apply (Nc x).
    + eapply parts_trans; [exact I|]. apply parts_dir. right. exists x, c. split; auto. apply parts_self.
    + intros o Io. apply L. apply git_objects_dir. right. eauto.
    + apply (proj1 (level_dir es) V x c J).
Qed.
End Native.

Section Compatible.
Variable H2 : string -> string.
Variable utf8 : string -> bool.
Hypothesis HX : hex_digests H2 utf8.
Variable S : stored.
Variable f : fnode.
Hypothesis NC : collision_free H2 (comp_texts H2 (fun n => In n (parts f)) S).
Hypothesis FE : expressible H2 utf8 f.
Notation rd := (ReadCompatible H2 utf8 S).
Notation bl := (fun (t : otype) h => CBlobPath H2 S h (IsExecutableObject t)).

Lemma cheld_right n x data : In n (parts f) -> CBlobPath H2 S (comp_hash H2 n) x = Some data -> data = comp_data H2 n.
Proof.
  intros I. unfold CBlobPath. destruct (find _ S) as [[k d]|] eqn:E; [|discriminate]. intros X. injection X as <-. apply find_some in E as [J E].
  apply String.eqb_eq in E. cbn [snd] in *. apply NC in E; auto; [right; eauto|left; eauto].
Qed.
Lemma cheld_there n x : In n (parts f) -> incl (comp_objects H2 n) S -> CBlobPath H2 S (comp_hash H2 n) x = Some (comp_data H2 n).
Proof.
  intros I L. assert (J : In (is_dir n, comp_data H2 n) S).
  { apply L. unfold comp_objects. apply in_map_iff. exists n. split; auto. apply parts_self. }
  destruct (CBlobPath H2 S (comp_hash H2 n) x) as [d|] eqn:E; [now apply cheld_right in E as ->|].
  unfold CBlobPath in E. destruct (find _ S) eqn:Ef; [discriminate|]. eapply find_none in Ef; [|exact J]. cbn [snd] in Ef. apply String.eqb_neq in Ef. now destruct Ef.
Qed.
Lemma expressible_parts n : In n (parts f) -> expressible H2 utf8 n.
Proof.
  revert FE. generalize f. induction f0 as [x d|t|es IH] using fnode_ind'; intros E I; try (destruct I as [<-|[]]; exact E).
  apply parts_dir in I as [->|(x & c & J & I)]; [exact E|]. apply expressible_dir in E as [_ E]. rewrite Forall_forall in IH. apply (IH (x, c) J); auto. now apply (E x).
Qed.
Lemma infos_map {D} (g : D -> option (otype * string)) (h : D -> otype * string) l : (forall x d, In (x, d) l -> g d = Some (h d)) ->
  infos g l = Some (map (fun p => (fst p, h (snd p))) l).
Proof.
  induction l as [|[x d] l IH]; intros K; [reflexivity|]. cbn [infos map fst snd]. rewrite (K x d) by now left. rewrite IH; [reflexivity|]. intros y e J. apply (K y e). now right.
Qed.
Lemma info_ok t data : digest_info t (comp_digest H2 data) = Some (t, H2 data).
Proof.
  unfold digest_info, comp_digest. cbn [d_hash d_size]. destruct (HX data) as (L & X & _). unfold create_digest.
  unfold valid_input. cbn. rewrite L, X. reflexivity.
Qed.
Lemma select_perm' (es : list (string * fnode)) : Permutation es (select is_file es ++ select is_link es ++ select is_dir es).
Proof.
  eapply perm_trans; [apply (select_perm es)|]. eapply perm_trans; [apply Permutation_app_comm|]. rewrite <- app_assoc.
  eapply perm_trans; [apply Permutation_app_comm|]. rewrite <- app_assoc. apply Permutation_app_head. apply Permutation_app_comm.
Qed.
Lemma cread_right es l : In (FDir es) (parts f) -> rd (comp_hash H2 (FDir es)) = Some l ->
  Permutation l (map (fun p => (fst p, (ftype (snd p), comp_hash H2 (snd p)))) es).
Proof.
  intros I E. unfold ReadCompatible in E. destruct (CBlobPath H2 S _ false) as [data|] eqn:Eh; [|discriminate].
  apply cheld_right in Eh as ->; auto. rewrite comp_data_dir, (parse_directory_ok utf8) in E by (apply (good_message H2 utf8 HX); now apply expressible_parts).
  unfold ReadDirectoryInfos, message in E. cbn [dm_files dm_links dm_dirs] in E.
  rewrite (infos_map _ (fun fd : bool * digest => (if fst fd then Executable else File, d_hash (snd fd)))) in E.
  2:{ intros x [e d] J. apply in_files in J as (c & J & ->). cbn [fst snd]. apply info_ok. }
  rewrite (infos_map _ (fun t => (Symlink, H2 t))) in E by reflexivity.
  rewrite (infos_map _ (fun d : digest => (Tree, d_hash d))) in E.
  2:{ intros x d J. apply in_dirs in J as (c & J & ->). apply info_ok. }
  injection E as <-. eapply perm_trans; [|apply Permutation_map, Permutation_sym, select_perm']. rewrite !map_app.
  rewrite (file_nodes_select H2), (link_nodes_select), (dir_nodes_select H2), !map_map. apply Permutation_refl'. f_equal; [|f_equal]; apply map_ext_in; intros [x c] J; apply in_select in J as [_ J].
  - destruct c as [[] d| |]; try discriminate; reflexivity.
  - destruct c; try discriminate; reflexivity.
  - destruct c; try discriminate; reflexivity.
Qed.
Lemma cread_there es : In (FDir es) (parts f) -> incl (comp_objects H2 (FDir es)) S -> rd (comp_hash H2 (FDir es)) <> None.
Proof.
  intros I L. unfold ReadCompatible. rewrite (cheld_there _ false I L). rewrite comp_data_dir, (parse_directory_ok utf8) by (apply (good_message H2 utf8 HX); now apply expressible_parts).
  unfold ReadDirectoryInfos, message. cbn [dm_files dm_links dm_dirs].
  rewrite (infos_map _ (fun fd : bool * digest => (if fst fd then Executable else File, d_hash (snd fd)))).
  2:{ intros x [e d] J. apply in_files in J as (c & J & ->). cbn [fst snd]. apply info_ok. }
  rewrite (infos_map _ (fun t => (Symlink, H2 t))) by reflexivity.
  rewrite (infos_map _ (fun d : digest => (Tree, d_hash d))).
  2:{ intros x d J. apply in_dirs in J as (c & J & ->). apply info_ok. }
  discriminate.
Qed.
Lemma comp_says n : named n -> In n (parts f) -> says rd bl n (ftype n, comp_hash H2 n).
Proof.
  induction n as [x d|t|es IH] using fnode_ind'; intros N I.
  - split; [now destruct x|]. intros s E. cbn [fst snd] in E. now apply cheld_right in E as ->.
  - split; [reflexivity|]. intros s E. cbn [fst snd] in E. now apply cheld_right in E as ->.
  - apply says_dir. split; [reflexivity|]. intros l E. cbn [snd] in E. pose proof (cread_right es l I E) as P. pose proof (proj1 (named_dir es) N) as [Srt Nc]. split; [|split].
    + eapply Permutation_NoDup; [apply Permutation_sym, Permutation_map, P|]. rewrite map_map. cbn [fst]. now apply sorted_NoDup.
    + intros x j J. eapply Permutation_in in J; [|exact P]. apply in_map_iff in J as ([y c] & Ej & J). injection Ej as <- _. apply (in_map fst) in J. exact J.
    + intros x c J. exists (ftype c, comp_hash H2 c). split.
      * eapply Permutation_in; [apply Permutation_sym, P|]. apply in_map_iff. exists (x, c). auto.
      * rewrite Forall_forall in IH. apply (IH (x, c) J); [now apply (Nc x)|]. cbn [snd]. eapply parts_trans; [exact I|]. apply parts_dir. right. exists x, c. split; auto. apply parts_self.
Qed.
Lemma comp_there n : named n -> In n (parts f) -> incl (comp_objects H2 n) S -> there rd bl n (ftype n, comp_hash H2 n).
Proof.
  induction n as [x d|t|es IH] using fnode_ind'; intros N I L.
  - cbn [there snd]. rewrite (cheld_there _ _ I L). discriminate.
  - cbn [there snd]. rewrite (cheld_there _ _ I L). discriminate.
  - apply there_dir. cbn [snd]. pose proof (cread_there es I L) as R. destruct (rd (comp_hash H2 (FDir es))) as [l|] eqn:E; [|congruence]. exists l. split; auto.
    intros x c j J K. pose proof (cread_right es l I E) as P. pose proof (proj1 (named_dir es) N) as [Srt Nc].
    eapply Permutation_in in K; [|exact P]. apply in_map_iff in K as ([y e] & Ej & K). injection Ej as -> <-. cbn [fst snd].
    assert (e = c).
    { apply (sorted_alookup_In _ _ _ Srt) in J, K. congruence. } subst e.
    rewrite Forall_forall in IH. apply (IH (x, c) J); cbn [snd].
    + now apply (Nc x).
    + eapply parts_trans; [exact I|]. apply parts_dir. right. exists x, c. split; auto. apply parts_self.
    + intros o Io. apply L. apply comp_objects_dir. right. eauto.
Qed.
End Compatible.
