(** References in both kinds of roots. *)
From Coq Require Import String Ascii List Bool Arith Lia.
From Verif Require Import Common.Strs Path.Spec Path.Model Path.Proofs Path.Proofs2 Symlinks.Paths.
From Verif Require Import Roots.Model Roots.Spec Roots.Paths Roots.Markers Roots.Lookups Roots.Answers Roots.Files Roots.References.
Import ListNotations.
Local Open Scope string_scope.
Local Open Scope list_scope.
Local Open Scope nat_scope.

Lemma proper_shown ign t : proper t -> proper (shown ign t).
Proof.
  intros P p es E. apply (shown_directory_at t ign P) in E. destruct E as (raw & A & ->). destruct (P _ _ A) as [N F].
  rewrite show_names. split; [now apply vis_nodup|]. apply Forall_forall. intros f I. rewrite Forall_forall in F. apply F.
  apply in_map_iff in I. destruct I as (e & <- & I). apply in_map. now apply (vis_incl ign).
Qed.

Lemma plain_place f : plain f -> is_absolute f = false /\ place_of f = mkPlace 0 (rev [f]).
Proof. intros F. apply (join_place [f]). repeat constructor; apply F. Qed.

Lemma filename_plain f : plain f -> filename f = f.
Proof. intros F. unfold filename. rewrite split_of_sfree by apply plain_good, F. reflexivity. Qed.

Section Refs.
Variable tree_id : list (string * item) -> string.
Variables blob_id plain_id : string -> string.
Variable fs : item.
Variable native : bool.
Variable fnmatch : string -> string -> bool.
Variable repository : string.

Section Git.
Variable top : list (string * item).
Variable ign : bool.
Let t := Directory top.
Let r := GitRoot (mkGit top ign).
Hypothesis P : proper t.
Hypothesis R : readable ign t.
Notation stands := (stands_for tree_id blob_id plain_id fs native r repository).

Lemma git_stands b x : as_blob x = Some b -> stands (git_artifact blob_id plain_id native repository b) x.
Proof.
  intros B. unfold git_artifact. destruct b as [ty c]. cbn [fst snd].
  destruct (Bool.bool_dec native true) as [E|E]; [rewrite E; now apply s_blob|].
  assert (native = false) as E' by now destruct native. rewrite E'. now apply s_plain.
Qed.

Lemma git_S st ms f es : inv ign st -> Forall plain ms -> plain f -> at_path (shown ign t) ms = Some (Directory es) ->
  exists st', inv ign st' /\
    match blob_at (alookup f es) with
    | Some b => exists a, SourceTarget tree_id blob_id plain_id fs native r st repository (join_slash ms) f = (st', Some (f, a)) /\
                          forall x, alookup f es = Some x -> stands a x
    | None => SourceTarget tree_id blob_id plain_id fs native r st repository (join_slash ms) f = (st', None)
    end.
Proof.
  intros I M F A. destruct (source_ok tree_id blob_id plain_id fs native top ign P R st repository ms f I M) as (st' & I' & _ & H).
  exists st'. split; [exact I'|]. destruct (plain_place f F) as [A1 A2]. specialize (H [f] A1 A2).
  assert (at_path (shown ign t) (ms ++ [f]) = alookup f es) as E.
  { rewrite at_path_app, A. cbn. now destruct (alookup f es). }
  unfold t in E. rewrite E in H. fold r in H. rewrite H. destruct (alookup f es) as [x|]; cbn [blob_at option_map].
  - destruct (as_blob x) as [b|] eqn:B; [|reflexivity]. eexists. split; [reflexivity|]. intros y EY. injection EY as <-.
    now apply git_stands.
  - reflexivity.
Qed.

Lemma git_NM path ps : names_directory path ps -> Forall plain ps /\ normal_module_name path = join_slash ps.
Proof.
  intros (A & PL & _). split; [|now apply module_of]. pose proof (place_of_wf path) as [W _]. rewrite PL in W. cbn in W.
  apply Forall_rev in W. rewrite rev_involutive in W. eapply Forall_impl; [|exact W]. intros a. apply okname_plain.
Qed.

Lemma git_ND ps f : Forall plain ps -> plain f -> names_directory (join_slash (ps ++ [f])) (ps ++ [f]).
Proof.
  intros F PF. destruct (join_place (ps ++ [f])) as [A B]; [apply Forall_app; split; [exact F|now constructor]|].
  split; [exact A|]. split; [exact B|]. intros E. apply app_eq_nil in E. now destruct E.
Qed.

Lemma names_directory_join ps : Forall plain ps -> names_directory (join_slash ps) ps.
Proof. intros F. destruct (join_place ps F) as [A B]. split; [exact A|]. split; [exact B|]. intros ->. now left. Qed.

Definition git_tree := tree_ok tree_id blob_id plain_id fs native r repository (shown ign t) (inv ign) names_directory
  (proper_shown ign t P) (entries_ok tree_id fs native top ign P R) git_S git_NM (fun ps es f F _ => git_ND ps f F).
Definition git_missing := tree_missing tree_id blob_id plain_id fs native r repository (shown ign t) (inv ign) names_directory
  (entries_ok tree_id fs native top ign P R).
Definition git_glob := glob_ok tree_id blob_id plain_id fs native r repository (shown ign t) (inv ign) names_directory
  (proper_shown ign t P) (entries_ok tree_id fs native top ign P R) git_S git_NM fnmatch.
End Git.

Section FileSystem.
Variable d : string.
Variable t : item.
Variable ign : bool.
Let r := FsRoot d ign.
Hypothesis RD : root_dir fs d t.
Hypothesis P : proper t.
Hypothesis V : ign = false -> valid t.
Notation stands := (stands_for tree_id blob_id plain_id fs native r repository).

Lemma directory_no_link ps es f : at_path t ps = Some (Directory es) -> no_link_before t (ps ++ [f]).
Proof.
  intros A a b c E NB X. destruct (exists_last NB) as (b' & z & ->). rewrite app_assoc in E. apply app_inj_tail in E.
  destruct E as [-> _]. destruct b' as [|y b']; [rewrite app_nil_r in A; congruence|].
  destruct (at_path_prefix t a (y :: b') _ A ltac:(discriminate)) as (es' & A'). congruence.
Qed.

Lemma fs_stands ps x b : Forall plain ps -> ps <> [] -> no_link_before t ps -> at_path (shown ign t) ps = Some x ->
  as_blob x = Some b -> stands (Local (join_slash ps) repository) x.
Proof.
  intros F N L A B.
  assert (blob_at (at_path (shown ign t) ps) = Some b) as BA by (rewrite A; exact B).
  destruct (blob_shown_at t ign P ps b BA) as (y & AY & BY).
  assert (link_ok y = true) as LO.
  { destruct y as [| c | |]; try reflexivity. destruct (Bool.bool_dec ign true) as [E|E].
    - exfalso. pose proof (at_shown t ign P ps) as S. rewrite AY in S. rewrite E in S, A.
      destruct (exists_last N) as (ps' & f & ->). rewrite <- E in A. rewrite (at_snoc t ign P) in A. rewrite E in A.
      destruct (at_path t ps') as [[| | |raw]|] eqn:AP; try discriminate A.
      rewrite at_path_app, AP in AY. cbn in AY. destruct (alookup f raw) as [z|] eqn:LZ; [|discriminate]. injection AY as ->.
      destruct (alookup f (vis true raw)) as [z|] eqn:LV; [|discriminate A].
      pose proof (vis_lookup true raw f z (proj1 (P _ _ AP)) LV) as X. rewrite LZ in X. injection X as <-.
      apply alookup_In in LV. apply filter_In in LV. destruct LV. discriminate.
    - assert (ign = false) as E' by now destruct ign. cbn. apply downward_ok. now apply (proj2 (V E' _ _ AY)). }
  apply s_local with (fst b) (snd b).
  - rewrite B. now destruct b.
  - intros st. exact (proj1 (fs_blob fs d t RD ign ps y F N L AY LO b BY st)).
  - intros st. exact (proj2 (fs_blob fs d t RD ign ps y F N L AY LO b BY st)).
Qed.

Lemma fs_S st ms f es : True -> Forall plain ms -> plain f -> at_path (shown ign t) ms = Some (Directory es) ->
  exists st', True /\
    match blob_at (alookup f es) with
    | Some b => exists a, SourceTarget tree_id blob_id plain_id fs native r st repository (join_slash ms) f = (st', Some (f, a)) /\
                          forall x, alookup f es = Some x -> stands a x
    | None => SourceTarget tree_id blob_id plain_id fs native r st repository (join_slash ms) f = (st', None)
    end.
Proof.
  intros _ M F A. exists st. split; [exact I|]. destruct (plain_place f F) as [A1 A2].
  assert (at_path (shown ign t) (ms ++ [f]) = alookup f es) as E.
  { rewrite at_path_app, A. cbn. now destruct (alookup f es). }
  pose proof A as AD. apply (shown_directory_at t ign P) in AD. destruct AD as (raw & AR & ->).
  pose proof (directory_no_link ms raw f AR) as L.
  pose proof (fs_source fs d t RD ign P tree_id blob_id plain_id native st repository ms f [f] M A1 A2) as SO.
  rewrite (filename_plain f F) in SO. specialize (SO F L). rewrite removelast_last, AR in SO.
  assert (readable_directory ign raw) as RR.
  { intros EI. apply valid_direct; [exact (proj1 (P _ _ AR))|exact (valid_sub _ _ _ (V EI) AR)]. }
  rewrite (proj2 (fs_entries_spec ign raw (typed (vis ign raw)) ltac:(auto)) (conj RR eq_refl)) in SO.
  rewrite E in SO. fold r in SO. rewrite SO.
  destruct (alookup f (show ign raw)) as [x|]; cbn [blob_at]; [|reflexivity].
  destruct (as_blob x) as [b|] eqn:B; cbn [is_some]; [|reflexivity].
  eexists. split; [reflexivity|]. intros y EY. injection EY as <-. apply fs_stands with b; try assumption.
  - apply Forall_app. split; [exact M|now constructor].
  - intros X. apply app_eq_nil in X. now destruct X.
Qed.

Lemma fs_D st path ps : True -> fs_path t path ps ->
  exists st' e, DirectoryEntriesOf tree_id fs r st path = (st', Some e) /\ True /\
    match at_path (shown ign t) ps with Some (Directory es) => given tree_id native e es | _ => e = Pairs [] end.
Proof.
  intros _ FP. destruct (fs_entries_ok fs d t RD ign P tree_id native st path ps FP V) as (e & E & G). exists st, e. auto.
Qed.

Lemma fs_NM path ps : fs_path t path ps -> Forall plain ps /\ normal_module_name path = join_slash ps.
Proof.
  intros (F & _ & [-> |[-> ->]]); (split; [assumption|]).
  - destruct (join_place ps F) as [A B]. now apply module_of.
  - reflexivity.
Qed.

Lemma fs_ND ps es f : Forall plain ps -> at_path (shown ign t) ps = Some (Directory es) -> plain f ->
  fs_path t (join_slash (ps ++ [f])) (ps ++ [f]).
Proof.
  intros F A PF. apply (shown_directory_at t ign P) in A. destruct A as (raw & A & _).
  split; [apply Forall_app; split; [exact F|now constructor]|]. split; [exact (directory_no_link _ _ _ A)|now left].
Qed.

Definition fs_tree := tree_ok tree_id blob_id plain_id fs native r repository (shown ign t) (fun _ => True) (fs_path t)
  (proper_shown ign t P) fs_D fs_S fs_NM fs_ND.
Definition fs_missing := tree_missing tree_id blob_id plain_id fs native r repository (shown ign t) (fun _ => True) (fs_path t) fs_D.
Definition fs_glob := glob_ok tree_id blob_id plain_id fs native r repository (shown ign t) (fun _ => True) (fs_path t)
  (proper_shown ign t P) fs_D fs_S fs_NM fnmatch.
End FileSystem.
End Refs.
