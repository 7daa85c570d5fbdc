(** C97-C103: the roots set up by just-mr. *)
From Coq Require Import String Ascii List Bool NArith Arith Lia.
From Verif Require Import Common.Strs Hex.Model Hex.Proofs Describe.Model Executor.Wire Rehash.Directory Rehash.DirectoryProofs.
From Verif Require Import GitTree.Model GitTree.Spec GitTree.Ids TreeOps.Spec Rehash.Model Rehash.Spec Rehash.Nodes Rehash.Examples.
From Verif Require Import Fetch.World Fetch.Model Fetch.Spec Fetch.Proofs Fetch.Safety Fetch.Facts Fetch.Doing Fetch.Noted Fetch.Witness.
Import ListNotations.
Local Open Scope string_scope.
Local Open Scope list_scope.
Local Open Scope nat_scope.

Section P.
Variable H : string -> string.
Variable extract : string -> string -> option fnode.
Variable resolve : pragma -> fnode -> option fnode.
Variable serve_says : query -> string -> Prop.
Notation happens := (happens H extract resolve serve_says).

(** C97: whatever happened before, is happening at the same time, or was interrupted: a present root of an archive is
    what is obtained from bytes with the pinned hash by extracting them, taking the subdirectory and resolving links;
    and it is in the Git cache. *)
Theorem C97_archive_roots : forall w rs cfg r i t l, happens w rs -> In ((cfg, TArchive r), Ret (Root (Present i t l))) rs ->
  unambiguous H (git_cache w) ->
  i = false /\ l = Gen 0 /\ exists data m, archive_describes H extract resolve r data m /\ t = git_hash H m /\ has_node (git_cache w) m.
Proof.
  intros w rs cfg r i t l R I U. apply happens_post in R as [_ P]. destruct (P _ _ I) as (A & B & C & _). split; [exact A|]. split; [exact B|].
  now apply archive_fact_describes.
Qed.
(** For an absent root, the same, or it is what the serve endpoint told. *)
Theorem C97_absent_roots : forall w rs cfg r i t, happens w rs -> In ((cfg, TArchive r), Ret (Root (Absent i t))) rs ->
  unambiguous H (git_cache w) ->
  i = false /\ ((exists data m, archive_describes H extract resolve r data m /\ t = git_hash H m) \/ serve_says (QArchive (r_type r) (a_content (r_archive r)) (r_subdir r) (r_pragma r)) t).
Proof.
  intros w rs cfg r i t R I U. apply happens_post in R as [_ P]. destruct (P _ _ I) as (A & B & _). split; [exact A|].
  destruct B as [B|B]; [left|now right]. apply archive_fact_describes in B as (data & m & B & C & _); eauto.
Qed.
(** Two machines with the same pins have the same root, whatever their histories; or two different contents have the
    pinned hash. *)
Theorem C97_reproducible : forall w1 rs1 w2 rs2 cfg1 cfg2 r1 r2 i1 t1 l1 i2 t2 l2, happens w1 rs1 -> happens w2 rs2 ->
  In ((cfg1, TArchive r1), Ret (Root (Present i1 t1 l1))) rs1 -> In ((cfg2, TArchive r2), Ret (Root (Present i2 t2 l2))) rs2 ->
  unambiguous H (git_cache w1) -> unambiguous H (git_cache w2) ->
  a_content (r_archive r1) = a_content (r_archive r2) -> r_type r1 = r_type r2 -> r_subdir r1 = r_subdir r2 -> r_pragma r1 = r_pragma r2 ->
  t1 = t2 \/ exists d1 d2, d1 <> d2 /\ blob_hash H d1 = a_content (r_archive r1) /\ blob_hash H d2 = a_content (r_archive r1).
Proof.
  intros w1 rs1 w2 rs2 cfg1 cfg2 r1 r2 i1 t1 l1 i2 t2 l2 R1 R2 I1 I2 U1 U2 E1 E2 E3 E4.
  apply happens_post in R1 as [_ P1]. apply happens_post in R2 as [_ P2].
  destruct (P1 _ _ I1) as (_ & _ & F1 & _). destruct (P2 _ _ I2) as (_ & _ & F2 & _). exact (archive_same H extract resolve _ _ _ _ _ _ U1 U2 E1 E2 E3 E4 F1 F2).
Qed.
(** [unambiguous] follows if the hash function has no collision on the objects in the cache. *)
Theorem C97_no_collisions : forall o, (forall s, String.length (H s) = 20) -> (forall n, has_node o n -> named n) ->
  collision_free H (git_texts H (has_node o) []) -> unambiguous H o.
Proof. exact (no_collision_unambiguous H). Qed.
(** Setting up a root never crashes. *)
Theorem C97_never_crashes : forall w rs job, happens w rs -> ~ In (job, Ret Crash) rs.
Proof. intros w rs job R I. apply happens_post in R as [_ P]. exact (P _ _ I). Qed.
(** The root is a directory, if the whole archive is asked for, or links are resolved. *)
Theorem C97_directories_partial : forall w rs cfg r i t l, happens w rs -> In ((cfg, TArchive r), Ret (Root (Present i t l))) rs ->
  r_subdir r = [] \/ r_pragma r <> None -> has_tree H (git_cache w) t.
Proof.
  intros w rs cfg r i t l R I S. apply happens_post in R as [_ P]. destruct (P _ _ I) as (_ & _ & C & _). exact (archive_fact_dir H extract resolve _ _ _ S C).
Qed.

(** C98: the root of a git tree is the pinned tree. *)
Theorem C98_pinned : forall w rs cfg r rt, happens w rs -> In ((cfg, TTree r), Ret (Root rt)) rs ->
  match rt with
  | Present i t l => i = t_ignore r /\ t = t_hash r /\ l = Gen 0
  | Absent i t => i = t_ignore r /\ t = t_hash r
  end.
Proof.
  intros w rs cfg r rt R I. apply happens_post in R as [_ P]. specialize (P _ _ I). cbn in P. destruct rt; tauto.
Qed.
(** It is in the Git cache, if it has no empty directories and no serve endpoint is used. *)
Theorem C98_available_partial : forall w rs cfg r i t l, happens w rs -> In ((cfg, TTree r), Ret (Root (Present i t l))) rs ->
  c_serve cfg && c_remote cfg = false -> (forall n, is_dir n = true -> git_hash H n = t_hash r -> no_empty_dirs n) ->
  has_tree H (git_cache w) t.
Proof.
  intros w rs cfg r i t l R I S N. apply happens_post in R as [_ P]. destruct (P _ _ I) as (_ & _ & -> & F & _).
  destruct F as [F|[(n & A & B & C & _)|F]]; [exact F| |cbn in F; congruence]. exfalso. apply C, installed_same. eauto.
Qed.

(** C99: the root of a commit is what is in the subdirectory of the tree of an object with the pinned id, or of the
    tree named by the serve endpoint; it is in the repository the root refers to. *)
Theorem C99_commit_roots : forall w rs cfg r i t l, happens w rs -> In ((cfg, TCommit r), Ret (Root (Present i t l))) rs ->
  i = m_ignore r /\ (l = Gen 0 \/ m_checkout r = true /\ l = Checkout) /\ exists m, t = git_hash H m /\ has_node (odb_at w l) m /\
  (commit_describes H (m_commit r) (m_subdir r) m \/
   exists n, serve_says (QCommit (m_commit r) []) (git_hash H n) /\ at_path n (m_subdir r) = Some m).
Proof.
  intros w rs cfg r i t l R I. apply happens_post in R as [_ P]. destruct (P _ _ I) as (A & B & C). split; [exact A|].
  split; [unfold commit_loc in B; destruct (m_checkout r); tauto|]. destruct C as (t0 & m & (n & D & E & F) & T & C). exists m. split; [exact T|]. split; [eapply node_at; [apply D|exact F]|].
  destruct C as [(b & J & K)|C]; [left|right; exists n; split; congruence]. exists b, n. split; [exact J|]. split; [congruence|]. split; [apply D|exact F].
Qed.
(** So, if the serve endpoint never tells a tree that is not the one of the commit, the root is the one of the commit. *)
Theorem C99_truthful_partial : forall w rs cfg r i t l, happens w rs -> In ((cfg, TCommit r), Ret (Root (Present i t l))) rs ->
  (forall c t0, serve_says (QCommit c []) t0 -> exists bytes, commit_id H bytes = c /\ commit_tree bytes = Some t0) ->
  exists m, t = git_hash H m /\ commit_describes H (m_commit r) (m_subdir r) m.
Proof.
  intros w rs cfg r i t l R I S. apply happens_post in R as [_ P]. destruct (P _ _ I) as (_ & _ & (t0 & m & (n & D & E & F) & T & C)).
  exists m. split; [exact T|]. assert (B : exists b, commit_id H b = m_commit r /\ commit_tree b = Some t0) by (destruct C as [C|C]; auto).
  destruct B as (b & J & K). exists b, n. split; [exact J|]. split; [congruence|]. split; [apply D|exact F].
Qed.
(** Absent roots of commits: as above, or the serve endpoint was asked for the subdirectory. *)
Theorem C99_absent_roots : forall w rs cfg r i t, happens w rs -> In ((cfg, TCommit r), Ret (Root (Absent i t))) rs ->
  i = m_ignore r /\
  ((exists m, t = git_hash H m /\ (commit_describes H (m_commit r) (m_subdir r) m \/
      exists n, serve_says (QCommit (m_commit r) []) (git_hash H n) /\ at_path n (m_subdir r) = Some m)) \/
   serve_says (QCommit (m_commit r) (m_subdir r)) t).
Proof.
  intros w rs cfg r i t R I. apply happens_post in R as [_ P]. destruct (P _ _ I) as (A & _ & C). split; [exact A|].
  destruct C as [(l & _ & (t0 & m & (n & D & E & F) & T & C))|C]; [left|now right]. exists m. split; [exact T|].
  destruct C as [(b & J & K)|C]; [left|right; exists n; split; congruence]. exists b, n. split; [exact J|]. split; [congruence|]. split; [apply D|exact F].
Qed.

(** C100: every remembered association, in every generation, at every moment, names a tree that is in the Git cache of
    that generation, and one that belongs to the key. *)
Theorem C100_associations : forall w rs g k t, happens w rs -> known k (g_assoc (gen_at w g)) = Some t ->
  has_tree H (odb_at w (Gen g)) t /\
  match k with
  | AArchive ty c => exists data n, blob_hash H data = c /\ extract ty data = Some n /\ git_hash H n = t
  | AResolved p t0 => exists n m, git_hash H n = t0 /\ resolve p n = Some m /\ git_hash H m = t
  | ACommit c => serve_says (QCommit c []) t
  | AFiles es => exists n, git_hash H n = t /\ has_files H es n
  end.
Proof.
  intros w rs g k t R K. apply happens_post in R as [G _]. apply (known_holds _ _ _ _ _ _ _ _ G) in K. split; [eapply holds_tree; eauto|].
  destruct k; cbn in K.
  - destruct K as (data & n & A & B & _ & D). eauto.
  - destruct K as (n & m & _ & A & B & _ & D). eauto.
  - apply K.
  - destruct K as (n & _ & A & B). eauto.
Qed.
(** The trees of present roots are there, as long as the run lasts. *)
Theorem C100_usable : forall w rs cfg t i id l, happens w rs -> In ((cfg, t), Ret (Root (Present i id l))) rs ->
  (forall r, t <> TTree r) -> exists m, has_node (odb_at w l) m /\ git_hash H m = id.
Proof.
  intros w rs cfg t i id l R I N. apply happens_post in R as [_ P]. specialize (P _ _ I). cbn [post snd] in P. destruct t as [r|r|r|r|r].
  - destruct P as (_ & -> & C & _). exact (archive_fact_node H extract resolve _ _ _ C).
  - now destruct (N r).
  - destruct P as (_ & _ & (t0 & m & (n & D & E & F) & T & _)). exists m. split; [eapply node_at; [apply D|exact F]|now symmetry].
  - destruct P as (_ & -> & (n & D & E & _) & _). exists n. split; [apply D|exact E].
  - destruct P as (_ & -> & (n & D & E & _) & _). exists n. split; [apply D|exact E].
Qed.
(** What is at hand is set up without contacting anybody. *)
Theorem C100_offline : forall w cfg t X (o : op X), wants_absent cfg t = false -> at_hand H cfg t w ->
  does H extract resolve serve_says (setup H (cfg, t)) w X o -> outside X o = false.
Proof. intros w cfg t X o. exact (at_hand_still H extract resolve serve_says cfg t w X o). Qed.

(** C101: no content is fetched for roots that are wanted absent. *)
Theorem C101_nothing_fetched : forall w rs cfg t X (o : op X) k, happens w rs -> In ((cfg, t), Do o k) rs -> wants_absent cfg t = true ->
  brings X o = false.
Proof.
  intros w rs cfg t X o k R I A.
  pose proof (reach_never H extract resolve serve_says brings (config * task) (setup H) (fun j => wants_absent (fst j) (snd j) = true)) as N.
  destruct (N (fun '(c, j) => absent_quiet H c j) w rs R _ _ I A) as [B _]. exact B.
Qed.
(** They are absent in the end, except for commits; and other roots are present. *)
Theorem C101_as_wanted_partial : forall w rs cfg t rt, happens w rs -> In ((cfg, t), Ret (Root rt)) rs ->
  (forall r, t <> TCommit r) \/ wants_absent cfg t = false ->
  match rt with Present _ _ _ => wants_absent cfg t = false | Absent _ _ => wants_absent cfg t = true end.
Proof.
  intros w rs cfg t rt R I C. apply happens_post in R as [_ P]. specialize (P _ _ I). cbn [post snd fst] in P.
  destruct t as [r|r|r|r|r]; destruct rt; cbn [wants_absent] in *; try tauto.
  destruct C as [C|C]; [now destruct (C r)|exact C].
Qed.

(** C102: the conversions noted for the compatible protocol name, as the compatible hash, the native one. *)
Theorem C102_noted_native : forall w rs a b, happens w rs -> In (a, b) (w_noted w) -> b = a.
Proof. intros w rs a b R. exact (noted_same H extract resolve serve_says w rs R a b). Qed.
(** So they are right only where there are none: if never a serve endpoint is used with the compatible protocol. *)
Theorem C102_conversions_partial : forall (H2 : string -> string) w rs, reach H extract resolve serve_says _ _ (fun j : {j : config * task | c_compat (fst j) && c_serve (fst j) = false} => setup H (proj1_sig j)) w rs ->
  forall a b, In (a, b) (w_noted w) -> exists data, a = blob_hash H data /\ b = H2 data.
Proof. intros H2 w rs R a b I. rewrite (none_noted H extract resolve serve_says w rs R) in I. destruct I. Qed.

(** C103: roots of distdirs and of single files have exactly the files described. *)
Theorem C103_distdir : forall w rs cfg d i id l, happens w rs -> In ((cfg, TDistdir d), Ret (Root (Present i id l))) rs ->
  i = false /\ l = Gen 0 /\ exists fs, has_dir (git_cache w) (FDir fs) /\ git_hash H (FDir fs) = id /\
  (forall x h, In (x, h) (d_entries d) -> exists data, blob_hash H data = h /\ alookup x fs = Some (FFile false data)) /\
  (forall x m, alookup x fs = Some m -> exists h, In (x, h) (d_entries d)).
Proof.
  intros w rs cfg d i id l R I. apply happens_post in R as [_ P]. specialize (P _ _ I). destruct P as (A & B & (n & C & E & (fs & -> & _ & F & G)) & _).
  split; [exact A|]. split; [exact B|]. exists fs. split; [exact C|]. split; [exact E|]. unfold distdir_key in F, G. split.
  - intros x h J. apply F. exact (in_map (fun p => (fst p, (snd p, false))) _ _ J).
  - intros x m J. destruct (G x m J) as (h & e & K). apply in_map_iff in K as ([y h'] & K & L). cbn in K. injection K as -> -> _. eauto.
Qed.
Theorem C103_single_file : forall w rs cfg f i id l, happens w rs -> In ((cfg, TForeign f), Ret (Root (Present i id l))) rs ->
  i = false /\ l = Gen 0 /\ exists data, blob_hash H data = a_content (f_archive f) /\
  has_dir (git_cache w) (FDir [(f_name f, FFile (f_exec f) data)]) /\ id = git_hash H (FDir [(f_name f, FFile (f_exec f) data)]).
Proof.
  intros w rs cfg f i id l R I. apply happens_post in R as [_ P]. specialize (P _ _ I). destruct P as (A & B & (n & C & E & (fs & -> & S & F & G)) & _).
  split; [exact A|]. split; [exact B|]. unfold foreign_key in F, G. destruct (F _ _ _ (or_introl eq_refl)) as (data & D & L).
  assert (fs = [(f_name f, FFile (f_exec f) data)]) as ->.
  { apply sorted_ext; [exact S|repeat constructor|]. intros x. cbn [alookup]. destruct (alookup x fs) as [m|] eqn:K.
    - destruct (G _ _ K) as (h & e & [J|[]]). injection J as <- _ _. rewrite String.eqb_refl. congruence.
    - destruct (String.eqb_spec x (f_name f)) as [->|N]; [congruence|reflexivity]. }
  exists data. auto.
Qed.
(** Present or absent, here or elsewhere: the root has the same id. *)
Definition root_id (rt : root) : string := match rt with Present _ t _ => t | Absent _ t => t end.
Theorem C103_same_everywhere : forall w1 rs1 w2 rs2 cfg1 cfg2 t1 t2 rt1 rt2 k, (forall s, String.length (H s) = 20) -> proper k ->
  happens w1 rs1 -> happens w2 rs2 -> In ((cfg1, t1), Ret (Root rt1)) rs1 -> In ((cfg2, t2), Ret (Root rt2)) rs2 ->
  files_of t1 k -> files_of t2 k -> root_id rt1 = root_id rt2.
Proof.
  intros w1 rs1 w2 rs2 cfg1 cfg2 t1 t2 rt1 rt2 k HL Pk R1 R2 I1 I2 K1 K2.
  assert (M : forall w rs cfg t rt, happens w rs -> In ((cfg, t), Ret (Root rt)) rs -> files_of t k -> memory_tree H k = Some (root_id rt)).
  { clear - HL Pk. intros w rs cfg t rt R I K. apply happens_post in R as [_ P]. specialize (P _ _ I). cbn [post snd fst] in P.
    assert (F : files_fact H (odb_at w (Gen 0)) k (root_id rt) -> memory_tree H k = Some (root_id rt)).
    { intros (n & _ & <- & N). now apply files_memory. }
    destruct t as [r|r|r|d|f]; try (exfalso; exact K).
    - apply distdir_files in K. subst k. destruct rt; cbn [root_id] in *; tauto.
    - change (k = foreign_key f) in K. subst k. destruct rt; cbn [root_id] in *; tauto. }
  assert (A := M _ _ _ _ _ R1 I1 K1). assert (B := M _ _ _ _ _ R2 I2 K2). congruence.
Qed.
End P.

(** ** What is not true *)

(** The subdirectory may be a file; then so is the root. *)
Theorem C97_directories_refuted : exists (H : string -> string) extract resolve serve_says w rs cfg r i t l,
  (forall s, String.length (H s) = 20) /\ unambiguous H (git_cache w) /\
  happens H extract resolve serve_says w rs /\ In ((cfg, TArchive r), Ret (Root (Present i t l))) rs /\ ~ has_tree H (git_cache w) t.
Proof.
  exists toy1, extract0, resolve0, nobody, after_zip, [((plain, TArchive subdir_archive), Ret (Root (Present false (git_hash toy1 (FFile false "x")) (Gen 0))))].
  exists plain, subdir_archive, false, (git_hash toy1 (FFile false "x")), (Gen 0).
  split; [exact toy1_length|]. split.
  { intros n n' (d & [<-|[]] & P) (d' & [<-|[]] & P') E D. destruct P as [<-|[<-|[]]]; [|discriminate]. destruct P' as [<-|[<-|[]]]; [reflexivity|].
    vm_compute in E. discriminate. }
  split.
  { apply archive_run; try reflexivity. exists plain_dir, (FFile false "x"). split; [|repeat split]. split; [|reflexivity]. exists plain_dir. split; now left. }
  split; [now left|]. intros (n & ((d & [<-|[]] & P) & D) & E). destruct P as [<-|[<-|[]]]; [vm_compute in E; discriminate|discriminate].
Qed.
(** A tree with an empty directory is reported as set up, although it is not in the Git cache. *)
Theorem C98_available_refuted : exists (H : string -> string) extract resolve serve_says w rs cfg r i t l,
  (forall s, String.length (H s) = 20) /\
  happens H extract resolve serve_says w rs /\ In ((cfg, TTree r), Ret (Root (Present i t l))) rs /\
  c_serve cfg = false /\ (exists n, is_dir n = true /\ git_hash H n = t_hash r) /\ ~ has_tree H (git_cache w) t.
Proof.
  exists toy1, extract0, resolve0, nobody, after_tree, [((with_remote, TTree pinned_tree), Ret (Root (Present false (git_hash toy1 hollow) (Gen 0))))].
  exists with_remote, pinned_tree, false, (git_hash toy1 hollow), (Gen 0).
  split; [exact toy1_length|]. split; [apply tree_run|]. split; [now left|]. split; [reflexivity|]. split; [exists hollow; split; reflexivity|exact tree_missing].
Qed.
(** A wrong answer of the serve endpoint is remembered: a later run without a serve endpoint uses it as well. *)
Theorem C99_refuted : exists (H : string -> string) extract resolve serve_says w rs cfg r i t l bytes t0,
  (forall s, String.length (H s) = 20) /\
  happens H extract resolve serve_says w rs /\ In ((cfg, TCommit r), Ret (Root (Present i t l))) rs /\ c_serve cfg = false /\
  commit_id H bytes = m_commit r /\ commit_tree bytes = Some t0 /\ m_subdir r = [] /\ t <> t0.
Proof.
  exists toy1, extract0, resolve0, serve0, after_commit, [((plain, TCommit pinned_commit), Ret (Root (Present false (git_hash toy1 plain_dir) (Gen 0))))].
  exists plain, pinned_commit, false, (git_hash toy1 plain_dir), (Gen 0), commit_bytes, (git_hash toy1 hollow).
  split; [exact toy1_length|]. split; [apply later_run|]. split; [now left|]. split; [reflexivity|]. split; [reflexivity|].
  split; [vm_compute; reflexivity|]. split; [reflexivity|]. vm_compute. discriminate.
Qed.
(** A commit wanted absent is present if it is found in an older generation. *)
Theorem C101_as_wanted_refuted : exists (H : string -> string) extract resolve serve_says w rs cfg r i t l,
  (forall s, String.length (H s) = 20) /\
  happens H extract resolve serve_says w rs /\ In ((cfg, TCommit r), Ret (Root (Present i t l))) rs /\ wants_absent cfg (TCommit r) = true.
Proof.
  exists toy1, extract0, resolve0, nobody, after_absent, [((plain, TCommit absent_commit), Ret (Root (Present false (git_hash toy1 plain_dir) (Gen 0))))].
  exists plain, absent_commit, false, (git_hash toy1 plain_dir), (Gen 0). split; [exact toy1_length|]. split; [apply absent_run|]. split; [now left|reflexivity].
Qed.
(** A conversion is noted that is none. *)
Theorem C102_conversions_refuted : exists (H H2 : string -> string) extract resolve serve_says w rs a b,
  (forall s, String.length (H s) = 20) /\ (forall s, String.length (H2 s) = 64) /\
  happens H extract resolve serve_says w rs /\ In (a, b) (w_noted w) /\ forall data, b <> H2 data.
Proof.
  exists toy1, toy2, extract0, resolve0, nobody, after_file, [((compat, TForeign one_file), Ret (Root (Present false (git_hash toy1 file_dir) (Gen 0))))].
  exists (blob_hash toy1 "zip"), (blob_hash toy1 "zip").
  assert (L2 : forall s, String.length (toy2 s) = 64) by (intros s; apply (toy2_hex s)).
  split; [exact toy1_length|]. split; [exact L2|]. split; [apply file_run|]. split; [now left|].
  intros data E. apply (f_equal String.length) in E. rewrite L2 in E. vm_compute in E. discriminate.
Qed.

(** ** Concrete cases *)
Lemma zip_root : happens toy1 extract0 resolve0 nobody after_zip [((plain, TArchive whole_archive), Ret (Root (Present false (git_hash toy1 plain_dir) (Gen 0))))].
Proof. apply archive_run; reflexivity. Qed.
Lemma zip_unambiguous : unambiguous toy1 (git_cache after_zip).
Proof.
  intros n n' (d & [<-|[]] & P) (d' & [<-|[]] & P') E D. destruct P as [<-|[<-|[]]]; [|discriminate]. destruct P' as [<-|[<-|[]]]; [reflexivity|].
  vm_compute in E. discriminate.
Qed.
Example C97_nonvacuous : exists data m, archive_describes toy1 extract0 resolve0 whole_archive data m /\ git_hash toy1 plain_dir = git_hash toy1 m /\ has_node (git_cache after_zip) m.
Proof. exact (proj2 (proj2 (C97_archive_roots _ _ _ _ _ _ _ _ _ _ _ zip_root (or_introl eq_refl) zip_unambiguous))). Qed.
Example C98_nonvacuous : t_hash pinned_tree = git_hash toy1 hollow.
Proof. destruct (C98_pinned _ _ _ _ _ _ _ _ _ (tree_run nobody) (or_introl eq_refl)) as (_ & E & _). now rewrite E. Qed.
Example C99_nonvacuous : exists m, git_hash toy1 plain_dir = git_hash toy1 m /\ commit_describes toy1 (m_commit absent_commit) [] m.
Proof. apply (C99_truthful_partial _ _ _ _ _ _ _ absent_commit _ _ _ fetch_run (or_introl eq_refl)). intros c t []. Qed.
Lemma zip_known : known (AArchive "archive" (blob_hash toy1 "zip")) (g_assoc (gen_at after_zip 0)) = Some (git_hash toy1 plain_dir).
Proof.
  change (known (AArchive "archive" (blob_hash toy1 "zip")) [(AArchive "archive" (blob_hash toy1 "zip"), git_hash toy1 plain_dir)] = Some (git_hash toy1 plain_dir)).
  cbn [known]. unfold key_eqb. now destruct akey_dec.
Qed.
Example C100_nonvacuous : has_tree toy1 (odb_at after_zip (Gen 0)) (git_hash toy1 plain_dir).
Proof. apply (C100_associations _ _ _ _ _ _ 0 (AArchive "archive" (blob_hash toy1 "zip")) _ zip_root). exact zip_known. Qed.
Example C100_at_hand : at_hand toy1 plain (TArchive whole_archive) after_zip.
Proof. left. exists 0. split; [cbn; lia|]. exists (git_hash toy1 plain_dir). exact zip_known. Qed.
Example C101_nonvacuous : wants_absent plain (TCommit absent_commit) = true /\ wants_absent fetch_all (TCommit absent_commit) = false.
Proof. split; reflexivity. Qed.
Example C103_nonvacuous : proper (foreign_key one_file) /\ memory_tree toy1 (foreign_key one_file) = Some (git_hash toy1 file_dir).
Proof.
  split; [|vm_compute; reflexivity]. split; [repeat constructor; cbn; tauto|]. intros x h e [E|[]]. injection E as <- _ _.
  repeat match goal with |- _ /\ _ => split | |- valid_name _ => unfold valid_name end;
    first [discriminate | reflexivity | (cbn; intuition discriminate) | (vm_compute; intuition discriminate)].
Qed.

Print Assumptions C97_archive_roots.
Print Assumptions C97_absent_roots.
Print Assumptions C97_reproducible.
Print Assumptions C97_no_collisions.
Print Assumptions C97_never_crashes.
Print Assumptions C97_directories_partial.
Print Assumptions C97_directories_refuted.
Print Assumptions C98_pinned.
Print Assumptions C98_available_partial.
Print Assumptions C98_available_refuted.
Print Assumptions C99_commit_roots.
Print Assumptions C99_truthful_partial.
Print Assumptions C99_absent_roots.
Print Assumptions C99_refuted.
Print Assumptions C100_associations.
Print Assumptions C100_usable.
Print Assumptions C100_offline.
Print Assumptions C101_nothing_fetched.
Print Assumptions C101_as_wanted_partial.
Print Assumptions C101_as_wanted_refuted.
Print Assumptions C102_noted_native.
Print Assumptions C102_conversions_partial.
Print Assumptions C102_conversions_refuted.
Print Assumptions C103_distdir.
Print Assumptions C103_single_file.
Print Assumptions C103_same_everywhere.
