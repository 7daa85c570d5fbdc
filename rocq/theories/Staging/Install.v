(** Putting one object somewhere; putting several there. *)
From Coq Require Import String Ascii List Bool NArith Arith Lia Sorted.
From Verif Require Import Common.Strs Hex.Model Describe.Model Executor.Wire Rehash.Directory Rehash.DirectoryProofs.
From Verif Require Import GitTree.Model Path.Model Rehash.Model Rehash.Spec Staging.FileSystem Staging.Spec Staging.Base Staging.Model.
Import ListNotations.
Local Open Scope string_scope.
Local Open Scope list_scope.

(** ** What is wanted, as a list *)
Definition leaf : Type := (path * object).
Definition of_list (L : list leaf) : wish := fun q o => In (q, o) L.

Lemma installed_ext W W' d d' : (forall q o, W q o <-> W' q o) -> installed W d d' -> installed W' d d'.
Proof.
  intros E [A B C]. constructor.
  - intros q o H. apply A. now apply E.
  - intros q (r & o & R & H). apply B. exists r, o. split; auto. now apply E.
  - intros q N. apply C. intros [(r & o & H)|(p & r & o & -> & H & D)]; apply N.
    + left. exists r, o. now apply E.
    + right. exists p, r, o. repeat split; auto. now apply E.
Qed.
Lemma unharmed_ext W W' d d' : (forall q o, W q o <-> W' q o) -> unharmed W d d' -> unharmed W' d d'.
Proof.
  intros E [B S C]. constructor.
  - intros q (r & o' & R & H). apply B. exists r, o'. split; auto. now apply E.
  - intros q o H. apply (S q o). now apply E.
  - intros q N. apply C. intros [(r & o & H)|(p & r & o & -> & H & D)]; apply N.
    + left. exists r, o. now apply E.
    + right. exists p, r, o. repeat split; auto. now apply E.
Qed.

Lemma prefix_app_iff q p : prefix q p <-> exists r, q ++ r = p.
Proof. split; intros [r E]; exists r; auto. Qed.
Lemma concerns_list L q : concerns (of_list L) q <->
  exists e, In e L /\ (prefix q (fst e) \/ (prefix (fst e) q /\ snd e <> ADirectory)).
Proof.
  unfold concerns, of_list. split.
  - intros [(r & o & H)|(p & r & o & -> & H & D)].
    + exists (q ++ r, o). split; auto. left. now exists r.
    + exists (p, o). split; auto. right. split; auto. now exists r.
  - intros ([p o] & H & [[r E]|[[r E] D]]); cbn [fst snd] in *.
    + left. exists r, o. now rewrite <- E.
    + right. exists p, r, o. auto.
Qed.
Lemma concerns_dec L q : concerns (of_list L) q \/ ~ concerns (of_list L) q.
Proof.
  destruct (Exists_dec (fun e : leaf => prefix q (fst e) \/ (prefix (fst e) q /\ snd e <> ADirectory)) L) as [E|E].
  - intros [p o]. destruct (prefix_dec q p); [left; auto|]. destruct (prefix_dec p q); [|right; intros [|[]]; auto].
    destruct o; [left; right; split; auto; discriminate|left; right; split; auto; discriminate|right; intros [|[_ D]]; auto].
  - left. apply concerns_list. now apply Exists_exists in E.
  - right. intros C. apply E. apply concerns_list in C. now apply Exists_exists.
Qed.

Definition separate (L1 L2 : list leaf) : Prop :=
  forall a b, In a L1 -> In b L2 -> ~ prefix (fst a) (fst b) /\ ~ prefix (fst b) (fst a).
Lemma installed_app L1 L2 d d1 d2 : installed (of_list L1) d d1 -> installed (of_list L2) d1 d2 -> separate L1 L2 ->
  installed (of_list (L1 ++ L2)) d d2.
Proof.
  intros [A1 B1 C1] [A2 B2 C2] S. constructor.
  - intros q o H. apply in_app_iff in H as [H|H]; auto. rewrite C2; [now apply A1|].
    intros C. apply concerns_list in C as ([p o'] & I & [C|[C _]]); destruct (S (q, o) (p, o') H I) as [X Y]; [now apply X|now apply Y].
  - intros q (r & o & R & H). apply in_app_iff in H as [H|H]; [|apply B2; now exists r, o].
    destruct (concerns_dec L2 q) as [C|C].
    + apply concerns_list in C as ([p o'] & I & [[s C]|[C _]]); cbn [fst] in C.
      * destruct s as [|x s]; [|apply B2; exists (x :: s), o'; split; [discriminate|now unfold of_list; rewrite <- C]].
        exfalso. rewrite app_nil_r in C. subst p. destruct (S _ _ H I) as [_ N]. apply N. now exists r.
      * exfalso. destruct (S _ _ H I) as [_ N]. apply N. cbn [fst]. eapply prefix_trans; [exact C|]. now exists r.
    + rewrite C2; auto. apply B1. now exists r, o.
  - intros q N. rewrite C2, C1; auto; intros C; apply N; apply concerns_list in C as (e & I & C); apply concerns_list; exists e; (split; [apply in_app_iff; auto|auto]).
Qed.
Lemma installed_nil d : installed (of_list []) d d.
Proof. constructor; auto; [intros q o []|intros q (r & o & _ & [])]. Qed.

Lemma unharmed_refl W d : unharmed W d d.
Proof. constructor; auto. Qed.
Lemma unharmed_trans W d d1 d2 : unharmed W d d1 -> unharmed W d1 d2 -> unharmed W d d2.
Proof.
  intros [A S B] [A' S' B']. constructor; [| |intros q N; rewrite B', B; auto].
  - intros q W'. destruct (A q W') as [E|[E1 E2]], (A' q W') as [E'|[E3 E4]]; [left|right; split|right; split|right; split]; congruence.
  - intros q o H N L. eauto.
Qed.
Lemma unharmed_installed W d d1 d2 : unharmed W d d1 -> installed W d1 d2 -> installed W d d2.
Proof. intros [A S B] [A' B' C']. constructor; auto. intros q N. rewrite C', B; auto. Qed.

(** No path below another one. *)
Definition free (L : list leaf) : Prop := ForallOrdPairs (fun a b => ~ prefix (fst a) (fst b) /\ ~ prefix (fst b) (fst a)) L.
Lemma free_app L1 L2 : free (L1 ++ L2) <-> free L1 /\ free L2 /\ separate L1 L2.
Proof.
  unfold free. induction L1 as [|a L1 IH]; cbn [app].
  - split; [|tauto]. intros F. split; [constructor|]. split; [exact F|]. intros a b [].
  - split.
    + intros F. inversion F as [|? ? F1 F2]; subst. apply IH in F2 as (X & Y & Z). rewrite Forall_app in F1. destruct F1 as [F0 F1].
      split; [constructor; auto|]. split; auto. intros b c [->|B] C; [|now apply Z]. rewrite Forall_forall in F1. now apply F1.
    + intros (X & Y & Z). inversion X as [|? ? F1 F2]; subst. constructor.
      * apply Forall_app. split; auto. apply Forall_forall. intros c C. apply Z; auto. now left.
      * apply IH. split; [exact F2|]. split; [exact Y|]. intros b c B C. apply Z; auto. now right.
Qed.
Lemma free_cf L a b : free L -> In a L -> In b L -> prefix (fst a) (fst b) -> a = b.
Proof.
  intros F. induction F as [|c L F1 F2 IH]; [intros []|]. rewrite Forall_forall in F1. intros [->|A] [->|B] P; auto.
  - now apply F1 in B.
  - apply F1 in A. tauto.
Qed.

(** ** One object *)
Lemma removelast_snoc {A} (p : list A) x : removelast (p ++ [x]) = p.
Proof. apply removelast_last. Qed.
Lemma snoc_inv {A} (p : list A) : p <> [] -> exists q x, p = q ++ [x].
Proof. intros N. destruct (exists_last N) as (q & x & E). now exists q, x. Qed.
Lemma prefix_snoc q p x : prefix q (p ++ [x]) <-> prefix q p \/ q = p ++ [x].
Proof.
  split.
  - intros [r E]. destruct r as [|y r] using rev_ind; [right; now rewrite app_nil_r in E|]. left.
    rewrite app_assoc in E. apply app_inj_tail in E as [-> _]. now exists r.
  - intros [[r ->]| ->]; [exists (r ++ [x]); now rewrite app_assoc|apply prefix_refl].
Qed.

(** What the operations for a path leave alone. *)
Record framed (p : path) (d d' : fnode) : Prop := {
  f_rest : forall q, ~ prefix q p -> ~ prefix p q -> look d' q = look d q;
  f_way : forall q, prefix q p -> q <> p -> look d' q = look d q \/ (look d q = None /\ look d' q = Some ADirectory);
  f_self : look d' p = Some ADirectory -> look d p = Some ADirectory
}.
Definition framed_result (p : path) (d : fnode) (r : result) : Prop :=
  match r with Done d' | Fails d' => framed p d d' | Elsewhere => True end.
Lemma framed_refl p d : framed p d d.
Proof. constructor; auto. Qed.
Lemma framed_trans p d d1 d2 : framed p d d1 -> framed p d1 d2 -> framed p d d2.
Proof.
  intros [A B S] [A' B' S']. constructor; auto; [intros q N M; rewrite A', A; auto|].
  intros q P N. destruct (B q P N) as [E|[E1 E2]], (B' q P N) as [E'|[E3 E4]]; [left|right; split|right; split|right; split]; congruence.
Qed.
Lemma framed_andthen p d r f : framed_result p d r -> (forall d', framed_result p d' (f d')) -> framed_result p d (andthen r f).
Proof.
  intros R F. destruct r as [d'|d'|]; auto. cbn. specialize (F d'). cbn in R. destruct (f d') as [e|e|]; cbn in *; auto; eapply framed_trans; eauto.
Qed.
Definition puts_no_dir (f : option fnode -> effect) : Prop := forall m n, f m = Put n -> object_of n <> ADirectory.
Lemma act_framed f p d : puts_no_dir f -> framed_result p d (act f p d).
Proof.
  intros PN. destruct (act f p d) as [d'|d'|] eqn:E; cbn; auto.
  - apply act_look in E as (_ & A & E). constructor; auto.
    + intros q P N. left. rewrite E; auto. intros P'. apply N. now apply prefix_antisym.
    + rewrite !look_at, A. destruct (f (node_at d p)) as [n| | |] eqn:F; cbn; auto; [|discriminate]. intros X. apply PN in F. congruence.
  - apply act_fails in E. subst. apply framed_refl.
Qed.
Lemma mkdirs_old p : forall d d' q o, mkdirs p d = Done d' -> prefix q p -> look d q = Some o -> o = ADirectory.
Proof.
  induction p as [|x p IH]; intros d d' q o E P L; cbn in E.
  - destruct P as [r P]. symmetry in P. apply app_eq_nil in P as [-> _]. destruct d; try discriminate. rewrite look_nil in L. now injection L.
  - destruct d as [| |es]; try discriminate. destruct q as [|y q]; [rewrite look_nil in L; now injection L|]. destruct P as [r P]. injection P as -> ->.
    destruct (plainb y); [|discriminate]. rewrite look_dir in L. destruct (alookup y es) as [c|]; [|discriminate].
    destruct (mkdirs _ c) eqn:M; try discriminate. eapply IH; eauto. now exists r.
Qed.
Lemma mkdirs_framed p d : framed_result p d (CreateDirectory (parent p) d).
Proof.
  unfold CreateDirectory. destruct (mkdirs (parent p) d) as [d'|d'|] eqn:E; cbn; auto; [|apply mkdirs_fails in E; subst; apply framed_refl].
  assert (K : forall q, prefix q (parent p) -> prefix q p).
  { intros q P. destruct p as [|x p] using rev_ind; auto. unfold parent in P. rewrite removelast_snoc in P. apply prefix_snoc. now left. }
  constructor.
  - intros q N _. rewrite (mkdirs_look _ _ _ E). destruct (prefixb q (parent p)) eqn:P; auto. apply prefixb_iff in P. elim N; auto.
  - intros q P N. rewrite (mkdirs_look _ _ _ E). destruct (prefixb q (parent p)) eqn:B; auto. apply prefixb_iff in B.
    destruct (look d q) as [o|] eqn:L; auto. left. f_equal. symmetry. eapply mkdirs_old; eauto.
  - rewrite (mkdirs_look _ _ _ E). destruct (prefixb p (parent p)) eqn:B; auto. intros _. apply prefixb_iff in B.
    destruct p as [|x p] using rev_ind; [destruct d; try discriminate; reflexivity|]. exfalso. unfold parent in B. rewrite removelast_snoc in B.
    destruct B as [r B]. rewrite <- app_assoc in B. rewrite <- (app_nil_r p) in B at 1. apply app_inv_head in B. discriminate.
Qed.
Lemma remove_nodir : puts_no_dir (fun o => match o with None => Kept | Some (FDir _) => Refused | Some _ => Gone end).
Proof. intros [[]|] n; discriminate. Qed.
Lemma remove_existing_nodir : puts_no_dir (fun o => match o with None => Kept | Some (FDir (_ :: _)) => Refused | Some _ => Gone end).
Proof. intros [[| |[]]|] n; discriminate. Qed.
Lemma copy_nodir x data : puts_no_dir (fun o => match o with None | Some (FFile _ _) => Put (FFile x data) | Some _ => Refused end).
Proof. intros [[]|] n E; try discriminate; injection E as <-; discriminate. Qed.
Lemma perm_nodir x : puts_no_dir (fun o => match o with Some (FFile _ data) => Put (FFile x data) | _ => Refused end).
Proof. intros [[]|] n E; try discriminate; injection E as <-; discriminate. Qed.
Lemma hard_nodir x data : puts_no_dir (fun o => match o with None => Put (FFile x data) | Some _ => Refused end).
Proof. intros [[]|] n E; try discriminate; injection E as <-; discriminate. Qed.
Lemma link_nodir target : puts_no_dir (fun o => match o with
  | None => if String.eqb (c_string target) "" then Refused else Put (FLink (c_string target)) | Some _ => Refused end).
Proof. intros [[]|] n E; try discriminate. destruct (String.eqb _ _); [discriminate|]. injection E as <-. discriminate. Qed.
#[local] Hint Resolve remove_nodir remove_existing_nodir copy_nodir perm_nodir hard_nodir link_nodir : nodir.
Lemma parent_framed p d : framed_result p d (CreateDirectory (parent p) d).
Proof. apply mkdirs_framed. Qed.

(** What the operations for a path make of it. *)
Definition makes (p : path) (o : object) (d : fnode) (r : result) : Prop := forall d', r = Done d' -> look d' p = Some o.
Lemma makes_andthen p o d r f : (forall d', r = Done d' -> makes p o d' (f d')) -> makes p o d (andthen r f).
Proof. intros F d' E. destruct r as [e|e|]; cbn in E; try discriminate. eapply F; eauto. Qed.

Lemma act_makes f p o d : (forall m, match f m with Put n => object_of n = o | Refused => True | _ => False end) -> makes p o d (act f p d).
Proof.
  intros F d' E. apply act_look in E as (N & A & _). specialize (F (node_at d p)). rewrite look_at, A.
  destruct (f (node_at d p)); try contradiction; cbn; now rewrite F.
Qed.
Lemma perm_makes x data p d : look d p = Some (AFile x data) -> forall x', makes p (AFile x' data) d (SetFilePermissions p x' d).
Proof.
  intros L x' d' E. apply act_look in E as (N & A & _). rewrite look_at, A. rewrite look_at in L.
  destruct (node_at d p) as [[y s| |]|]; cbn in *; try discriminate. congruence.
Qed.

(** With the directory for it. *)
Lemma one_installed p o d d' : p <> [] -> o <> ADirectory -> framed p d d' -> look d' p = Some o -> installed (of_list [(p, o)]) d d'.
Proof.
  intros N D [R W Sf] L. constructor.
  - intros q o' [E|[]]. now injection E as <- <-.
  - intros q (r & o' & Nr & [E|[]]). injection E as -> _. apply (look_up d' q r o); auto.
  - intros q C. apply R; intros P; apply C, concerns_list; exists (p, o); (split; [now left|]); auto.
Qed.

Definition claims (blob : otype -> string -> option string) (i : oinfo) (o : object) : Prop :=
  match o with
  | AFile x data => fst i = (if x then Executable else File) /\ forall s, blob (fst i) (snd i) = Some s -> s = data
  | ALink t => fst i = Symlink /\ (t <> "" /\ contains_nul t = false) /\ forall s, blob (fst i) (snd i) = Some s -> s = t
  | ADirectory => fst i = Tree
  end.

Lemma c_string_id s : contains_nul s = false -> c_string s = s.
Proof.
  induction s as [|c s IH]; cbn; auto. intros E. apply orb_false_iff in E as [E1 E2]. now rewrite E1, IH.
Qed.
Lemma link_makes t p d : contains_nul t = false -> makes p (ALink t) d (CreateSymlink t p d).
Proof.
  intros N. unfold CreateSymlink. apply makes_andthen. intros d1 _. apply makes_andthen. intros d2 _. apply act_makes.
  intros [m|]; auto. rewrite c_string_id; auto. now destruct (String.eqb t "").
Qed.
Lemma link_framed t p d : framed_result p d (CreateSymlink t p d).
Proof.
  unfold CreateSymlink. apply framed_andthen; [apply parent_framed|]. intros d1. apply framed_andthen; [apply act_framed; auto with nodir|]. intros d2. apply act_framed; auto with nodir.
Qed.

Section Storage.
Variable blob : string -> bool -> option string.
Let sblob (t : otype) (h : string) : option string := blob h (IsExecutableObject t).

Lemma file_makes x data p d : makes p (AFile x data) d (andthen (CopyFile x data p d) (SetFilePermissions p x)).
Proof.
  apply makes_andthen. intros d1 E. apply (perm_makes x). revert E. unfold CopyFile. intros E.
  assert (M : makes p (AFile x data) d (andthen (RemoveFile p d) (copy_file x data p))).
  { apply makes_andthen. intros d2 _. apply act_makes. intros [[]|]; cbn; auto. }
  now apply M.
Qed.
Lemma write_makes x data p d : makes p (AFile x data) d (andthen (WriteFile data p d) (SetFilePermissions p x)).
Proof.
  apply makes_andthen. intros d1 E. apply (perm_makes false). revert E. unfold WriteFile. intros E.
  assert (M : makes p (AFile false data) d (andthen (CreateDirectory (parent p) d) (fun d => andthen (RemoveFile p d) (copy_file false data p)))).
  { apply makes_andthen. intros d2 _. apply makes_andthen. intros d3 _. apply act_makes. intros [[]|]; cbn; auto. }
  now apply M.
Qed.
Lemma copy_as_framed t x data p d : framed_result p d (CopyFileAs t x data p d).
Proof.
  destruct t; cbn [CopyFileAs]; try apply framed_refl.
  - apply framed_andthen; [apply framed_andthen; [apply act_framed; auto with nodir|intros; apply act_framed; auto with nodir]|intros; apply act_framed; auto with nodir].
  - apply framed_andthen; [apply framed_andthen; [apply act_framed; auto with nodir|intros; apply act_framed; auto with nodir]|intros; apply act_framed; auto with nodir].
  - apply framed_andthen; [apply act_framed; auto with nodir|]. intros. apply link_framed.
Qed.
Lemma write_as_framed t data p d : framed_result p d (WriteFileAs t data p d).
Proof.
  assert (W : framed_result p d (WriteFile data p d)).
  { apply framed_andthen; [apply parent_framed|]. intros d1. apply framed_andthen; [apply act_framed; auto with nodir|]. intros; apply act_framed; auto with nodir. }
  destruct t; cbn [WriteFileAs]; try apply framed_refl; try (apply framed_andthen; [exact W|intros; apply act_framed; auto with nodir]). apply link_framed.
Qed.

Lemma copy_as_makes i o data p d : claims sblob i o -> sblob (fst i) (snd i) = Some data ->
  makes p o d (CopyFileAs (fst i) (IsExecutableObject (fst i)) data p d).
Proof.
  intros C B. destruct o as [x s|t|]; cbn [claims] in C.
  - destruct C as [T C]. apply C in B. subst data. rewrite T. destruct x; cbn [CopyFileAs IsExecutableObject otype_eqb]; apply file_makes.
  - destruct C as (T & [_ N] & C). apply C in B. subst data. rewrite T. cbn [CopyFileAs]. unfold CopySymlinkAs. apply makes_andthen.
    intros d1 _. now apply link_makes.
  - rewrite C. intros d' E. discriminate E.
Qed.

Lemma done_framed p d r d' : framed_result p d r -> r = Done d' -> framed p d d'.
Proof. intros F ->. exact F. Qed.

Lemma act_nonroot f p d d' : act f p d = Done d' -> p <> [].
Proof. destruct p; discriminate. Qed.

Lemma blob_framed i p d : framed_result p d (StageBlobTo blob i p d).
Proof.
  unfold StageBlobTo. destruct (IsTreeObject (fst i)); [apply framed_refl|]. destruct (blob _ _) as [data|]; [|apply framed_refl].
  apply framed_andthen; [apply parent_framed|]. intros d1. apply copy_as_framed.
Qed.
Lemma andthen_done r f d' : andthen r f = Done d' -> exists d1, r = Done d1 /\ f d1 = Done d'.
Proof. destruct r; cbn; try discriminate. eauto. Qed.
Lemma link_nonroot t p d d' : CreateSymlink t p d = Done d' -> p <> [].
Proof. intros E. apply andthen_done in E as (d1 & _ & E). apply andthen_done in E as (d2 & E & _). eapply act_nonroot; eauto. Qed.
Lemma copy_as_nonroot t x data p d d' : CopyFileAs t x data p d = Done d' -> p <> [].
Proof.
  destruct t; cbn [CopyFileAs]; intros E; try discriminate; apply andthen_done in E as (d1 & E1 & E); try (eapply act_nonroot; eauto; fail).
Qed.
Lemma write_as_nonroot t data p d d' : WriteFileAs t data p d = Done d' -> p <> [].
Proof.
  destruct t; cbn [WriteFileAs]; intros E; try discriminate; try (eapply link_nonroot; eauto; fail);
    apply andthen_done in E as (d1 & E1 & E); eapply act_nonroot; eauto.
Qed.
Lemma blob_installed i o p d d' : claims sblob i o -> o <> ADirectory -> StageBlobTo blob i p d = Done d' ->
  installed (of_list [(p, o)]) d d'.
Proof.
  intros C D E. pose proof (done_framed _ _ _ _ (blob_framed i p d) E) as F. unfold StageBlobTo in E.
  destruct (IsTreeObject (fst i)); [discriminate|]. destruct (blob _ _) as [data|] eqn:B; [|discriminate].
  apply andthen_done in E as (d1 & E1 & E). apply one_installed; auto; [eapply copy_as_nonroot; eauto|]. eapply copy_as_makes; eauto.
Qed.
End Storage.
