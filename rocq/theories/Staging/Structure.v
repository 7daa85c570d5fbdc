(** The directory in which an action is run. *)
From Coq Require Import String Ascii List Bool NArith Arith Lia.
From Verif Require Import Common.Strs Hex.Model Describe.Model Executor.Wire Rehash.Directory Rehash.DirectoryProofs.
From Verif Require Import GitTree.Model Path.Model Rehash.Model Rehash.Spec Staging.FileSystem Staging.Model Staging.Spec.
From Verif Require Import Staging.Base Staging.Install Staging.Leafs Staging.Retrieve Staging.Inputs.
Import ListNotations.
Local Open Scope string_scope.
Local Open Scope list_scope.

Definition for_outputs (cwd : path) (o : outputs_of_request) : path -> Prop :=
  match o with Paths ps => for_paths cwd ps | FilesAndDirs fs ds => for_files_and_dirs cwd fs ds end.

Lemma create_all_look l : forall d d', ordered d -> create_all l d = Done d' -> ordered d' /\
  (forall q p, In p l -> prefix q p -> look d' q = Some ADirectory) /\
  (forall q, (forall p, In p l -> ~ prefix q p) -> look d' q = look d q) /\
  (forall q p o, In p l -> prefix q p -> look d q = Some o -> o = ADirectory).
Proof.
  induction l as [|p l IH]; intros d d' O E; cbn [create_all] in E.
  { injection E as <-. split; auto. split; [intros ? ? []|]. split; auto. intros ? ? ? []. }
  apply andthen_done in E as (d1 & E1 & E). pose proof (mkdirs_look _ _ _ E1) as L1.
  destruct (IH d1 d' (mkdirs_ordered _ _ _ O E1) E) as (O' & A & B & C). split; auto. split; [|split].
  - intros q p' [->|I] P; [|eauto]. destruct (look d' q) as [o|] eqn:Eq.
    + f_equal. destruct (prefixb q p') eqn:Pb; [|apply prefixb_iff in P; congruence].
      assert (L : look d1 q = Some ADirectory) by now rewrite L1, Pb.
      (* what is a directory stays one *)
      destruct (existsb (prefixb q) l) eqn:X.
      * apply existsb_exists in X as (p2 & I2 & P2). apply prefixb_iff in P2. rewrite (A q p2 I2 P2) in Eq. congruence.
      * rewrite B in Eq; [congruence|]. intros p2 I2 P2. apply prefixb_iff in P2. assert (existsb (prefixb q) l = true) by (apply existsb_exists; eauto). congruence.
    + exfalso. destruct (existsb (prefixb q) l) eqn:X.
      * apply existsb_exists in X as (p2 & I2 & P2). apply prefixb_iff in P2. rewrite (A q p2 I2 P2) in Eq. congruence.
      * rewrite B, L1 in Eq; [destruct (prefixb q p') eqn:Pb; [discriminate|apply prefixb_iff in P; congruence]|].
        intros p2 I2 P2. apply prefixb_iff in P2. assert (existsb (prefixb q) l = true) by (apply existsb_exists; eauto). congruence.
  - intros q N. rewrite B; [|intros p' I; apply N; now right]. rewrite L1. destruct (prefixb q p) eqn:Pb; auto. apply prefixb_iff in Pb. exfalso. eapply N; eauto. now left.
  - intros q p' o [->|I] P L; [eapply mkdirs_old; eauto|]. destruct (prefixb q p) eqn:Pb.
    + apply prefixb_iff in Pb. eapply mkdirs_old; eauto.
    + eapply (C q p' o I P). now rewrite L1, Pb.
Qed.
Lemma create_all_ok l : forall d, is_dir d = true -> ordered d -> (forall p, In p l -> plain_path p) ->
  (forall q p, In p l -> prefix q p -> look d q = None \/ look d q = Some ADirectory) -> exists d', create_all l d = Done d'.
Proof.
  induction l as [|p l IH]; intros d D O P K; cbn [create_all]; [eauto|].
  destruct (mkdirs_ok p d D (P p (or_introl eq_refl))) as [d1 E1]; [intros q Q; eapply K; eauto; now left|].
  unfold CreateDirectory. rewrite E1. cbn [andthen]. pose proof (mkdirs_look _ _ _ E1) as L1. apply IH.
  - specialize (L1 []). rewrite look_nil in L1. cbn in L1. destruct d1; try discriminate; reflexivity.
  - eapply mkdirs_ordered; eauto.
  - intros p' I. apply P. now right.
  - intros q p' I Q. rewrite L1. destruct (prefixb q p); auto. eapply K; eauto. now right.
Qed.
Lemma create_all_inside l : forall d, (forall p, In p l -> plain_path p) ->
  (forall q p t, In p l -> prefix q p -> look d q <> Some (ALink t)) -> create_all l d <> Elsewhere.
Proof.
  induction l as [|p l IH]; intros d P K; cbn [create_all]; [discriminate|].
  assert (X : mkdirs p d <> Elsewhere) by (apply mkdirs_inside; [apply P; now left|intros q Q t; eapply K; eauto; now left]).
  unfold CreateDirectory. destruct (mkdirs p d) as [d1| |] eqn:E1; cbn [andthen]; try congruence. pose proof (mkdirs_look _ _ _ E1) as L1.
  apply IH; [intros p' I; apply P; now right|]. intros q p' t I Q. rewrite L1. destruct (prefixb q p); [discriminate|]. eapply K; eauto. now right.
Qed.

Lemma leads_parent p q : p <> [] -> (prefix q (parent p) <-> leads_to p q).
Proof.
  intros N. destruct p as [|x p] using rev_ind; [congruence|]. clear IHp. unfold parent. rewrite removelast_snoc. split.
  - intros [r ->]. exists (r ++ [x]). split; [now destruct r|now rewrite app_assoc].
  - intros (r & Nr & E). destruct r as [|y r] using rev_ind; [congruence|]. rewrite app_assoc in E. apply app_inj_tail in E as [-> ->]. now exists r.
Qed.
(** The root is a directory anyway. *)
Lemma outputs_iff cwd o q : q <> [] -> (for_outputs cwd o q <-> exists p, In p (output_dirs cwd o) /\ prefix q p).
Proof.
  intros N.
  assert (X : forall ps, for_paths cwd ps q <-> exists p, In p (map (fun p => parent (cwd ++ p)) ps) /\ prefix q p).
  { intros ps. split.
    - intros (p & I & L). exists (parent (cwd ++ p)). split; [now apply (in_map (fun p => parent (cwd ++ p)))|]. apply leads_parent; auto. destruct L as (r & Nr & ->). now destruct q.
    - intros (p' & I & P). apply in_map_iff in I as (p & <- & I). exists p. split; auto. apply leads_parent; auto. intros E. rewrite E in P. destruct P as [r P].
      symmetry in P. now apply app_eq_nil in P as [-> _]. }
  destruct o as [ps|fs ds]; cbn [for_outputs output_dirs]; [apply X|]. unfold for_files_and_dirs. rewrite X. split.
  - intros [(p & I & P)|(p & I & P)]; [exists p|exists (cwd ++ p)]; split; auto; apply in_or_app; [now left|right; now apply (in_map (fun p => cwd ++ p))].
  - intros (p & I & P). apply in_app_or in I as [I|I]; [left; eauto|]. apply in_map_iff in I as (p' & <- & I). eauto.
Qed.
Lemma outputs_dec cwd o q : for_outputs cwd o q \/ ~ for_outputs cwd o q.
Proof.
  assert (D : forall p q : path, prefix q p \/ ~ prefix q p).
  { intros p q'. destruct (prefixb q' p) eqn:B; [left; now apply prefixb_iff|right; intros P; apply prefixb_iff in P; congruence]. }
  assert (X : forall (l : list path) (R : path -> Prop), (forall p, R p \/ ~ R p) -> (exists p, In p l /\ R p) \/ ~ exists p, In p l /\ R p).
  { intros l R DR. induction l as [|p l [IH|IH]]; [right; intros (? & [] & _)| |].
    - left. destruct IH as (p' & I & P). exists p'. split; auto. now right.
    - destruct (DR p) as [Y|Y]; [left; exists p; split; auto; now left|]. right. intros (p' & [->|I] & P); [tauto|]. apply IH. eauto. }
  assert (L : forall p q : path, leads_to p q \/ ~ leads_to p q).
  { intros p q'. destruct (list_eq_dec string_dec p q') as [->|N].
    - right. intros (r & Nr & E). apply Nr. rewrite <- (app_nil_r q') in E at 1. now apply app_inv_head in E.
    - destruct (D p q') as [[r ->]|Y]; [left; exists r; split; auto; intros ->; now rewrite app_nil_r in N|]. right. intros (r & _ & ->). apply Y. now exists r. }
  destruct o as [ps|fs ds]; cbn [for_outputs]; [apply X; intros; apply L|]. unfold for_files_and_dirs.
  destruct (X fs (fun p => leads_to (cwd ++ p) q) (fun p => L _ _)) as [Y|Y]; [left; now left|].
  destruct (X ds (fun p => prefix q (cwd ++ p)) (fun p => D _ _)) as [Z|Z]; [left; now right|]. right. intros [A|A]; auto.
Qed.
Lemma plain_app p q : plain_path (p ++ q) -> plain_path p.
Proof. intros P. now apply Forall_app in P as [P _]. Qed.

Definition request_paths (o : outputs_of_request) : list path := match o with Paths ps => ps | FilesAndDirs fs ds => fs ++ ds end.
Lemma dirs_plain cwd o : plain_path cwd -> Forall plain_path (request_paths o) -> forall p, In p (output_dirs cwd o) -> plain_path p.
Proof.
  intros C F p I. rewrite Forall_forall in F.
  assert (X : forall p, plain_path p -> plain_path (cwd ++ p)) by (intros p' P; apply Forall_app; auto).
  destruct o as [ps|fs ds]; cbn [output_dirs request_paths] in *.
  - apply in_map_iff in I as (p' & <- & I). now apply plain_parent, X, F.
  - apply in_app_or in I as [I|I]; apply in_map_iff in I as (p' & <- & I); [apply plain_parent|]; apply X, F, in_or_app; auto.
Qed.

Section Structure.
Variable read : string -> option (list (string * oinfo)).
Variable blob : string -> bool -> option string.
Variable too_many : copies -> path -> bool.
Notation sblob := (fun t h => blob h (IsExecutableObject t)).
Variables (root : string) (f : fnode).
Hypothesis O : ordered f.
Hypothesis K : linkable f.
Hypothesis D : is_dir f = true.
Hypothesis Sy : says read sblob f (Tree, root).

Lemma structure_exact fuel cwd o d : CreateDirectoryStructure read blob too_many fuel root cwd o = Done d ->
  (forall q, for_outputs cwd o q -> look d q = Some ADirectory) /\ (forall q, ~ for_outputs cwd o q -> look d q = look f q) /\
  (forall q x, for_outputs cwd o q -> look f q = Some x -> x = ADirectory).
Proof.
  intros E. apply andthen_done in E as (d1 & E1 & E). apply (inputs_exact read blob too_many root f O K D Sy) in E1. subst d1.
  destruct (create_all_look _ _ _ O E) as (O' & A & B & C).
  assert (Rf : look f [] = Some ADirectory) by (rewrite look_nil; now destruct f).
  assert (Rd : look d [] = Some ADirectory).
  { destruct (output_dirs cwd o) as [|p l] eqn:Ed; [cbn in E; now injection E as <-|]. apply (A [] p); [now left|now exists p]. }
  split; [|split]; intros q.
  - intros F. destruct q as [|x q]; [exact Rd|]. apply outputs_iff in F as (p & I & P); [eauto|discriminate].
  - intros F. destruct q as [|x q]; [congruence|]. apply B. intros p I P. apply F. apply outputs_iff; [discriminate|]. eauto.
  - intros x F L. destruct q as [|y q]; [congruence|]. apply outputs_iff in F as (p & I & P); [eauto|discriminate].
Qed.
Lemma structure_succeeds cwd o : plain f -> plain_path cwd -> Forall plain_path (request_paths o) ->
  (forall q, for_outputs cwd o q -> forall t, look f q <> Some (ALink t)) ->
  (forall fuel, CreateDirectoryStructure read blob too_many fuel root cwd o <> Elsewhere) /\
  (there read sblob f (Tree, root) -> (forall q, for_outputs cwd o q -> look f q = None \/ look f q = Some ADirectory) ->
   exists n, forall fuel, (n <= fuel)%nat -> exists d, CreateDirectoryStructure read blob too_many fuel root cwd o = Done d).
Proof.
  intros P C F NL. destruct (inputs_succeed read blob too_many root f O K D Sy P) as [A B].
  assert (Rf : look f [] = Some ADirectory) by (rewrite look_nil; now destruct f).
  split.
  - intros fuel. unfold CreateDirectoryStructure. specialize (A fuel). destruct (StageInputs read blob too_many fuel root (FDir [])) as [d1| |] eqn:E1; cbn [andthen]; try congruence.
    apply (inputs_exact read blob too_many root f O K D Sy) in E1. subst d1. apply create_all_inside; [now apply dirs_plain|].
    intros q p t I Q. destruct q as [|x q]; [congruence|]. apply NL, outputs_iff; [discriminate|eauto].
  - intros T R. destruct (B T) as [n H]. exists n. intros fuel L. unfold CreateDirectoryStructure. rewrite (H fuel L). cbn [andthen].
    apply create_all_ok; auto; [now apply dirs_plain|]. intros q p I Q. destruct q as [|x q]; [now right|]. apply R, outputs_iff; [discriminate|eauto].
Qed.
End Structure.
