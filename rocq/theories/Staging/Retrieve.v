(** [StageTo] and [RetrieveToPaths]. *)
From Coq Require Import String Ascii List Bool NArith Arith Lia Sorted.
From Verif Require Import Common.Strs Hex.Model Describe.Model Executor.Wire Rehash.Directory Rehash.DirectoryProofs.
From Verif Require Import GitTree.Model Path.Model Rehash.Model Rehash.Spec Staging.FileSystem Staging.Spec Staging.Base Staging.Model Staging.Install Staging.Leafs.
Import ListNotations.
Local Open Scope string_scope.
Local Open Scope list_scope.

(** ** When operations succeed *)
Lemma mkdirs_ok p : forall d, is_dir d = true -> plain_path p ->
  (forall q, prefix q p -> look d q = None \/ look d q = Some ADirectory) -> exists d', mkdirs p d = Done d'.
Proof.
  induction p as [|x p IH]; intros d D P K; cbn [mkdirs]; destruct d as [| |es]; try discriminate; eauto.
  inversion P as [|? ? P1 P2]; subst. rewrite P1.
  destruct (IH (match alookup x es with Some c => c | None => FDir [] end)) as [c E]; auto.
  - destruct (alookup x es) as [c|] eqn:A; auto. destruct (K [x]) as [L|L]; [now exists p| |]; rewrite look_dir, A, look_nil in L; [discriminate|].
    destruct c; try discriminate; auto.
  - intros q Q. destruct (alookup x es) as [c|] eqn:A.
    + specialize (K (x :: q)). rewrite look_dir, A in K. apply K. now apply prefix_cons.
    + destruct q; [now right|now left].
  - rewrite E. eauto.
Qed.
Definition ready (p : path) (d : fnode) : Prop := p <> [] /\ plain_path p /\ look d (parent p) = Some ADirectory.
Lemma ready_act f p : forall d, ready p d -> f (node_at d p) <> Refused -> exists d', act f p d = Done d'.
Proof.
  induction p as [|x p IH]; intros d (N & P & L) F; [congruence|]. inversion P as [|? ? P1 P2]; subst. cbn [act].
  destruct d as [| |es]; [destruct p; discriminate L|destruct p; discriminate L|]. rewrite P1. destruct p as [|y p].
  - cbn [node_at] in F. destruct (alookup x es) as [c|]; destruct (f _); eauto; congruence.
  - change (parent (x :: y :: p)) with (x :: parent (y :: p)) in L. rewrite look_dir in L. destruct (alookup x es) as [c|] eqn:A; [|discriminate].
    destruct (IH c) as [c' E]; [repeat split; auto; discriminate| |rewrite E; eauto].
    cbn [node_at] in F. rewrite A in F. exact F.
Qed.
Lemma parent_not p : p <> [] -> ~ prefix p (parent p).
Proof.
  intros N [r E]. destruct (snoc_inv p N) as (q & x & ->). unfold parent in E. rewrite removelast_snoc in E.
  rewrite <- app_assoc in E. rewrite <- (app_nil_r q) in E at 1. apply app_inv_head in E. discriminate.
Qed.
Lemma parent_prefix p q : prefix q (parent p) -> prefix q p.
Proof.
  intros P. destruct p as [|x p] using rev_ind; auto. unfold parent in P. rewrite removelast_snoc in P. apply prefix_snoc. now left.
Qed.
Lemma proper_parent p q : prefix q p -> q <> p -> prefix q (parent p).
Proof.
  intros P N. destruct p as [|x p] using rev_ind; [destruct P as [r E]; symmetry in E; apply app_eq_nil in E as [-> _]; congruence|].
  unfold parent. rewrite removelast_snoc. apply prefix_snoc in P as [P|P]; [exact P|congruence].
Qed.
Lemma ready_after f p d d' : ready p d -> act f p d = Done d' -> ready p d'.
Proof.
  intros (N & P & L) E. repeat split; auto. apply act_look in E as (_ & _ & E). rewrite E; auto. now apply parent_not.
Qed.
Lemma ready_mkdirs p d d' : p <> [] -> plain_path p -> mkdirs (parent p) d = Done d' -> ready p d' /\ look d' p = look d p.
Proof.
  intros N P E. split; [repeat split; auto|]; rewrite (mkdirs_look _ _ _ E).
  - now rewrite (proj2 (prefixb_iff _ _) (prefix_refl _)).
  - destruct (prefixb p (parent p)) eqn:B; auto. apply prefixb_iff in B. now apply parent_not in B.
Qed.
Lemma plain_parent p : plain_path p -> plain_path (parent p).
Proof.
  intros P. destruct p as [|x p] using rev_ind; auto. unfold parent. rewrite removelast_snoc. apply Forall_app in P. tauto.
Qed.
Lemma ready_dirs p d : ready p d -> exists d', mkdirs (parent p) d = Done d'.
Proof.
  intros (N & P & L). apply mkdirs_ok; [|now apply plain_parent|].
  - destruct d; auto; destruct (parent p); discriminate L.
  - intros q [r E]. right. destruct r as [|y r]; [rewrite app_nil_r in E; congruence|]. rewrite E in L. eapply look_up; eauto. discriminate.
Qed.
Lemma not_dir_node d p : look d p <> Some ADirectory -> forall es, node_at d p <> Some (FDir es).
Proof. intros N es E. apply N. rewrite look_at, E. reflexivity. Qed.

(** Removing a file, then creating something. *)
Lemma remove_ok p d : ready p d -> look d p <> Some ADirectory ->
  exists d', RemoveFile p d = Done d' /\ ready p d' /\ node_at d' p = None.
Proof.
  intros R N. pose proof (not_dir_node _ _ N) as N'.
  destruct (ready_act (fun o => match o with None => Kept | Some (FDir _) => Refused | Some _ => Gone end) p d R) as [d' E].
  { destruct (node_at d p) as [[| |es]|] eqn:A; try discriminate. now elim (N' es). }
  exists d'. split; [exact E|]. split; [eapply ready_after; eauto|]. apply act_look in E as (_ & E & _). rewrite E.
  destruct (node_at d p) as [[| |es]|] eqn:A; auto. now elim (N' es).
Qed.
Lemma remove_existing_ok p d : ready p d -> look d p <> Some ADirectory ->
  exists d', remove_existing p d = Done d' /\ ready p d' /\ node_at d' p = None.
Proof.
  intros R N. pose proof (not_dir_node _ _ N) as N'.
  destruct (ready_act (fun o => match o with None => Kept | Some (FDir (_ :: _)) => Refused | Some _ => Gone end) p d R) as [d' E].
  { destruct (node_at d p) as [[| |[|e es]]|] eqn:A; try discriminate. now elim (N' (e :: es)). }
  exists d'. split; [exact E|]. split; [eapply ready_after; eauto|]. apply act_look in E as (_ & E & _). rewrite E.
  destruct (node_at d p) as [[| |[|e es]]|] eqn:A; auto. now elim (N' (e :: es)).
Qed.
Lemma new_file_ok x data p d : ready p d -> node_at d p = None ->
  exists d', copy_file x data p d = Done d' /\ ready p d' /\ node_at d' p = Some (FFile x data).
Proof.
  intros R N. destruct (ready_act (fun o => match o with None | Some (FFile _ _) => Put (FFile x data) | Some _ => Refused end) p d R) as [d' E]; [rewrite N; discriminate|].
  exists d'. split; [exact E|]. split; [eapply ready_after; eauto|]. apply act_look in E as (_ & E & _). rewrite E, N. reflexivity.
Qed.
Lemma perm_ok x y data p d : ready p d -> node_at d p = Some (FFile y data) -> exists d', SetFilePermissions p x d = Done d'.
Proof. intros R N. apply ready_act; auto. rewrite N. discriminate. Qed.
Lemma hard_ok x data p d : ready p d -> node_at d p = None -> exists d', hard_link x data p d = Done d'.
Proof. intros R N. apply ready_act; auto. rewrite N. discriminate. Qed.
Lemma symlink_ok t p d : ready p d -> look d p <> Some ADirectory -> t <> "" -> contains_nul t = false -> exists d', CreateSymlink t p d = Done d'.
Proof.
  intros R N T C. unfold CreateSymlink, CreateDirectory. destruct (ready_dirs p d R) as [d1 E1]. rewrite E1. cbn [andthen].
  destruct R as (Np & P & _). destruct (ready_mkdirs p d d1 Np P E1) as [R1 L1].
  destruct (remove_ok p d1 R1) as (d2 & E2 & R2 & N2); [congruence|]. rewrite E2. cbn [andthen]. apply ready_act; auto.
  rewrite N2, c_string_id; auto. destruct (String.eqb_spec t ""); congruence.
Qed.
Lemma node_none_look d p : node_at d p = None -> look d p <> Some ADirectory.
Proof. intros E. rewrite look_at, E. discriminate. Qed.
Lemma copy_as_ok blob i o data p d : claims blob i o -> o <> ADirectory -> blob (fst i) (snd i) = Some data -> ready p d -> look d p <> Some ADirectory ->
  exists d', CopyFileAs (fst i) (IsExecutableObject (fst i)) data p d = Done d'.
Proof.
  intros C D B R N. destruct o as [x s|t|]; [| |congruence]; cbn [claims] in C.
  - destruct C as [T _]. rewrite T. assert (X : exists d', andthen (CopyFile x data p d) (SetFilePermissions p x) = Done d').
    { unfold CopyFile. destruct (remove_ok p d R N) as (d1 & E1 & R1 & N1). rewrite E1. cbn [andthen].
      destruct (new_file_ok x data p d1 R1 N1) as (d2 & E2 & R2 & N2). rewrite E2. cbn [andthen]. eapply perm_ok; eauto. }
    destruct x; exact X.
  - destruct C as (T & [T1 T2] & C). apply C in B. subst data. rewrite T. cbn [CopyFileAs]. unfold CopySymlinkAs.
    destruct (remove_existing_ok p d R N) as (d1 & E1 & R1 & N1). rewrite E1. cbn [andthen]. apply symlink_ok; auto. now apply node_none_look.
Qed.
Lemma write_as_ok blob i o data p d : claims blob i o -> o <> ADirectory -> blob (fst i) (snd i) = Some data -> ready p d -> look d p <> Some ADirectory ->
  exists d', WriteFileAs (fst i) data p d = Done d'.
Proof.
  intros C D B R N. destruct o as [x s|t|]; [| |congruence]; cbn [claims] in C.
  - destruct C as [T _]. rewrite T. assert (X : exists d', andthen (WriteFile data p d) (SetFilePermissions p x) = Done d').
    { unfold WriteFile, CreateDirectory. destruct (ready_dirs p d R) as [d0 E0]. rewrite E0. cbn [andthen].
      destruct R as (Np & P & _). destruct (ready_mkdirs p d d0 Np P E0) as [R0 L0].
      destruct (remove_ok p d0 R0) as (d1 & E1 & R1 & N1); [congruence|]. rewrite E1. cbn [andthen].
      destruct (new_file_ok false data p d1 R1 N1) as (d2 & E2 & R2 & N2). rewrite E2. cbn [andthen]. eapply perm_ok; eauto. }
    destruct x; exact X.
  - destruct C as (T & [T1 T2] & C). apply C in B. subst data. rewrite T. cbn [WriteFileAs]. now apply symlink_ok.
Qed.
Lemma root_dir d : look d [] = Some ADirectory -> is_dir d = true.
Proof. destruct d; try discriminate; auto. Qed.
Lemma room_dirs W d p o : room W d -> W p o -> exists d', CreateDirectory (parent p) d = Done d' /\ ready p d' /\ look d' p <> Some ADirectory.
Proof.
  intros K H. destruct (K p o H) as (N & P & L & Q). destruct (mkdirs_ok (parent p) d) as [d' E].
  - apply root_dir. destruct (Q []) as [X|X]; auto; [now exists p|]. now rewrite look_nil in X.
  - now apply plain_parent.
  - intros q X. apply Q; [now apply parent_prefix|]. intros ->. now apply parent_not in X.
  - exists d'. split; [exact E|]. destruct (ready_mkdirs p d d' N P E) as [R ->]. auto.
Qed.
Lemma proper_way (W : wish) q q' o : W q o -> prefix q' q -> q' <> q -> on_the_way W q'.
Proof. intros H [r ->] N. exists r, o. split; auto. intros ->. now rewrite app_nil_r in N. Qed.
Definition no_dirs (W : wish) : Prop := forall q o, W q o -> o <> ADirectory.
Lemma room_unharmed W d d' : no_dirs W -> room W d -> unharmed W d d' -> room W d'.
Proof.
  intros ND K [A S B] q o H. destruct (K q o H) as (N & P & L & Q). split; auto. split; auto. split.
  - intros L'. apply L. eapply S; eauto.
  - intros q' Pq Nq. destruct (A q' (proper_way _ _ _ _ H Pq Nq)) as [->|[_ ->]]; auto.
Qed.
Lemma inside_unharmed W d d' : inside W d -> unharmed W d d' -> inside W d'.
Proof.
  intros K [A S B] q o H. destruct (K q o H) as (N & P & Q). split; auto. split; auto.
  intros q' Pq Nq t. destruct (A q' (proper_way _ _ _ _ H Pq Nq)) as [->|[_ ->]]; [auto|discriminate].
Qed.

(** ** Staying inside *)
Definition safe (p : path) (d : fnode) : Prop :=
  p <> [] /\ plain_path p /\ forall q, prefix q p -> q <> p -> forall t, look d q <> Some (ALink t).
Lemma safe_framed p d d' : safe p d -> framed p d d' -> safe p d'.
Proof.
  intros (N & P & Q) [R W S]. repeat split; auto. intros q Pq Nq t. destruct (W q Pq Nq) as [->|[_ ->]]; [auto|discriminate].
Qed.
Lemma mkdirs_inside p : forall d, plain_path p -> (forall q, prefix q p -> forall t, look d q <> Some (ALink t)) -> mkdirs p d <> Elsewhere.
Proof.
  induction p as [|x p IH]; intros d P Q; cbn [mkdirs]; destruct d as [| |es]; try discriminate; try (exfalso; eapply (Q []); [now eexists|reflexivity]).
  inversion P as [|? ? P1 P2]; subst. rewrite P1. specialize (IH (match alookup x es with Some c => c | None => FDir [] end) P2).
  destruct (mkdirs p _); try discriminate. intros _. apply IH; auto. intros q Pq t. destruct (alookup x es) as [c|] eqn:A.
  - specialize (Q (x :: q)). rewrite look_dir, A in Q. apply Q. now apply prefix_cons.
  - destruct q; discriminate.
Qed.
Lemma act_inside f p : forall d, safe p d -> act f p d <> Elsewhere.
Proof.
  induction p as [|x p IH]; intros d (N & P & Q); [congruence|]. inversion P as [|? ? P1 P2]; subst. cbn [act].
  destruct d as [| |es]; [destruct p; discriminate| |].
  { exfalso. apply (Q []) with (t := target); [now exists (x :: p)|discriminate|reflexivity]. }
  rewrite P1. destruct p as [|y p].
  - destruct (alookup x es) as [c|]; destruct (f _); discriminate.
  - destruct (alookup x es) as [c|] eqn:A; [|discriminate]. assert (Sc : safe (y :: p) c).
    { split; [discriminate|]. split; auto. intros q Pq Nq t. specialize (Q (x :: q)). rewrite look_dir, A in Q. apply Q; [now apply prefix_cons|congruence]. }
    specialize (IH c Sc). destruct (act f (y :: p) c); try discriminate. congruence.
Qed.
Lemma parent_inside p d : safe p d -> CreateDirectory (parent p) d <> Elsewhere.
Proof.
  intros (N & P & Q). apply mkdirs_inside; [now apply plain_parent|]. intros q X. apply Q; [now apply parent_prefix|].
  intros ->. now apply parent_not in X.
Qed.
Lemma inside_andthen p d r f : safe p d -> framed_result p d r -> r <> Elsewhere -> (forall d', safe p d' -> f d' <> Elsewhere) -> andthen r f <> Elsewhere.
Proof. intros S F N K. destruct r as [d'|d'|]; cbn in *; [apply K; eapply safe_framed; eauto|discriminate|auto]. Qed.
#[local] Hint Resolve remove_nodir remove_existing_nodir copy_nodir perm_nodir hard_nodir link_nodir : nodir.
Ltac inside_step := match goal with S : safe ?p ?d |- andthen ?r ?f <> Elsewhere => apply (inside_andthen p d r f); [exact S| | |clear S; intros ? S] end.
Lemma link_inside t p d : safe p d -> CreateSymlink t p d <> Elsewhere.
Proof.
  intros S. unfold CreateSymlink. inside_step; [apply parent_framed|now apply parent_inside|].
  inside_step; [apply act_framed; auto with nodir|now apply act_inside|]. now apply act_inside.
Qed.
Lemma copy_as_inside t x data p d : safe p d -> CopyFileAs t x data p d <> Elsewhere.
Proof.
  intros S. assert (X : forall y, andthen (CopyFile x data p d) (SetFilePermissions p y) <> Elsewhere).
  { intros y. inside_step; [apply framed_andthen; [apply act_framed; auto with nodir|intros; apply act_framed; auto with nodir]| |now apply act_inside].
    unfold CopyFile. inside_step; [apply act_framed; auto with nodir|now apply act_inside|now apply act_inside]. }
  destruct t; cbn [CopyFileAs]; try discriminate; try apply X. unfold CopySymlinkAs.
  inside_step; [apply act_framed; auto with nodir|now apply act_inside|now apply link_inside].
Qed.
Lemma write_as_inside t data p d : safe p d -> WriteFileAs t data p d <> Elsewhere.
Proof.
  intros S. assert (X : forall y, andthen (WriteFile data p d) (SetFilePermissions p y) <> Elsewhere).
  { intros y. inside_step; [apply framed_andthen; [apply parent_framed|intros; apply framed_andthen; [apply act_framed; auto with nodir|intros; apply act_framed; auto with nodir]]| |now apply act_inside].
    unfold WriteFile. inside_step; [apply parent_framed|now apply parent_inside|].
    inside_step; [apply act_framed; auto with nodir|now apply act_inside|now apply act_inside]. }
  destruct t; cbn [WriteFileAs]; try discriminate; try apply X. now apply link_inside.
Qed.

(** ** One node *)
Definition within (p : path) (f : fnode) (W : wish) : Prop := forall q o, files_of p f q o -> W q o.
Definition careful (step : oinfo -> path -> fnode -> result) (p : path) (i : oinfo) (f : fnode) : Prop :=
  forall W, cf W -> no_dirs W -> within p f W -> forall d, unharmed_result W d (step i p d).
Definition keeps_inside (step : oinfo -> path -> fnode -> result) (p : path) (i : oinfo) (f : fnode) : Prop :=
  forall W, cf W -> no_dirs W -> within p f W -> forall d, inside W d -> step i p d <> Elsewhere.
Definition able (step : oinfo -> path -> fnode -> result) (p : path) (i : oinfo) (f : fnode) : Prop :=
  forall W, cf W -> no_dirs W -> within p f W -> forall d, room W d -> exists d', step i p d = Done d'.

Lemma inside_safe W d p o : inside W d -> W p o -> safe p d.
Proof. intros K H. destruct (K p o H) as (N & P & Q). repeat split; auto. Qed.
Lemma andthen_unharmed_inside W d r f : inside W d -> unharmed_result W d r -> r <> Elsewhere ->
  (forall d', inside W d' -> f d' <> Elsewhere) -> andthen r f <> Elsewhere.
Proof. intros S F N K. destruct r as [d'|d'|]; cbn in *; [apply K; eapply inside_unharmed; eauto|discriminate|auto]. Qed.

Section Places.
Variable step : oinfo -> path -> fnode -> result.
Variable W : wish.
Hypothesis C : cf W.
Hypothesis ND : no_dirs W.
Lemma all_unharmed (l : list place) : Forall (fun e => within (fst (fst e)) (snd e) W) l ->
  Forall (fun e => careful step (fst (fst e)) (snd (fst e)) (snd e)) l -> forall d, unharmed_result W d (stage_all step (map fst l) d).
Proof.
  intros A B d. apply stage_all_unharmed. rewrite Forall_map. rewrite Forall_forall in *. intros [[p i] f] I d'. exact (B _ I W C ND (A _ I) d').
Qed.
Lemma all_inside (l : list place) : Forall (fun e => within (fst (fst e)) (snd e) W) l ->
  Forall (fun e => careful step (fst (fst e)) (snd (fst e)) (snd e)) l ->
  Forall (fun e => keeps_inside step (fst (fst e)) (snd (fst e)) (snd e)) l -> forall d, inside W d -> stage_all step (map fst l) d <> Elsewhere.
Proof.
  induction l as [|[[p i] f] l IH]; intros A B D d S; cbn [map stage_all fst]; [discriminate|]. inversion A; inversion B; inversion D; subst. cbn [fst snd] in *.
  eapply andthen_unharmed_inside; eauto.
Qed.
Lemma all_able (l : list place) : Forall (fun e => within (fst (fst e)) (snd e) W) l ->
  Forall (fun e => careful step (fst (fst e)) (snd (fst e)) (snd e)) l ->
  Forall (fun e => able step (fst (fst e)) (snd (fst e)) (snd e)) l -> forall d, room W d -> exists d', stage_all step (map fst l) d = Done d'.
Proof.
  induction l as [|[[p i] f] l IH]; intros A B D d S; cbn [map stage_all fst]; [eauto|]. inversion A; inversion B; inversion D; subst. cbn [fst snd] in *.
  match goal with H : able step p i f |- _ => destruct (H W C ND) with (d := d) as [d1 E1]; auto end. rewrite E1. cbn [andthen]. apply IH; auto.
  eapply room_unharmed; eauto. match goal with H : careful step p i f |- _ => specialize (H W C ND) end. change (unharmed_result W d (Done d1)). rewrite <- E1. auto.
Qed.
End Places.

Lemma single_good step p i f : object_of f <> ADirectory ->
  (forall d d', step i p d = Done d' -> installed (of_list [(p, object_of f)]) d d') -> good step p i f.
Proof.
  intros N K d d' E. exists [(p, object_of f)]. split; [|now apply K]. split; [|constructor; constructor].
  intros q o. rewrite (wanted_blob false p f q o N). split; [intros [H|[]]; now injection H as <- <-|intros [-> ->]; now left].
Qed.
Lemma within_blob p f W : object_of f <> ADirectory -> within p f W -> W p (object_of f).
Proof. intros N K. apply K. exists []. now rewrite app_nil_r, look_nil. Qed.

Lemma dir_or_not f : is_dir f = true \/ (is_dir f = false /\ object_of f <> ADirectory).
Proof. destruct f; [right|right|left]; split; auto; discriminate. Qed.
Lemma not_tree f : object_of f <> ADirectory -> IsTreeObject (ftype f) = false.
Proof. destruct f as [[]| |]; intros N; auto. now elim N. Qed.
Lemma is_tree f : is_dir f = true -> ftype f = Tree.
Proof. destruct f as [[]| |]; try discriminate; auto. Qed.

Section Local.
Variable read : string -> option (list (string * oinfo)).
Variable blob : string -> bool -> option string.
Let sblob (t : otype) (h : string) : option string := blob h (IsExecutableObject t).

Lemma blob_inside i p d : safe p d -> StageBlobTo blob i p d <> Elsewhere.
Proof.
  intros S. unfold StageBlobTo. destruct (IsTreeObject _); [discriminate|]. destruct (blob _ _) as [data|]; [|discriminate].
  inside_step; [apply parent_framed|now apply parent_inside|now apply copy_as_inside].
Qed.
Lemma blob_ok i o p d (W : wish) : claims sblob i o -> o <> ADirectory -> sblob (fst i) (snd i) <> None -> W p o -> room W d -> exists d', StageBlobTo blob i p d = Done d'.
Proof.
  intros C N B H R. unfold StageBlobTo. assert (IsTreeObject (fst i) = false) as ->.
  { destruct o as [[]| |]; [destruct C as [-> _]; reflexivity|destruct C as [-> _]; reflexivity|destruct C as [-> _]; reflexivity|congruence]. }
  fold (sblob (fst i) (snd i)). destruct (sblob _ _) as [data|] eqn:E; [|congruence].
  destruct (room_dirs W d p o R H) as (d1 & E1 & R1 & N1). rewrite E1. cbn [andthen]. eapply copy_as_ok; eauto.
Qed.

(** Leafs as places: nodes that are no directories. *)
Definition node_of (o : object) : fnode := match o with AFile x s => FFile x s | ALink t => FLink t | ADirectory => FDir [] end.
Lemma object_node o : object_of (node_of o) = o.
Proof. now destruct o. Qed.
Lemma claims_not_tree i o : claims sblob i o -> o <> ADirectory -> IsTreeObject (fst i) = false.
Proof. intros C N. destruct o as [[]| |]; [destruct C as [-> _]; reflexivity|destruct C as [-> _]; reflexivity|destruct C as [-> _]; reflexivity|congruence]. Qed.

Definition stage_step (fuel : nat) (i : oinfo) (p : path) (d : fnode) : result :=
  if IsTreeObject (fst i) then match leafs read false fuel p (snd i) with None => Fails d | Some l' => StageTo read blob fuel l' d end
  else StageBlobTo blob i p d.
Lemma StageTo_S fuel l d : StageTo read blob (S fuel) l d = stage_all (stage_step fuel) l d.
Proof. reflexivity. Qed.

Lemma leafs_staged l L fuel : Forall2 (leaf_rel sblob) l L -> (forall q o, In (q, o) L -> o <> ADirectory) -> free L ->
  (forall d d', StageTo read blob fuel l d = Done d' -> installed (of_list L) d d') /\
  (forall W, cf W -> no_dirs W -> (forall q o, In (q, o) L -> W q o) -> forall d,
     unharmed_result W d (StageTo read blob fuel l d) /\ (inside W d -> StageTo read blob fuel l d <> Elsewhere)) /\
  (forall W, cf W -> no_dirs W -> (forall q o, In (q, o) L -> W q o) -> fuel <> 0%nat -> Forall (fun e => sblob (fst (snd e)) (snd (snd e)) <> None) l -> forall d,
     room W d -> exists d', StageTo read blob fuel l d = Done d').
Proof.
  intros F. destruct fuel as [|fuel].
  { intros _ _. split; [discriminate|]. split; [|congruence]. intros W _ _ _ d. split; [apply unharmed_refl|discriminate]. }
  induction F as [|[p i] [p' o] l L [E1 E2] F IH]; intros ND Fr.
  - split; [intros d d' E; injection E as <-; apply installed_nil|]. split; [|eauto]. intros W _ _ _ d. split; [apply unharmed_refl|discriminate].
  - cbn [fst snd] in E1, E2. subst p'. inversion Fr as [|? ? Fr1 Fr2]; subst. assert (No : o <> ADirectory) by (eapply ND; left; reflexivity).
    destruct IH as (I1 & I2 & I3); [intros q o' H; eapply ND; right; eauto|exact Fr2|].
    pose proof (claims_not_tree i o E2 No) as NT.
    assert (X : forall d, StageTo read blob (S fuel) ((p, i) :: l) d = andthen (StageBlobTo blob i p d) (StageTo read blob (S fuel) l)).
    { intros d. rewrite StageTo_S. cbn [stage_all]. unfold stage_step at 1. rewrite NT. reflexivity. }
    split; [|split].
    + intros d d' E. rewrite X in E. apply andthen_done in E as (d1 & Ea & Eb).
      change ((p, o) :: L) with ([(p, o)] ++ L). apply (installed_app _ _ _ d1); [eapply blob_installed; eauto|now apply I1|].
      intros a b [<-|[]] Hb. rewrite Forall_forall in Fr1. now apply Fr1.
    + intros W C Nd H d. assert (Hp : W p o) by (apply H; now left). assert (H' : forall q o', In (q, o') L -> W q o') by (intros; apply H; now right).
      rewrite X. split.
      * apply unharmed_andthen; [eapply framed_unharmed_result; eauto; apply blob_framed|]. intros d'. now apply I2.
      * intros S. eapply andthen_unharmed_inside; eauto.
        -- eapply framed_unharmed_result; eauto. apply blob_framed.
        -- apply blob_inside. eapply inside_safe; eauto.
        -- intros d' S'. now apply (I2 W C Nd H' d').
    + intros W C Nd H Nf B d R. inversion B as [|? ? B1 B2]; subst. assert (Hp : W p o) by (apply H; now left).
      rewrite X. destruct (blob_ok i o p d W E2 No B1 Hp R) as [d1 E1]. rewrite E1. cbn [andthen]. apply (I3 W); auto; [intros; apply H; now right|].
      eapply room_unharmed; eauto. eapply framed_unharmed; eauto. eapply done_framed; [apply blob_framed|eauto].
Qed.

Lemma stage_one fuel p i d : StageTo read blob (S fuel) [(p, i)] d = stage_step fuel i p d.
Proof. rewrite StageTo_S. cbn [stage_all]. now destruct (stage_step fuel i p d). Qed.

Section Node.
Variables (p : path) (i : oinfo) (f : fnode).
Hypothesis O : ordered f.
Hypothesis K : linkable f.
Hypothesis Sy : says read sblob f i.

Lemma info_tree : is_dir f = true -> IsTreeObject (fst i) = true /\ says read sblob f (Tree, snd i).
Proof. intros D. pose proof (says_type _ _ _ _ Sy) as T. rewrite (is_tree f D) in T. rewrite T. split; auto. destruct i as [t h]. cbn in T. now subst. Qed.
Lemma info_blob : object_of f <> ADirectory -> IsTreeObject (fst i) = false /\ claims sblob i (object_of f).
Proof. intros N. rewrite (says_type _ _ _ _ Sy). split; [now apply not_tree|]. now apply says_claims with (read := read). Qed.

Definition local_step (fuel : nat) : oinfo -> path -> fnode -> result := fun i p d => StageTo read blob fuel [(p, i)] d.
Lemma local_good fuel : good (local_step fuel) p i f.
Proof.
  unfold local_step. destruct fuel as [|fuel]; [discriminate|]. destruct (dir_or_not f) as [D|[D N]].
  - destruct (info_tree D) as [T S'].
    intros d d' E. rewrite stage_one in E. unfold stage_step in E. rewrite T in E.
    destruct (leafs read false fuel p (snd i)) as [l|] eqn:El; [|discriminate].
    destruct (leafs_lists read sblob false fuel p (snd i) f l O K D S' El) as (L & F & M & Fr). cbn [wanted] in M.
    exists L. split; [split; auto|]. eapply (proj1 (leafs_staged l L fuel F _ Fr)); eauto.
    Unshelve. intros q o H. apply M in H as (r & _ & _ & H). exact H.
  - destruct (info_blob N) as [T C]. apply single_good; auto. intros d d' E. rewrite stage_one in E. unfold stage_step in E. rewrite T in E. eapply blob_installed; eauto.
Qed.
Lemma local_careful fuel : careful (local_step fuel) p i f /\ keeps_inside (local_step fuel) p i f.
Proof.
  unfold local_step. destruct fuel as [|fuel]; [split; intros W _ _ _ d; [apply unharmed_refl|discriminate]|]. destruct (dir_or_not f) as [D|[D N]].
  - destruct (info_tree D) as [T S'].
    assert (X : forall W, cf W -> no_dirs W -> within p f W -> forall d, unharmed_result W d (stage_step fuel i p d) /\ (inside W d -> stage_step fuel i p d <> Elsewhere)).
    { intros W C ND H d. unfold stage_step. rewrite T. destruct (leafs read false fuel p (snd i)) as [l|] eqn:El; [|split; [apply unharmed_refl|discriminate]].
      destruct (leafs_lists read sblob false fuel p (snd i) f l O K D S' El) as (L & F & M & Fr). cbn [wanted] in M.
      eapply leafs_staged; eauto; [intros q o I; apply M in I as (r & _ & _ & I); exact I|]. intros q o I. apply H. now apply M. }
    split; intros W C ND H d; rewrite stage_one; now apply X.
  - destruct (info_blob N) as [T C]. split; intros W Cw ND H d; rewrite stage_one; unfold stage_step; rewrite T.
    + eapply framed_unharmed_result; [exact Cw|exact (within_blob _ _ _ N H)|exact N|apply blob_framed].
    + intros S. apply blob_inside. eapply inside_safe; [exact S|exact (within_blob _ _ _ N H)].
Qed.
End Node.

(** With everything there. *)
Lemma list_bound (P : nat -> fnode -> Prop) (es : list (string * fnode)) :
  Forall (fun e => exists n, forall m, (n <= m)%nat -> P m (snd e)) es -> exists n, forall m, (n <= m)%nat -> forall x c, In (x, c) es -> P m c.
Proof.
  induction 1 as [|[x c] es [n H] F [n' IH]]; [exists 0%nat; intros m _ x c []|]. exists (Nat.max n n'). intros m L y c' [E|I].
  - injection E as <- <-. apply H. lia.
  - eapply IH; [lia|eauto].
Qed.
Lemma there_dir es i l : there read sblob (FDir es) i -> read (snd i) = Some l -> forall x c j, alookup x es = Some c -> In (x, j) l -> there read sblob c j.
Proof.
  intros (l' & R & F) R' x c j A I. rewrite R' in R. injection R as <-. apply alookup_In in A. induction es as [|[y c'] es IH]; [destruct A|].
  cbn [fold_right] in F. destruct F as [F1 F2]. destruct A as [E|A]; [injection E as <- <-; now apply F1|auto].
Qed.
Definition available (e : path * oinfo) : Prop := IsTreeObject (fst (snd e)) = true \/ sblob (fst (snd e)) (snd (snd e)) <> None.
Lemma leafs_there trees f : ordered f -> is_dir f = true -> exists n, forall m, (n <= m)%nat -> forall p h, says read sblob f (Tree, h) -> there read sblob f (Tree, h) ->
  exists l, leafs read trees m p h = Some l /\ Forall available l.
Proof.
  induction f as [x s|t|es IH] using fnode_ind'; intros O D; try discriminate. clear D. apply ordered_dir in O as [Srt O].
  destruct (list_bound (fun m c => is_dir c = true -> forall p h, says read sblob c (Tree, h) -> there read sblob c (Tree, h) ->
     exists l, leafs read trees m p h = Some l /\ Forall available l) es) as [n H].
  { rewrite Forall_forall in *. intros [x c] I. cbn [snd]. destruct (dir_or_not c) as [D|[D _]]; [|exists 0%nat; congruence].
    destruct (IH _ I) as [n H]; auto; [now apply (O x c)|]. exists n. intros m L _. now apply H. }
  exists (S n). intros m L p h Sy T. destruct m as [|m]; [lia|]. cbn [leafs].
  destruct (read h) as [l|] eqn:R; [|destruct T as (l & R' & _); cbn in R'; congruence].
  destruct (says_dir read sblob es (Tree, h) l Sy R Srt) as (_ & ND & A & _).
  pose proof (fun x c j => there_dir es (Tree, h) l T R x c j) as Th.
  assert (X : exists l1, leaf_entries (leafs read trees m) p l = Some l1 /\ Forall available l1).
  { clear R T ND. induction l as [|[x [t hx]] l IHl]; [exists []; split; [reflexivity|constructor]|]. cbn [leaf_entries].
    destruct IHl as (lb & Eb & Fb); [intros; eapply A; right; eauto|intros; eapply Th; eauto; now right|].
    destruct (A x (t, hx)) as (c & Ac & Sc); [now left|]. assert (Tc : there read sblob c (t, hx)) by (eapply Th; eauto; now left).
    assert (Y : exists la, (if IsTreeObject t then leafs read trees m (p ++ [x]) hx else Some [(p ++ [x], (t, hx))]) = Some la /\ Forall available la).
    { pose proof (says_type _ _ _ _ Sc) as Ty. cbn in Ty. destruct (dir_or_not c) as [D|[D N]].
      - rewrite (is_tree _ D) in Ty. subst t. cbn. apply (H m ltac:(lia) x c); auto. now apply alookup_In.
      - subst t. rewrite (not_tree _ N). eexists. split; [reflexivity|]. constructor; [|constructor]. right. cbn [fst snd]. destruct c; [exact Tc|exact Tc|now elim N]. }
    destruct Y as (la & Ea & Fa). rewrite Ea, Eb. exists (la ++ lb). split; [reflexivity|]. apply Forall_app. auto. }
  destruct X as (l1 & E1 & F1). rewrite E1. eexists. split; [reflexivity|]. apply Forall_app. split; auto.
  destruct (_ && _)%bool; constructor; [|constructor]. now left.
Qed.

Lemma local_able p i f : ordered f -> linkable f -> says read sblob f i -> there read sblob f i -> exists n, forall fuel, (n <= fuel)%nat -> able (local_step fuel) p i f.
Proof.
  intros O K Sy T. unfold local_step. destruct (dir_or_not f) as [D|[D N]].
  - destruct (info_tree i f Sy D) as [Ty S']. assert (T' : there read sblob f (Tree, snd i)) by (destruct f; try discriminate; exact T).
    destruct (leafs_there false f O D) as [n H]. exists (S (S n)). intros [|[|fuel]] L W C ND Wi d R; try lia. rewrite stage_one. unfold stage_step. rewrite Ty.
    destruct (H (S fuel) ltac:(lia) p (snd i) S' T') as (l & El & Av). rewrite El.
    destruct (leafs_lists read sblob false (S fuel) p (snd i) f l O K D S' El) as (L' & F & M & Fr). cbn [wanted] in M.
    assert (Dn : forall q o, In (q, o) L' -> o <> ADirectory) by (intros q o I; apply M in I as (r & _ & _ & I); exact I).
    eapply (proj2 (proj2 (leafs_staged l L' (S fuel) F Dn Fr)) W); auto.
    + intros q o I. apply Wi. now apply M.
    + clear - F Av Dn. induction F as [|[q j] [q' o] l L [E1 E2] F IH]; constructor; inversion Av as [|? ? A1 A2]; subst; [|apply IH; auto; intros; eapply Dn; right; eauto].
      destruct A1 as [A1|A1]; auto. exfalso. cbn [fst snd] in *. rewrite (claims_not_tree _ _ E2) in A1; [discriminate|]. eapply Dn. left. reflexivity.
  - destruct (info_blob i f K Sy N) as [Ty Cl]. exists 1%nat. intros [|fuel] L W C ND Wi d R; try lia. rewrite stage_one. unfold stage_step. rewrite Ty.
    eapply (blob_ok i (object_of f)); eauto; [|exact (within_blob _ _ _ N Wi)]. destruct f; [exact T|exact T|now elim N].
Qed.
End Local.

Section Git.
Variable read : string -> option (list (string * oinfo)).
Variable blob : string -> bool -> option string.
Let sblob (t : otype) (h : string) : option string := blob h (IsSymlinkObject t).

Lemma write_as_makes i o data p d : claims sblob i o -> sblob (fst i) (snd i) = Some data -> makes p o d (WriteFileAs (fst i) data p d).
Proof.
  intros C B. destruct o as [x s|t|]; cbn [claims] in C.
  - destruct C as [T C]. apply C in B. subst data. rewrite T. destruct x; cbn [WriteFileAs]; apply write_makes.
  - destruct C as (T & [_ N] & C). apply C in B. subst data. rewrite T. cbn [WriteFileAs]. now apply link_makes.
  - rewrite C. intros d' E. discriminate E.
Qed.

(** The entries of a tree as places. *)
Lemma git_places p es l : NoDup (map fst l) -> (forall x j, In (x, j) l -> exists c, alookup x es = Some c /\ says read sblob c j) ->
  exists pl : list place, map fst pl = map (fun e => (p ++ [fst e], snd e)) l /\ spread pl /\
    Forall (fun e => exists x, In (x, snd (fst e)) l /\ fst (fst e) = p ++ [x] /\ alookup x es = Some (snd e) /\ says read sblob (snd e) (snd (fst e))) pl.
Proof.
  induction l as [|[x j] l IH]; intros ND A; [exists []; repeat split; constructor|]. inversion ND as [|? ? N1 N2]; subst.
  destruct IH as (pl & E & Sp & F); [auto|intros; apply A; now right|]. destruct (A x j) as (c & Ac & Sc); [now left|].
  exists (((p ++ [x], j), c) :: pl). split; [cbn [map fst snd]; now f_equal|]. split.
  - constructor; auto. rewrite Forall_forall in *. intros [[pe ie] ne] I. destruct (F _ I) as (y & Iy & Ee & _). cbn [fst snd] in *. subst pe. apply names_incomparable.
    intros ->. apply N1. now apply (in_map fst) in Iy.
  - constructor; [exists x; cbn; auto|]. rewrite Forall_forall in *. intros e I. destruct (F _ I) as (y & Iy & H). exists y. split; auto. now right.
Qed.
Lemma git_blob_framed i p d : framed_result p d match blob (snd i) (IsSymlinkObject (fst i)) with None => Fails d | Some data => andthen (CreateDirectory (parent p) d) (WriteFileAs (fst i) data p) end.
Proof. destruct (blob _ _) as [data|]; [|apply framed_refl]. apply framed_andthen; [apply parent_framed|]. intros. apply write_as_framed. Qed.

Lemma git_good fuel : forall p i f, ordered f -> linkable f -> says read sblob f i ->
  good (GitRetrieve read blob fuel) p i f /\ careful (GitRetrieve read blob fuel) p i f /\ keeps_inside (GitRetrieve read blob fuel) p i f.
Proof.
  induction fuel as [|fuel IH]; intros p i f O K Sy.
  { split; [discriminate|]. split; [intros W _ _ _ d; apply unharmed_refl|discriminate]. }
  destruct (dir_or_not f) as [D|[D N]].
  - pose proof (says_type _ _ _ _ Sy) as T. rewrite (is_tree f D) in T. destruct f as [| |es]; try discriminate.
    pose proof (proj1 (ordered_dir _) O) as [Srt O'].
    assert (X : forall d, GitRetrieve read blob (S fuel) i p d = match read (snd i) with None => Fails d
       | Some l => stage_all (GitRetrieve read blob fuel) (map (fun e => (p ++ [fst e], snd e)) l) d end).
    { intros d. cbn [GitRetrieve]. now rewrite T. }
    destruct (read (snd i)) as [l|] eqn:R.
    2:{ split; [intros d d' E; rewrite X in E; discriminate|]. split; intros W _ _ _ d; rewrite X; [apply unharmed_refl|discriminate]. }
    destruct (says_dir read sblob es i l Sy R Srt) as (_ & ND & A & B). destruct (git_places p es l ND A) as (pl & E & Sp & F).
    assert (X' : forall d, GitRetrieve read blob (S fuel) i p d = stage_all (GitRetrieve read blob fuel) (map fst pl) d) by (intros d; rewrite X; f_equal; symmetry; exact E).
    clear X. rename X' into X.
    assert (G : Forall (fun e => good (GitRetrieve read blob fuel) (fst (fst e)) (snd (fst e)) (snd e) /\
       careful (GitRetrieve read blob fuel) (fst (fst e)) (snd (fst e)) (snd e) /\ keeps_inside (GitRetrieve read blob fuel) (fst (fst e)) (snd (fst e)) (snd e)) pl).
    { rewrite Forall_forall in *. intros e I. destruct (F _ I) as (x & _ & _ & Ax & Sx). apply IH; auto; [eapply ordered_lookup; eauto|eapply linkable_dir; eauto]. }
    assert (M : forall q o, among pl q o <-> files_of p (FDir es) q o).
    { intros q o. rewrite (wanted_dir false p es q o). split.
      - intros (p' & i' & f' & I & W). rewrite Forall_forall in F. destruct (F _ I) as (x & _ & Ep & Ax & _). cbn [fst snd] in *. subst p'. right. eauto.
      - intros [(? & _)|(x & c & Ax & W)]; [discriminate|]. destruct (B x c Ax) as (j & I & _).
        assert (I' : In (p ++ [x], j) (map fst pl)) by (rewrite E; apply in_map_iff; now exists (x, j)).
        apply in_map_iff in I' as ([[p' i'] f'] & E' & I'). cbn [fst] in E'. injection E' as -> ->. rewrite Forall_forall in F. destruct (F _ I') as (y & _ & Ey & Ay & _).
        cbn [fst snd] in *. apply app_inv_head in Ey. injection Ey as <-. exists (p ++ [x]), j, f'. split; auto. cbn [wanted] in W. congruence. }
    assert (Wi : forall W, within p (FDir es) W -> Forall (fun e => within (fst (fst e)) (snd e) W) pl).
    { intros W H. apply Forall_forall. intros [[p' i'] f'] I q o Q. apply H, M. exists p', i', f'. auto. }
    assert (Gc : Forall (fun e => careful (GitRetrieve read blob fuel) (fst (fst e)) (snd (fst e)) (snd e)) pl) by (eapply Forall_impl; [|exact G]; intros e (? & ? & ?); assumption).
    assert (Gi : Forall (fun e => keeps_inside (GitRetrieve read blob fuel) (fst (fst e)) (snd (fst e)) (snd e)) pl) by (eapply Forall_impl; [|exact G]; intros e (? & ? & ?); assumption).
    split; [|split].
    + intros d d' H. rewrite X in H. assert (Gg : Forall (fun e => good (GitRetrieve read blob fuel) (fst (fst e)) (snd (fst e)) (snd e)) pl) by (eapply Forall_impl; [|exact G]; intros e (? & ? & ?); assumption).
      destruct (stage_all_good _ pl Sp Gg d d' H) as (L & [M' Fr] & I).
      exists L. split; auto. split; auto. intros q o. now rewrite M', M.
    + intros W C Nd H d. rewrite X. apply all_unharmed; auto.
    + intros W C Nd H d I. rewrite X. apply (all_inside _ W); auto.
  - pose proof (says_type _ _ _ _ Sy) as T. pose proof (says_claims _ _ _ _ K Sy) as Cl.
    assert (X : forall d, GitRetrieve read blob (S fuel) i p d = match blob (snd i) (IsSymlinkObject (fst i)) with None => Fails d | Some data => andthen (CreateDirectory (parent p) d) (WriteFileAs (fst i) data p) end).
    { intros d. cbn [GitRetrieve]. now rewrite T, (not_tree f N). }
    split; [|split].
    + apply single_good; auto. intros d d' E. rewrite X in E. pose proof (done_framed _ _ _ _ (git_blob_framed i p d) E) as Fr.
      destruct (blob _ _) as [data|] eqn:Bl; [|discriminate]. apply andthen_done in E as (d1 & E1 & E). apply one_installed; auto; [eapply write_as_nonroot; eauto|].
      eapply write_as_makes; eauto.
    + intros W C Nd H d. rewrite X. eapply framed_unharmed_result; [exact C|exact (within_blob _ _ _ N H)|exact N|apply git_blob_framed].
    + intros W C Nd H d I. rewrite X. assert (S : safe p d) by (eapply inside_safe; [exact I|exact (within_blob _ _ _ N H)]).
      destruct (blob _ _) as [data|]; [|discriminate]. inside_step; [apply parent_framed|now apply parent_inside|now apply write_as_inside].
Qed.
Lemma there_dir_git es i l : there read sblob (FDir es) i -> read (snd i) = Some l -> forall x c j, alookup x es = Some c -> In (x, j) l -> there read sblob c j.
Proof.
  intros (l' & R & F) R' x c j A I. rewrite R' in R. injection R as <-. apply alookup_In in A. induction es as [|[y c'] es IH]; [destruct A|].
  cbn [fold_right] in F. destruct F as [F1 F2]. destruct A as [E|A]; [injection E as <- <-; now apply F1|auto].
Qed.
Lemma git_able f : ordered f -> linkable f -> exists n, forall fuel, (n <= fuel)%nat -> forall p i, says read sblob f i -> there read sblob f i ->
  able (GitRetrieve read blob fuel) p i f.
Proof.
  induction f as [x s|t|es IH] using fnode_ind'; intros O K.
  3:{ pose proof (proj1 (ordered_dir _) O) as [Srt O'].
    destruct (list_bound (fun m c => forall p i, says read sblob c i -> there read sblob c i -> able (GitRetrieve read blob m) p i c) es) as [n H].
    { rewrite Forall_forall in *. intros [x c] I. cbn [snd]. apply (IH _ I); cbn [snd]; [now apply (O' x c)|].
      apply (linkable_dir es K x c). now apply sorted_alookup_In. }
    exists (S n). intros [|fuel] L p i Sy Th; [lia|]. pose proof (says_type _ _ _ _ Sy) as T. cbn [ftype] in T.
    destruct (read (snd i)) as [l|] eqn:R; [|destruct Th as (l & R' & _); congruence].
    destruct (says_dir read sblob es i l Sy R Srt) as (_ & ND & A & B). destruct (git_places p es l ND A) as (pl & E & Sp & F).
    intros W C Nd Wi d Rm. cbn [GitRetrieve]. rewrite T, R. change (IsTreeObject Tree) with true. cbv iota.
    replace (map (fun e => (p ++ [fst e], snd e)) l) with (map fst pl) by exact E. rewrite Forall_forall in F.
    apply (all_able _ W); auto; apply Forall_forall; intros [[p' j] c] I; destruct (F _ I) as (x & Ix & Ep & Ax & Sx); cbn [fst snd] in *; subst p'.
    - intros q o Q. apply Wi. apply (wanted_dir false p es q o). right. exists x, c. auto.
    - apply git_good; auto; [eapply ordered_lookup; eauto|eapply linkable_dir; eauto].
    - eapply (H fuel ltac:(lia) x c); auto; [now apply alookup_In|]. eapply there_dir_git; eauto. }
  all: exists 1%nat; intros [|fuel] L p i Sy Th; [lia|]; pose proof (says_type _ _ _ _ Sy) as T; pose proof (says_claims _ _ _ _ K Sy) as Cl;
    intros W C Nd Wi d Rm; cbn [GitRetrieve]; rewrite T, not_tree by discriminate; rewrite <- T; fold (sblob (fst i) (snd i));
    cbn [there] in Th; destruct (sblob (fst i) (snd i)) as [data|] eqn:Bl; [|congruence].
  - destruct (room_dirs W d p (AFile x s)) as (d1 & E1 & R1 & N1); auto; [exact (within_blob p (FFile x s) W ltac:(discriminate) Wi)|].
    rewrite E1. cbn [andthen]. eapply write_as_ok; eauto. discriminate.
  - destruct (room_dirs W d p (ALink t)) as (d1 & E1 & R1 & N1); auto; [exact (within_blob p (FLink t) W ltac:(discriminate) Wi)|].
    rewrite E1. cbn [andthen]. eapply write_as_ok; eauto. discriminate.
Qed.
End Git.

(** ** Both storages *)
Lemma files_no_dirs p f : no_dirs (files_of p f).
Proof. intros q o (r & _ & _ & N). exact N. Qed.
Lemma room_inside W d : room W d -> inside W d.
Proof. intros R q o H. destruct (R q o H) as (N & P & _ & Q). repeat split; auto. intros q' Pq Nq t. destruct (Q q' Pq Nq) as [->| ->]; discriminate. Qed.

Section Both.
Variable read : string -> option (list (string * oinfo)).
Variable blob : string -> bool -> option string.
Variable git_read : string -> option (list (string * oinfo)).
Variable git_blob : string -> bool -> option string.
Let lblob (t : otype) (h : string) : option string := blob h (IsExecutableObject t).
Let gblob (t : otype) (h : string) : option string := git_blob h (IsSymlinkObject t).
Variable has_git : bool.
Notation one fuel := (retrieve_one read blob git_read git_blob has_git fuel).

Definition stands_for (f : fnode) (i : oinfo) : Prop :=
  ordered f /\ linkable f /\ says read lblob f i /\ (has_git = true -> says git_read gblob f i).

Lemma one_good fuel p i f : stands_for f i -> good (one fuel) p i f /\ careful (one fuel) p i f /\ keeps_inside (one fuel) p i f.
Proof.
  intros (O & K & Sl & Sg). pose proof (local_good read blob p i f O K Sl fuel) as G. destruct (local_careful read blob p i f O K Sl fuel) as [C I].
  unfold local_step in *. unfold retrieve_one. split; [|split].
  - intros d d' E. specialize (C _ (files_cf p f) (files_no_dirs p f) (fun q o H => H) d). destruct (StageTo read blob fuel [(p, i)] d) as [d1|d1|] eqn:E1; try discriminate.
    + injection E as <-. apply G. exact E1.
    + destruct has_git; [|discriminate]. destruct (git_good git_read git_blob fuel p i f O K (Sg eq_refl)) as (G' & _ & _).
      destruct (G' _ _ E) as (L & M & Il). exists L. split; auto. apply (unharmed_installed _ _ d1); auto.
      eapply unharmed_ext; [|exact C]. intros q o. symmetry. apply M.
  - intros W Cw ND Wi d. specialize (C W Cw ND Wi d). destruct (StageTo read blob fuel [(p, i)] d) as [d1|d1|] eqn:E1; auto.
    destruct has_git; [|exact C]. destruct (git_good git_read git_blob fuel p i f O K (Sg eq_refl)) as (_ & C' & _).
    specialize (C' W Cw ND Wi d1). destruct (GitRetrieve _ _ fuel i p d1); cbn in *; auto; eapply unharmed_trans; eauto.
  - intros W Cw ND Wi d Is. specialize (C W Cw ND Wi d). specialize (I W Cw ND Wi d Is). destruct (StageTo read blob fuel [(p, i)] d) as [d1|d1|] eqn:E1; [discriminate| |congruence].
    destruct has_git; [|discriminate]. destruct (git_good git_read git_blob fuel p i f O K (Sg eq_refl)) as (_ & _ & I').
    apply (I' W Cw ND Wi). eapply inside_unharmed; eauto.
Qed.
Lemma one_able p i f : stands_for f i -> there read lblob f i \/ (has_git = true /\ there git_read gblob f i) ->
  exists n, forall fuel, (n <= fuel)%nat -> able (one fuel) p i f.
Proof.
  intros (O & K & Sl & Sg) [T|[Hg T]].
  - destruct (local_able read blob p i f O K Sl T) as [n H]. exists n. intros fuel L W C ND Wi d R. destruct (H fuel L W C ND Wi d R) as [d' E].
    unfold local_step in E. unfold retrieve_one. rewrite E. eauto.
  - destruct (git_able git_read git_blob f O K) as [n H]. exists n. intros fuel L W C ND Wi d R. destruct (local_careful read blob p i f O K Sl fuel) as [Ca I].
    specialize (Ca W C ND Wi d). specialize (I W C ND Wi d (room_inside _ _ R)). unfold local_step in *. unfold retrieve_one.
    destruct (StageTo read blob fuel [(p, i)] d) as [d1|d1|]; [eauto| |congruence]. rewrite Hg. apply (H fuel L p i (Sg Hg) T W C ND Wi). eapply room_unharmed; eauto.
Qed.

(** ** A list of artifacts *)
Lemma all_cf ps fs : List.length ps = List.length fs -> apart ps -> cf (all_files (combine ps fs)).
Proof.
  intros Le A q o q' o' (p & f & I & H) (p' & f' & I' & H') P.
  apply In_nth_error in I as [n I]. apply In_nth_error in I' as [m I'].
  assert (X : forall n p f, nth_error (combine ps fs) n = Some (p, f) -> nth_error ps n = Some p).
  { clear. revert fs. induction ps as [|a ps IH]; intros [|b fs] [|n] p f E; try discriminate; cbn in E; [injection E as <- <-; auto|now apply IH in E]. }
  destruct (Nat.eq_dec n m) as [->|N].
  - rewrite I in I'. injection I' as <- <-. exact (files_cf p f _ _ _ _ H H' P).
  - exfalso. apply X in I, I'. pose proof (A _ _ _ _ I I' N) as A1. pose proof (A _ _ _ _ I' I (not_eq_sym N)) as A2.
    destruct (below_incomparable p p' q q') as [B _]; [split; auto|exact (wanted_prefix false _ _ _ _ H)|exact (wanted_prefix false _ _ _ _ H')|]. auto.
Qed.
Lemma all_no_dirs l : no_dirs (all_files l).
Proof. intros q o (p & f & _ & H). now apply files_no_dirs in H. Qed.

Lemma zip_places (Q : fnode -> oinfo -> Prop) ps : forall fs infos, Forall2 Q fs infos -> List.length ps = List.length infos -> apart ps ->
  exists l : list place, map fst l = combine ps infos /\ map (fun e => (fst (fst e), snd e)) l = combine ps fs /\ spread l /\
    Forall (fun e => In (fst (fst e), snd e) (combine ps fs) /\ Q (snd e) (snd (fst e))) l.
Proof.
  induction ps as [|p ps IH]; intros fs infos F Le A.
  - exists []. repeat split; constructor.
  - destruct infos as [|i infos]; [discriminate|]. inversion F as [|f ? fs' ? Sf F']; subst.
    destruct (IH fs' infos F') as (l & E1 & E2 & Sp & Fl); [now injection Le|intros a b q q' Ha Hb N; apply (A (S a) (S b)); auto|].
    exists (((p, i), f) :: l). split; [cbn [map combine fst snd]; now f_equal|]. split; [cbn [map combine fst snd]; now f_equal|]. split.
    + constructor; auto. rewrite Forall_forall in *. intros [[q j] g] I. cbn [fst snd].
      assert (Iq : In q ps). { apply (in_map fst) in I. rewrite E1 in I. now apply in_combine_l in I. }
      apply In_nth_error in Iq as [n Iq]. split; [apply (A 0%nat (S n))|apply (A (S n) 0%nat)]; auto.
    + constructor; [split; [now left|exact Sf]|]. eapply Forall_impl; [|exact Fl]. intros e [H1 H2]. split; [right; exact H1|exact H2].
Qed.

Section All.
Variables (ps : list path) (fs : list fnode) (infos : list oinfo).
Hypothesis F : Forall2 stands_for fs infos.
Hypothesis A : apart ps.
Notation retrieve fuel := (RetrieveToPaths read blob git_read git_blob has_git fuel infos ps).

Lemma retrieve_places d fuel : retrieve fuel d = Fails d \/
  (List.length ps = List.length infos /\ exists l : list place, (forall fuel, retrieve fuel d = stage_all (one fuel) (map fst l) d) /\
    map (fun e => (fst (fst e), snd e)) l = combine ps fs /\ spread l /\
    Forall (fun e => In (fst (fst e), snd e) (combine ps fs) /\ stands_for (snd e) (snd (fst e))) l).
Proof.
  unfold RetrieveToPaths. destruct (Nat.eqb_spec (List.length infos) (List.length ps)) as [Le|Le]; [right|now left]. split; auto.
  destruct (zip_places stands_for ps fs infos F (eq_sym Le) A) as (l & E1 & E2 & Sp & Fl). exists l. rewrite E1. auto.
Qed.
Lemma lengths : List.length fs = List.length infos.
Proof. generalize F. clear. induction 1; cbn; auto. Qed.

Theorem retrieved fuel d d' : retrieve fuel d = Done d' -> installed (all_files (combine ps fs)) d d'.
Proof.
  intros E. destruct (retrieve_places d fuel) as [X|(Le & l & X & M & Sp & Fl)]; [congruence|]. rewrite X in E.
  destruct (stage_all_good (one fuel) l Sp) with (d := d) (d' := d') as (L & [M' _] & I); auto.
  { eapply Forall_impl; [|exact Fl]. intros e [_ H]. now apply one_good. }
  eapply installed_ext; [|exact I]. intros q o. unfold of_list. rewrite (M' q o). unfold among, all_files. rewrite <- M. split.
  - intros (p & i & f & J & H). exists p, f. split; auto. apply in_map_iff. now exists ((p, i), f).
  - intros (p & f & J & H). apply in_map_iff in J as ([[p' i] f'] & E' & J). cbn in E'. injection E' as -> ->. now exists p, i, f.
Qed.
Lemma lists_within (l : list place) : Forall (fun e => In (fst (fst e), snd e) (combine ps fs) /\ stands_for (snd e) (snd (fst e))) l ->
  Forall (fun e => within (fst (fst e)) (snd e) (all_files (combine ps fs))) l.
Proof. intros Fl. eapply Forall_impl; [|exact Fl]. intros e [H _] q o Q. exists (fst (fst e)), (snd e). auto. Qed.
Theorem retrieve_unharmed fuel d : unharmed_result (all_files (combine ps fs)) d (retrieve fuel d) /\
  (inside (all_files (combine ps fs)) d -> retrieve fuel d <> Elsewhere).
Proof.
  destruct (retrieve_places d fuel) as [X|(Le & l & X & M & Sp & Fl)]; [rewrite X; split; [apply unharmed_refl|discriminate]|]. rewrite X.
  assert (C : cf (all_files (combine ps fs))) by (apply all_cf; auto; rewrite lengths; auto).
  assert (Ca : Forall (fun e => careful (one fuel) (fst (fst e)) (snd (fst e)) (snd e)) l) by (eapply Forall_impl; [|exact Fl]; intros e [_ H]; now apply one_good).
  assert (Ci : Forall (fun e => keeps_inside (one fuel) (fst (fst e)) (snd (fst e)) (snd e)) l) by (eapply Forall_impl; [|exact Fl]; intros e [_ H]; now apply one_good).
  split; [apply all_unharmed; auto; [apply all_no_dirs|now apply lists_within]|].
  intros I. apply (all_inside _ (all_files (combine ps fs))); auto; [apply all_no_dirs|now apply lists_within].
Qed.
Theorem retrieve_succeeds d : List.length ps = List.length infos ->
  Forall2 (fun f i => there read lblob f i \/ (has_git = true /\ there git_read gblob f i)) fs infos ->
  room (all_files (combine ps fs)) d -> exists n, forall fuel, (n <= fuel)%nat -> exists d', retrieve fuel d = Done d'.
Proof.
  intros Le T R. assert (C : cf (all_files (combine ps fs))) by (apply all_cf; auto; rewrite lengths; auto).
  assert (FT : Forall2 (fun f i => stands_for f i /\ (there read lblob f i \/ (has_git = true /\ there git_read gblob f i))) fs infos).
  { generalize F, T. clear. induction 1; intros T; inversion T; subst; constructor; auto. }
  destruct (zip_places _ ps fs infos FT Le A) as (l & E1 & E2 & Sp & Fl).
  assert (N : exists n, forall fuel, (n <= fuel)%nat -> Forall (fun e => able (one fuel) (fst (fst e)) (snd (fst e)) (snd e)) l).
  { clear - Fl. induction Fl as [|e l [_ [H1 H2]] Fl [n IH]]; [exists 0%nat; constructor|].
    destruct (one_able (fst (fst e)) (snd (fst e)) (snd e) H1 H2) as [m H]. exists (Nat.max n m). intros fuel L. constructor; [apply H; lia|apply IH; lia]. }
  destruct N as [n N]. exists n. intros fuel L. unfold RetrieveToPaths. rewrite Le, Nat.eqb_refl. rewrite <- E1.
  apply (all_able (one fuel) (all_files (combine ps fs))); auto.
  - apply all_no_dirs.
  - eapply Forall_impl; [|exact Fl]. intros e [H _] q o Q. exists (fst (fst e)), (snd e). auto.
  - eapply Forall_impl; [|exact Fl]. intros e [_ [H _]]. now apply one_good.
Qed.
End All.
End Both.
