(** The directory of an action. *)
From Coq Require Import String Ascii List Bool NArith Arith Lia Sorted.
From Verif Require Import Common.Strs Hex.Model Describe.Model Executor.Wire Rehash.Directory Rehash.DirectoryProofs.
From Verif Require Import GitTree.Model Path.Model Rehash.Model Rehash.Spec Staging.FileSystem Staging.Spec Staging.Base Staging.Model Staging.Install Staging.Leafs Staging.Retrieve.
Import ListNotations.
Local Open Scope string_scope.
Local Open Scope list_scope.

Lemma dir_installed p d d' : mkdirs p d = Done d' -> installed (of_list [(p, ADirectory)]) d d'.
Proof.
  intros E. pose proof (mkdirs_look _ _ _ E) as L. constructor.
  - intros q o [H|[]]. injection H as <- <-. rewrite L. now rewrite (proj2 (prefixb_iff _ _) (prefix_refl _)).
  - intros q (r & o & _ & [H|[]]). injection H as -> _. rewrite L. destruct (prefixb q (q ++ r)) eqn:B; auto.
    assert (P : prefix q (q ++ r)) by now exists r. apply prefixb_iff in P. congruence.
  - intros q C. rewrite L. destruct (prefixb q p) eqn:B; auto. exfalso. apply C. apply concerns_list. exists (p, ADirectory). split; [now left|]. left. now apply prefixb_iff.
Qed.

(** Nothing in the way of what is to come. *)
Definition clear_for (d : fnode) (e : leaf) : Prop :=
  plain_path (fst e) /\ look d [] = Some ADirectory /\
  (forall q, prefix q (fst e) -> q <> fst e -> look d q = None \/ look d q = Some ADirectory) /\
  (look d (fst e) = None \/ (snd e = ADirectory /\ look d (fst e) = Some ADirectory)).
Lemma clear_after d d' a b : installed (of_list [a]) d d' -> ~ prefix (fst a) (fst b) -> ~ prefix (fst b) (fst a) -> clear_for d b -> clear_for d' b.
Proof.
  intros [I W R] N1 N2 (P & Rt & Q & L). destruct a as [p o]. cbn [fst snd] in *.
  assert (X : forall q, ~ prefix p q -> look d' q = look d q \/ look d' q = Some ADirectory).
  { intros q N. destruct (concerns_dec [(p, o)] q) as [C|C]; [|left; now apply R].
    apply concerns_list in C as (e & [<-|[]] & [[r C]|[C _]]); cbn [fst] in C; [|contradiction]. right. apply W. exists r, o. split; [|subst; now left].
    intros ->. rewrite app_nil_r in C. apply N. subst. apply prefix_refl. }
  split; auto. split; [|split].
  - destruct (X []) as [->| ->]; auto. intros [r E]. symmetry in E. apply app_eq_nil in E as [-> _]. apply N1. now exists (fst b).
  - intros q Pq Nq. destruct (X q) as [->| ->]; auto. intros H. apply N1. eapply prefix_trans; eauto.
  - rewrite R; auto. intros C. apply concerns_list in C as (e & [<-|[]] & [C|[C _]]); cbn [fst] in C; auto.
Qed.
Lemma clear_ready d p o : p <> [] -> clear_for d (p, o) -> exists d', mkdirs (parent p) d = Done d' /\ ready p d' /\ look d' p = look d p.
Proof.
  intros N (P & Rt & Q & L). cbn [fst snd] in *. destruct (mkdirs_ok (parent p) d) as [d' E].
  - now apply root_dir.
  - now apply plain_parent.
  - intros q X. apply Q; [now apply parent_prefix|]. intros ->. now apply parent_not in X.
  - exists d'. split; auto. now apply ready_mkdirs.
Qed.

Section Inputs.
Variable read : string -> option (list (string * oinfo)).
Variable blob : string -> bool -> option string.
Variable too_many : copies -> path -> bool.
Let sblob (t : otype) (h : string) : option string := blob h (IsExecutableObject t).

Lemma oinfo_eqb_eq a b : oinfo_eqb a b = true -> a = b.
Proof.
  destruct a as [t h], b as [t' h']. unfold oinfo_eqb. cbn [fst snd]. intros E. apply andb_true_iff in E as [E1 E2]. apply String.eqb_eq in E2. subst.
  f_equal. destruct t, t'; try discriminate; reflexivity.
Qed.
Definition true_copies (c : copies) : Prop := forall i s, find_copy i c = Some s -> blob (snd i) (IsExecutableObject (fst i)) = Some s.
Lemma content_is c i : true_copies c ->
  (match find_copy i c with Some s => Some s | None => blob (snd i) (IsExecutableObject (fst i)) end) = sblob (fst i) (snd i).
Proof. intros T. destruct (find_copy i c) as [s|] eqn:F; auto. symmetry. now apply T. Qed.
Lemma copies_add c i data : true_copies c -> sblob (fst i) (snd i) = Some data -> true_copies ((i, data) :: c).
Proof.
  intros T B j s. cbn [find_copy]. destruct (oinfo_eqb j i) eqn:E; [|apply T]. intros H. injection H as <-. apply oinfo_eqb_eq in E. now subst.
Qed.

Lemma hard_makes x data p d : makes p (AFile x data) d (hard_link x data p d).
Proof. apply act_makes. intros [[]|]; cbn; auto. Qed.
#[local] Hint Resolve remove_nodir remove_existing_nodir copy_nodir perm_nodir hard_nodir link_nodir : nodir.

Lemma input_installed p i o c d r c' : claims sblob i o -> true_copies c -> ordered d -> StageInput blob too_many p i c d = (r, c') ->
  true_copies c' /\ forall d', r = Done d' -> installed (of_list [(p, o)]) d d' /\ ordered d'.
Proof.
  intros C T O E. unfold StageInput in E. destruct (IsTreeObject (fst i)) eqn:Ty.
  - injection E as <- <-. split; auto. intros d' E. assert (o = ADirectory).
    { destruct o as [[]| |]; auto; destruct C as [C _]; rewrite C in Ty; discriminate. }
    subst o. split; [now apply dir_installed|]. eapply mkdirs_ordered; eauto.
  - assert (No : o <> ADirectory) by (intros ->; cbn in C; rewrite C in Ty; discriminate).
    rewrite (content_is c i T) in E. destruct (sblob (fst i) (snd i)) as [data|] eqn:B; [|injection E as <- <-; split; [auto|discriminate]].
    destruct o as [x s|t|]; [| |congruence]; cbn [claims] in C.
    + destruct C as [Tx Cs]. apply Cs in B as Ed. subst s. assert (IsSymlinkObject (fst i) = false) as Sy by (rewrite Tx; now destruct x). rewrite Sy in E.
      assert (Ex : IsExecutableObject (fst i) = x) by (rewrite Tx; now destruct x). rewrite Ex in E.
      assert (K : forall d1 d', CreateDirectory (parent p) d = Done d1 -> hard_link x data p d1 = Done d' -> installed (of_list [(p, AFile x data)]) d d' /\ ordered d').
      { intros d1 d' E1 E2. split.
        - apply one_installed; [eapply act_nonroot; exact E2|discriminate| |eapply hard_makes; eauto].
          eapply (done_framed p d (andthen (CreateDirectory (parent p) d) (hard_link x data p))); [|rewrite E1; exact E2].
          apply framed_andthen; [apply parent_framed|]. intros. apply act_framed; auto with nodir.
        - eapply act_ordered; [|eapply mkdirs_ordered; [exact O|exact E1]|exact E2]. intros m n H. destruct m as [[]|]; try discriminate; injection H as <-; exact Logic.I. }
      destruct (CreateDirectory (parent p) d) as [d1|d1|] eqn:E1; [|injection E as <- <-; split; [auto|discriminate]|injection E as <- <-; split; [auto|discriminate]].
      destruct (too_many c p).
      * destruct (hard_link x data p d1) as [d2|d2|] eqn:E2; injection E as <- <-; [|split; [auto|discriminate]|split; [auto|discriminate]].
        split; [now apply copies_add|]. intros d' H. injection H as <-. eapply K; eauto.
      * injection E as <- <-. split; auto. intros d' H. eapply K; eauto.
    + destruct C as (Tx & [Nt Nn] & Cs). apply Cs in B as Ed. subst data. rewrite Tx in E. cbn in E. injection E as <- <-. split; auto.
      intros d' E. split; [apply one_installed; [eapply link_nonroot; eauto|discriminate|eapply done_framed; [apply link_framed|eauto]|eapply link_makes; eauto]|].
      unfold CreateSymlink in E. apply andthen_done in E as (d1 & E1 & E). apply andthen_done in E as (d2 & E2 & E).
      eapply act_ordered; [|eapply act_ordered; [|eapply mkdirs_ordered; [exact O|exact E1]|exact E2]|exact E].
      * intros m n H. destruct m as [[]|]; try discriminate. destruct (String.eqb _ _); [discriminate|]. injection H as <-. exact Logic.I.
      * intros m n H. destruct m as [[]|]; discriminate.
Qed.
Lemma inputs_installed l L : Forall2 (leaf_rel sblob) l L -> free L -> forall c d d', true_copies c -> ordered d ->
  stage_inputs blob too_many l c d = Done d' -> installed (of_list L) d d' /\ ordered d'.
Proof.
  induction 1 as [|[p i] [p' o] l L [E1 E2] F IH]; intros Fr c d d' T O E; cbn [stage_inputs] in E.
  - injection E as <-. split; [apply installed_nil|auto].
  - cbn [fst snd] in E1, E2. subst p'. inversion Fr as [|? ? Fr1 Fr2]; subst. destruct (StageInput blob too_many p i c d) as [r c'] eqn:Si.
    destruct (input_installed p i o c d r c' E2 T O Si) as [T' K]. apply andthen_done in E as (d1 & Ea & Eb). destruct (K _ Ea) as [I1 O1].
    destruct (IH Fr2 c' d1 d' T' O1 Eb) as [I2 O2]. split; auto.
    change ((p, o) :: L) with ([(p, o)] ++ L). apply (installed_app _ _ _ d1); auto.
    intros a b [<-|[]] Hb. rewrite Forall_forall in Fr1. now apply Fr1.
Qed.

(** *** Success *)
Lemma input_ok p i o c d : claims sblob i o -> true_copies c -> clear_for d (p, o) ->
  (exists d' c', StageInput blob too_many p i c d = (Done d', c')) \/
  (IsTreeObject (fst i) = false /\ sblob (fst i) (snd i) = None /\ StageInput blob too_many p i c d = (Fails d, c)).
Proof.
  intros C T K. pose proof K as (P & Rt & Q & L). cbn [fst snd] in *. unfold StageInput. destruct (IsTreeObject (fst i)) eqn:Ty.
  - left. assert (o = ADirectory).
    { destruct o as [[]| |]; auto; destruct C as [C _]; rewrite C in Ty; discriminate. }
    subst o. destruct (mkdirs_ok p d) as [d' E]; [now apply root_dir|auto| |unfold CreateDirectory; rewrite E; eauto].
    intros q Pq. destruct (list_eq_dec string_dec q p) as [->|N]; [|auto]. destruct L as [L|[_ L]]; auto.
  - assert (No : o <> ADirectory) by (intros ->; cbn in C; rewrite C in Ty; discriminate).
    destruct L as [L|[E _]]; [|congruence]. assert (Np : p <> []) by (intros ->; congruence).
    rewrite (content_is c i T). destruct (sblob (fst i) (snd i)) as [data|] eqn:B; [left|right; auto].
    destruct (clear_ready d p o Np K) as (d1 & E1 & R1 & L1). rewrite L in L1.
    destruct o as [x s|t|]; [| |congruence]; cbn [claims] in C.
    + destruct C as [Tx Cs]. assert (IsSymlinkObject (fst i) = false) as -> by (rewrite Tx; now destruct x).
      unfold CreateDirectory. rewrite E1. destruct (hard_ok (IsExecutableObject (fst i)) data p d1 R1) as [d2 E2].
      { rewrite look_at in L1. destruct (node_at d1 p); [discriminate|auto]. }
      rewrite E2. destruct (too_many c p); eauto.
    + destruct C as (Tx & [Nt Nn] & Cs). apply Cs in B as Ed. subst data. rewrite Tx. cbn [IsSymlinkObject otype_eqb].
      unfold CreateSymlink, CreateDirectory. rewrite E1. cbn [andthen].
      destruct (remove_ok p d1 R1) as (d2 & E2 & R2 & N2); [congruence|]. rewrite E2. cbn [andthen]. destruct (ready_act (fun o => match o with
        | None => if String.eqb (c_string t) "" then Refused else Put (FLink (c_string t)) | Some _ => Refused end) p d2 R2) as [d3 E3].
      { rewrite N2, c_string_id by auto. destruct (String.eqb_spec t ""); congruence. }
      unfold make_link. rewrite E3. eauto.
Qed.
Lemma inputs_ok l L : Forall2 (leaf_rel sblob) l L -> free L -> forall c d, true_copies c -> ordered d -> Forall (clear_for d) L ->
  stage_inputs blob too_many l c d <> Elsewhere /\ (Forall (available blob) l -> exists d', stage_inputs blob too_many l c d = Done d').
Proof.
  induction 1 as [|[p i] [p' o] l L [E1 E2] F IH]; intros Fr c d T O Cl; cbn [stage_inputs].
  - split; [discriminate|eauto].
  - cbn [fst snd] in E1, E2. subst p'. inversion Fr as [|? ? Fr1 Fr2]; inversion Cl as [|? ? C1 C2]; subst.
    destruct (StageInput blob too_many p i c d) as [r c'] eqn:Si. destruct (input_installed p i o c d r c' E2 T O Si) as [T' K].
    destruct (input_ok p i o c d E2 T C1) as [(d1 & c1 & X)|(NT & B & X)]; rewrite Si in X; injection X as -> ->.
    + cbn [andthen]. destruct (K d1 eq_refl) as [I1 O1]. destruct (IH Fr2 c1 d1 T' O1) as [A B].
      { rewrite Forall_forall in *. intros e He. destruct (Fr1 e He). eapply clear_after; eauto. }
      split; auto. intros Av. inversion Av; subst. auto.
    + split; [discriminate|]. intros Av. inversion Av as [|? ? A1 A2]; subst. exfalso. destruct A1 as [A1|A1]; cbn [fst snd] in A1; [congruence|exact (A1 B)].
Qed.

(** *** The whole tree *)
Lemma has_leaf f : forall q, look f q = Some ADirectory -> exists r o, leafs_of [] f (q ++ r) o.
Proof.
  assert (X : forall f, exists r o, leafs_of [] f r o).
  { induction f0 as [x s|t|es IH] using fnode_ind'.
    - exists [], (AFile x s). left. exists []. repeat split. discriminate.
    - exists [], (ALink t). left. exists []. repeat split. discriminate.
    - destruct es as [|[x c] es].
      + exists [], ADirectory. right. exists []. split; auto. split; auto. split; auto.
      + inversion IH as [|? ? (r & o & H) _]; subst. exists (x :: r), o. apply (wanted_dir true [] ((x, c) :: es) (x :: r) o). right.
        exists x, c. split; [cbn; now rewrite String.eqb_refl|]. cbn [snd] in H. destruct H as [(r' & E & H)|(r' & E & H)]; [left|right]; exists r'; cbn in E; subst r'; auto. }
  intros q. revert f. induction q as [|x q IH]; intros f L; [exact (X f)|]. destruct f as [| |es]; try discriminate. rewrite look_dir in L.
  destruct (alookup x es) as [c|] eqn:A; [|discriminate]. destruct (IH c L) as (r & o & H). exists r, o.
  apply (wanted_dir true [] es ((x :: q) ++ r) o). right. exists x, c. split; auto.
  destruct H as [(r' & E & H)|(r' & E & H)]; [left|right]; exists r'; cbn in E; subst r'; auto.
Qed.
Lemma leaf_look f q o : leafs_of [] f q o -> look f q = Some o.
Proof. intros [(r & -> & L & _)|(r & -> & [L _] & ->)]; exact L. Qed.
Lemma whole_tree f L d' : is_dir f = true -> lists L (leafs_of [] f) -> installed (of_list L) (FDir []) d' -> forall q, look d' q = look f q.
Proof.
  intros D [M Fr] [I W R] q. destruct (look f q) as [o|] eqn:E.
  - destruct o as [x s|t|].
    + apply I, M. left. exists q. repeat split; auto. discriminate.
    + apply I, M. left. exists q. repeat split; auto. discriminate.
    + destruct (has_leaf f q E) as (r & o & H). destruct r as [|x r].
      * rewrite app_nil_r in H. apply I, M. apply leaf_look in H as H'. rewrite E in H'. injection H' as <-. exact H.
      * apply W. exists (x :: r), o. split; [discriminate|]. now apply M.
  - assert (Nq : q <> []) by (intros ->; rewrite look_nil in E; discriminate). destruct (concerns_dec L q) as [C|C].
    + destruct C as [(r & o & H)|(p & r & o & -> & H & N)].
      * apply M, leaf_look in H. exfalso. destruct r as [|x r]; [rewrite app_nil_r in H; congruence|]. rewrite (look_up _ _ _ _ H) in E; discriminate.
      * apply I in H as H'. destruct r as [|x r]; [apply M, leaf_look in H; rewrite app_nil_r in E; congruence|]. apply look_file; [rewrite H'; congruence|discriminate].
    + rewrite R; auto. destruct q; [congruence|reflexivity].
Qed.

Section Tree.
Variables (root : string) (f : fnode).
Hypothesis O : ordered f.
Hypothesis K : linkable f.
Hypothesis D : is_dir f = true.
Hypothesis Sy : says read sblob f (Tree, root).

Lemma no_copies : true_copies [].
Proof. intros i s H. discriminate. Qed.
Lemma empty_ordered : ordered (FDir []).
Proof. apply ordered_dir. split; [constructor|intros x c []]. Qed.
Lemma inputs_exact fuel d : StageInputs read blob too_many fuel root (FDir []) = Done d -> d = f.
Proof.
  unfold StageInputs. destruct (leafs read true fuel [] root) as [l|] eqn:El; [|discriminate]. intros E.
  destruct (leafs_lists read sblob true fuel [] root f l O K D Sy El) as (L & F & M). cbn [wanted] in M.
  destruct (inputs_installed l L F (proj2 M) [] (FDir []) d no_copies empty_ordered E) as [I O']. apply look_ext; auto. exact (whole_tree f L d D M I).
Qed.
Lemma plain_look g : plain g -> forall q o, look g q = Some o -> plain_path q.
Proof.
  intros P q. revert g P. induction q as [|x q IH]; intros g P o L; [constructor|]. destruct g as [| |es]; try discriminate. rewrite look_dir in L.
  destruct (alookup x es) as [c|] eqn:A; [|discriminate]. apply alookup_In in A. assert (X : plainb x = true /\ plain c).
  { cbn [plain] in P. clear - P A. induction es as [|[y c'] es IH]; [destruct A|]. cbn [fold_right] in P. destruct P as [P1 P2].
    destruct A as [E|A]; [now injection E as <- <-|auto]. }
  destruct X as [X1 X2]. constructor; [exact X1|]. eapply IH; eauto.
Qed.
Lemma inputs_succeed : plain f ->
  (forall fuel, StageInputs read blob too_many fuel root (FDir []) <> Elsewhere) /\
  (there read sblob f (Tree, root) -> exists n, forall fuel, (n <= fuel)%nat -> StageInputs read blob too_many fuel root (FDir []) = Done f).
Proof.
  intros P.
  assert (X : forall fuel l, leafs read true fuel [] root = Some l -> stage_inputs blob too_many l [] (FDir []) <> Elsewhere /\
     (Forall (available blob) l -> exists d', stage_inputs blob too_many l [] (FDir []) = Done d')).
  { intros fuel l El. destruct (leafs_lists read sblob true fuel [] root f l O K D Sy El) as (L & F & M). cbn [wanted] in M.
    apply (inputs_ok l L F (proj2 M)); [exact no_copies|exact empty_ordered|]. apply Forall_forall. intros [q o] H. apply M, leaf_look in H.
    split; [eapply plain_look; eauto|]. split; [reflexivity|]. cbn [fst snd]. split.
    - intros q' _ _. destruct q'; [now right|now left].
    - destruct q; [right|now left]. rewrite look_nil in H. injection H as <-. split; [|reflexivity]. now destruct f. }
  split.
  - intros fuel. unfold StageInputs. destruct (leafs read true fuel [] root) as [l|] eqn:El; [|discriminate]. eapply X; eauto.
  - intros T. destruct (leafs_there read blob true f O D) as [n H]. exists n. intros fuel L. destruct (H fuel L [] root Sy T) as (l & El & Av).
    destruct (proj2 (X fuel l El) Av) as [d' E]. assert (E' : StageInputs read blob too_many fuel root (FDir []) = Done d') by (unfold StageInputs; now rewrite El).
    rewrite E'. f_equal. eapply inputs_exact; eauto.
Qed.
End Tree.
End Inputs.
