(** The stages of all targets and the inputs of all actions can be installed. *)
From Coq Require Import String Ascii List Bool Arith NArith Lia.
From Verif Require Import Common.Strs LinkedMap.Model Path.Model Path.Spec Path.Proofs Path.Proofs2 Expr.Json Expr.Model Describe.Model.
From Verif Require Import Analysis.Stage Analysis.Model Analysis.Spec Analysis.Proofs Analysis.Taint Analysis.StageSpec Analysis.StageProofs.
Import ListNotations.
Local Open Scope string_scope.
Local Open Scope list_scope.
Local Open Scope nat_scope.

Lemma normal_inside_of s : inside s -> inside (ToNormalPath s).
Proof. intros [A U]. destruct (ToNormalPath_same_place s) as [E1 E2]. split; [congruence|now rewrite E2]. Qed.

Lemma inside_of_normal s : inside (ToNormalPath s) -> inside s.
Proof. intros [A U]. destruct (ToNormalPath_same_place s) as [E1 E2]. split; [congruence|now rewrite <- E2]. Qed.

(** ** Checked stages *)
Section Checked.
Variable W : world.
Hypothesis FE : forall a b, w_expr_eqb W a b = true -> a = b.

Lemma checked_sound v n : checked_stage W v = Some n -> exists m, v = EMap m /\ all_artifacts m = true /\ tidy n /\ same_stage m n.
Proof.
  unfold checked_stage. destruct v as [| | | | | | | | |m]; try discriminate.
  destruct (all_artifacts m) eqn:Ea; [|discriminate]. unfold artifacts_tree.
  destruct (artifacts_tree_go (eqe W) m []) as [|n'] eqn:Et; [discriminate|].
  destruct (tree_conflict n') eqn:Ec; [discriminate|]. intros E. injection E as <-. exists m. split; [auto|]. split; [auto|].
  destruct (artifacts_tree_spec (eqe W) FE m [] n') as (A & B & _ & D & F); auto.
  { constructor. } { intros e []. }
  assert (Hi : installable n') by (apply tree_conflict_spec; auto).
  split.
  - split; [auto|]. split; [|split; [exact B|auto]]. unfold all_artifacts. apply forallb_forall. intros e He.
    destruct (F e He) as [[]|(e' & He' & ->)]. cbn. unfold all_artifacts in Ea. rewrite forallb_forall in Ea. exact (Ea e' He').
  - split.
    + intros e He. exists (ToNormalPath (fst e), snd e). split; [auto|]. split; [|reflexivity]. cbn. symmetry. apply ToNormalPath_same_place.
    + intros e' He'. destruct (F e' He') as [[]|(e & He & ->)]. exists e. split; [auto|]. split; [|reflexivity]. cbn. symmetry. apply ToNormalPath_same_place.
Qed.

Lemma checked_complete m : (forall a, w_expr_eqb W a a = true) -> all_artifacts m = true -> consistent m ->
  exists n, checked_stage W (EMap m) = Some n.
Proof.
  intros Hr Ha [Hi Hc]. unfold checked_stage. rewrite Ha. unfold artifacts_tree.
  assert (Hp : forall e e', In e m -> In e' m -> ToNormalPath (fst e) = ToNormalPath (fst e') -> same_entry e e').
  { intros e e' He He' E. destruct (Hc e e' He He') as [S|[U _]]; auto. exfalso. apply U.
    assert (place_of (fst e) = place_of (fst e')) as ->.
    { destruct (ToNormalPath_same_place (fst e)) as [_ <-]. destruct (ToNormalPath_same_place (fst e')) as [_ <-]. now rewrite E. }
    split; auto. now exists []. }
  destruct (artifacts_tree_complete (eqe W) m Hr []) as [n E].
  { constructor. } { intros e e' He He' E. now destruct (Hp e e' He He' E). } { intros e e' []. }
  rewrite E. destruct (artifacts_tree_spec (eqe W) FE m [] n) as (A & B & _ & D & F); auto.
  { constructor. } { intros e []. }
  assert (Hin : tree_conflict n = None).
  { apply tree_conflict_spec; auto. split.
    - intros e He. destruct (F e He) as [[]|(e' & He' & ->)]. cbn. apply normal_inside_of. auto.
    - intros e1 e2 H1 H2 Hne. destruct (F e1 H1) as [[]|(e1' & H1' & ->)]. destruct (F e2 H2) as [[]|(e2' & H2' & ->)]. cbn [fst].
      destruct (ToNormalPath_same_place (fst e1')) as [A1 ->]. destruct (ToNormalPath_same_place (fst e2')) as [A2 ->].
      destruct (Hc e1' e2' H1' H2') as [[S1 S2]|U]; auto. exfalso. apply Hne. f_equal; auto.
      apply ToNormalPath_canonical; auto. destruct (Hi _ H1') as [-> _]. now destruct (Hi _ H2') as [-> _]. }
  rewrite Hin. eauto.
Qed.
End Checked.

(** ** Merging *)

Lemma overwrite_sorted b : forall a, sorted_keys a -> sorted_keys (overwrite a b).
Proof. unfold overwrite. induction b as [|p r IH]; intros a Hs; cbn; auto using ainsert_sorted. Qed.
Lemma overwrite_In b : forall a e, In e (overwrite a b) -> In e a \/ In e b.
Proof.
  unfold overwrite. induction b as [|[k v] r IH]; intros a e He; cbn in *; auto.
  apply IH in He as [He|He]; auto. apply In_ainsert in He as [->|He]; auto.
Qed.

Definition spelt (m : items) : Prop := sorted_keys m /\ all_artifacts m = true /\ (forall e, In e m -> normal (fst e)).

Lemma all_artifacts_In m e : all_artifacts m = true -> In e m -> is_artifact (snd e) = true.
Proof. unfold all_artifacts. rewrite forallb_forall. auto. Qed.

Lemma spelt_overwrite a b : spelt a -> (forall e, In e b -> is_artifact (snd e) = true /\ normal (fst e)) -> spelt (overwrite a b).
Proof.
  intros (A1 & A2 & A3) Hb. split; [now apply overwrite_sorted|]. split.
  - apply forallb_forall. intros e He. apply overwrite_In in He as [He|He]; [now apply (all_artifacts_In a)|now apply Hb].
  - intros e He. apply overwrite_In in He as [He|He]; [auto|now apply Hb].
Qed.
Lemma spelt_entries m e : spelt m -> In e m -> is_artifact (snd e) = true /\ normal (fst e).
Proof. intros (A & B & C) He. split; [now apply (all_artifacts_In m)|auto]. Qed.
Lemma tidy_spelt m : tidy m -> spelt m.
Proof. intros (A & B & C & _). split; auto. Qed.
Lemma spelt_nil : spelt [].
Proof. split; [constructor|]. split; [reflexivity|]. intros e []. Qed.
Lemma tidy_nil : tidy [].
Proof. split; [constructor|]. split; [reflexivity|]. split; [intros e []|]. split; [intros e []|intros e e' []]. Qed.
Lemma spelt_tidy m : spelt m -> tree_conflict m = None -> tidy m.
Proof. intros (A & B & C) H. split; [auto|]. split; [auto|]. split; [exact C|]. now apply tree_conflict_spec. Qed.
Lemma tidy_one n x : is_artifact x = true -> proper_path n -> tidy [(n, x)].
Proof.
  intros Hx [Hn Hi]. split; [repeat constructor|]. split; [cbn; now rewrite Hx|]. split; [intros e [<-|[]]; auto|].
  split; [intros e [<-|[]]; auto|]. intros e e' [<-|[]] [<-|[]] H. congruence.
Qed.

Lemma spelt_aemplace k v m : spelt m -> is_artifact v = true -> normal k -> spelt (aemplace k v m).
Proof.
  intros (A & B & C) Hv Hk. split; [now apply aemplace_sorted|]. split.
  - apply forallb_forall. intros e He. apply In_aemplace in He as [->|He]; [auto|now apply (all_artifacts_In m)].
  - intros e He. apply In_aemplace in He as [->|He]; auto.
Qed.

Lemma spelt_merge W a b m : spelt a -> spelt b -> merge W a b = Some m -> spelt m.
Proof.
  intros Ha Hb. unfold merge. destruct (find_conflict W a b); [discriminate|]. intros E. injection E as <-.
  apply spelt_overwrite; auto. intros e He. now apply (spelt_entries b).
Qed.
Lemma spelt_merge_all W l : forall a m, spelt a -> (forall x, In x l -> spelt x) -> merge_all W a l = Some m -> spelt m.
Proof.
  induction l as [|x r IH]; intros a m Ha Hl; cbn [merge_all]; [intros E; now injection E as <-|].
  unfold bind. destruct (merge W a x) as [a'|] eqn:E; [|discriminate]. apply IH.
  - apply (spelt_merge W a x a' Ha); [apply Hl; now left|exact E].
  - intros y Hy. apply Hl. now right.
Qed.

(** ** Working directories *)

Lemma tidy_insert cwd art m : tidy m -> is_artifact art = true -> proper_path cwd ->
  (forall e, In e m -> unrelated (place_of cwd) (place_of (fst e))) -> tidy (ainsert cwd art m).
Proof.
  intros (A & B & C & [D1 D2]) Ha [Hn Hi] Hu. split; [now apply ainsert_sorted|]. split; [|split; [|split]].
  - apply forallb_forall. intros e He. apply In_ainsert in He as [->|He]; [auto|now apply (all_artifacts_In m)].
  - intros e He. apply In_ainsert in He as [->|He]; auto.
  - intros e He. apply In_ainsert in He as [->|He]; auto.
  - intros e e' He He' Hne. apply In_ainsert in He as [->|He]; apply In_ainsert in He' as [->|He']; auto.
    + congruence.
    + cbn. destruct (Hu e He) as [U1 U2]. split; auto.
Qed.

Lemma blocked_spec cwd p x : proper_path cwd -> cwd <> "." -> proper_path p ->
  add_dir_blocked cwd (p, x) = true <-> ~ unrelated (place_of cwd) (place_of p).
Proof.
  intros [Nc Ic] Hd [Np Ip]. destruct (normal_inside cwd Nc Ic) as (cs & Hc & Ec & Pc).
  destruct (normal_inside p Np Ip) as (ps & Hp & Ep & Pp). rewrite Pc, Pp, unrelated_spell.
  assert (Hcs : cs <> []) by (intros ->; cbn in Ec; congruence).
  unfold add_dir_blocked. cbn [fst].
  assert (E0 : String.eqb p "" = false) by (apply String.eqb_neq; rewrite Ep; now apply spell_ne). rewrite E0. cbn [orb].
  destruct ps as [|p0 ps'].
  { cbn in Ep. rewrite Ep, String.eqb_refl. cbn [orb]. split; [|auto]. intros _ [_ H]. apply H. now exists cs. }
  assert (E1 : String.eqb p "." = false).
  { apply String.eqb_neq. rewrite Ep. change "." with (spell []). intros E. apply spell_inj in E; auto. discriminate. }
  rewrite E1. cbn [orb].
  assert (X1 : existsb (fun c => path_eqb c p) (self_and_parents cwd) = true <-> prefix_of (p0 :: ps') cs).
  { rewrite existsb_exists. split.
    - intros (c & Hin & Heq). rewrite Ec in Hin. apply self_and_parents_spec in Hin; auto. destruct Hin as (a & Ha & Hpre & ->).
      rewrite Ep in Heq. apply spell_eqb in Heq; [now subst|destruct Hpre as [l ->]; apply Forall_app in Hc; tauto|auto].
    - intros Hpre. exists p. split; [|rewrite Ep; now apply spell_eqb]. rewrite Ec. apply self_and_parents_spec; auto.
      exists (p0 :: ps'). split; [discriminate|auto]. }
  assert (X2 : existsb (fun q => path_eqb q cwd) (self_and_parents p) = true <-> prefix_of cs (p0 :: ps')).
  { rewrite existsb_exists. split.
    - intros (c & Hin & Heq). rewrite Ep in Hin. apply self_and_parents_spec in Hin; [|auto|discriminate]. destruct Hin as (a & Ha & Hpre & ->).
      rewrite Ec in Heq. apply spell_eqb in Heq; [now subst|destruct Hpre as [l Hl]; rewrite Hl in Hp; apply Forall_app in Hp; tauto|auto].
    - intros Hpre. exists cwd. split; [|rewrite Ec; now apply spell_eqb]. rewrite Ep. apply self_and_parents_spec; [auto|discriminate|].
      exists cs. split; [exact Hcs|auto]. }
  rewrite orb_true_iff, X1, X2.
  assert (D1 : prefix_of (p0 :: ps') cs \/ ~ prefix_of (p0 :: ps') cs).
  { destruct (existsb (fun c => path_eqb c p) (self_and_parents cwd)); [left; now apply X1|right; intros H; now apply X1 in H]. }
  assert (D2 : prefix_of cs (p0 :: ps') \/ ~ prefix_of cs (p0 :: ps')).
  { destruct (existsb (fun q => path_eqb q cwd) (self_and_parents p)); [left; now apply X2|right; intros H; now apply X2 in H]. }
  tauto.
Qed.

Section Dir.
Variable ndump : num -> string.
Variable H : string -> string.
Let empty_dir : expr := EArt (art_ToJson (ATree (tree_id ndump H []))).

(** Where the inputs leave room, an empty directory is added; otherwise there is an entry at, above or below
    the working directory already. *)
Lemma add_dir_spec cwd m : tidy m -> cwd = "" \/ proper_path cwd ->
  exists n, fst (add_dir_for ndump H cwd m) = n /\ tidy n /\ (forall e, In e m -> In e n) /\
    (forall e, In e n -> In e m \/ (e = (cwd, empty_dir) /\ forall e', In e' m -> unrelated (place_of cwd) (place_of (fst e')))) /\
    (place_of cwd = mkPlace 0 [] \/ exists e, In e n /\ ~ unrelated (place_of cwd) (place_of (fst e))).
Proof.
  intros Hm Hc. unfold add_dir_for.
  destruct (String.eqb cwd "" || String.eqb cwd ".") eqn:Et.
  { exists m. cbn [fst]. split; [auto|]. split; [auto|]. split; [auto|]. split; [auto|]. left.
    apply orb_prop in Et as [E|E]; apply String.eqb_eq in E; subst; reflexivity. }
  apply orb_false_elim in Et as [E1 E2]. apply String.eqb_neq in E1, E2. destruct Hc as [->|Hc]; [congruence|].
  assert (Hb : forall e, In e m -> add_dir_blocked cwd e = true <-> ~ unrelated (place_of cwd) (place_of (fst e))).
  { intros [p x] He. destruct Hm as (_ & _ & C & [D _]). apply blocked_spec; auto. split; [exact (C (p, x) He)|exact (D (p, x) He)]. }
  destruct (existsb (add_dir_blocked cwd) m) eqn:Eb.
  { exists m. cbn [fst]. split; [auto|]. split; [auto|]. split; [auto|]. split; [auto|]. right.
    apply existsb_exists in Eb as (e & He & Heb). exists e. split; [auto|]. now apply Hb. }
  assert (Hu : forall e, In e m -> unrelated (place_of cwd) (place_of (fst e))).
  { intros e He. split; intros Hr.
    - assert (Hf : add_dir_blocked cwd e = true) by (apply Hb; [auto|]; intros [U _]; contradiction).
      rewrite <- not_true_iff_false in Eb. apply Eb. apply existsb_exists. eauto.
    - assert (Hf : add_dir_blocked cwd e = true) by (apply Hb; [auto|]; intros [_ U]; contradiction).
      rewrite <- not_true_iff_false in Eb. apply Eb. apply existsb_exists. eauto. }
  exists (ainsert cwd empty_dir m). cbn [fst]. split; [reflexivity|]. split; [now apply tidy_insert|].
  assert (Hs : sorted_keys m) by apply Hm.
  assert (Hnew : In (cwd, empty_dir) (ainsert cwd empty_dir m)).
  { apply alookup_In. rewrite ainsert_lookup, String.eqb_refl. reflexivity. }
  split; [|split].
  - intros [k v] He. apply alookup_In. rewrite ainsert_lookup. destruct (String.eqb_spec k cwd) as [->|]; [|now apply sorted_alookup_In].
    exfalso. destruct (Hu _ He) as [U _]. apply U. cbn. split; [auto|]. now exists [].
  - intros e He. apply In_ainsert in He as [->|He]; auto.
  - right. exists (cwd, empty_dir). split; [exact Hnew|]. intros [U _]. apply U. cbn. split; [auto|]. now exists [].
Qed.
End Dir.
