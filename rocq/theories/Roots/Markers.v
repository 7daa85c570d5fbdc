(** Markers of valid trees: soundness over all histories. *)
From Coq Require Import String Ascii List Bool Arith Lia.
From Verif Require Import Common.Strs Path.Spec Path.Model Path.Proofs Path.Proofs2.
From Verif Require Import Roots.Model Roots.Spec.
Import ListNotations.
Local Open Scope string_scope.
Local Open Scope list_scope.
Local Open Scope nat_scope.

Lemma item_rec' (P : item -> Prop) :
  (forall x c, P (Regular x c)) -> (forall c, P (SymLink c)) -> P Special ->
  (forall es, Forall (fun e => P (snd e)) es -> P (Directory es)) -> forall n, P n.
Proof.
  intros A B C D. fix IH 1. intros [x c|c| |es]; [apply A|apply B|apply C|]. apply D.
  induction es as [|[f x] es IHl]; [constructor|]. constructor; [apply IH|exact IHl].
Qed.

Lemma In_alookup {V} k (v : V) (l : list (string * V)) : NoDup (map fst l) -> In (k, v) l -> alookup k l = Some v.
Proof.
  induction l as [|[a b] l IH]; cbn [map fst]; intros N I; [destruct I|]. inversion N; subst. cbn [alookup].
  destruct (String.eqb_spec k a) as [->|NE].
  - destruct I as [E|I]; [congruence|]. exfalso. apply H1. change a with (fst (a, v)). now apply in_map.
  - destruct I as [E|I]; [congruence|]. now apply IH.
Qed.

Lemma at_path_app n p q : at_path n (p ++ q) = match at_path n p with Some m => at_path m q | None => None end.
Proof.
  revert n. induction p as [|c p IH]; intros n; [reflexivity|]. cbn [app at_path].
  destruct n as [| | |es]; try reflexivity. destruct (alookup c es); [apply IH|reflexivity].
Qed.

Lemma proper_sub t p es : proper t -> at_path t p = Some (Directory es) -> proper (Directory es).
Proof. intros P E q es' Q. apply (P (p ++ q)). now rewrite at_path_app, E. Qed.

Lemma valid_sub t p n : valid t -> at_path t p = Some n -> valid n.
Proof. intros P E q x Q. apply (P (p ++ q)). now rewrite at_path_app, E. Qed.

Lemma downward_ok c : downward c <-> PathIsNonUpwards c = true.
Proof. symmetry. apply nonupwards_exact. Qed.

(** ** Reading of a tree as it is *)
Lemma read_direct es : directly_valid es <-> ReadTree es false = Some es.
Proof.
  unfold ReadTree, ReadDirectTree, directly_valid. cbn [orb]. split.
  - intros D.
    rewrite (proj2 (forallb_forall _ es)), (proj2 (forallb_forall _ es)); [reflexivity| |].
    + intros [f x] I. destruct (D f x I) as [_ L]. destruct x; try reflexivity. cbn. now apply downward_ok, L.
    + intros [f x] I. destruct (D f x I) as [L _]. destruct x as [[] | | |]; try reflexivity. congruence.
  - destruct (forallb _ es) eqn:A; [|discriminate]. destruct (forallb (fun e => link_ok _) es) eqn:B; [|discriminate].
    intros _ f x I. rewrite forallb_forall in A, B. specialize (A _ I). specialize (B _ I). cbn in A, B. split.
    + intros ->. discriminate.
    + intros c ->. now apply downward_ok.
Qed.

Lemma read_direct_some es es' : ReadTree es false = Some es' -> es' = es.
Proof.
  unfold ReadTree, ReadDirectTree. destruct (forallb _ es); [|discriminate].
  destruct (_ || _)%bool; [|discriminate]. congruence.
Qed.

Definition vdir (n : item) : Prop := match n with Directory _ => valid n | _ => True end.

Lemma valid_dir es : directly_valid es -> Forall (fun e => vdir (snd e)) es -> valid (Directory es).
Proof.
  intros D F p x E. destruct p as [|c r]; cbn in E; [injection E as <-; split; [discriminate|congruence]|].
  destruct (alookup c es) as [m|] eqn:L; [|discriminate]. apply alookup_In in L.
  rewrite Forall_forall in F. pose proof (F _ L) as V. cbn in V.
  destruct r as [|d r]; [cbn in E; injection E as <-; exact (D _ _ L)|].
  destruct m as [| | |es']; try discriminate E. exact (V _ _ E).
Qed.

Lemma valid_direct es : NoDup (map fst es) -> valid (Directory es) -> directly_valid es.
Proof. intros N V f x I. apply (V [f]). cbn. now rewrite (In_alookup _ _ _ N I). Qed.

Section Ids.
Variable tree_id : list (string * item) -> string.
Notation Check := (check_tree tree_id).

Lemma check_dir es m : Check (Directory es) m =
  match IsTreeValid m (tree_id es) with
  | (m, true) => (m, true)
  | (m, false) => match ReadTree es false with
    | None => (m, false)
    | Some _ => match ValidateGitSubtrees tree_id es m with
                | (m, true) => MarkTreeValid m (tree_id es)
                | (m, false) => (m, false)
                end
    end
  end.
Proof. reflexivity. Qed.

(** ** Soundness *)
Definition marked (m : markers) (id : string) : Prop := exists g, In g (m_gens m) /\ In id g.

Lemma mark_marked m id m' b x : MarkTreeValid m id = (m', b) -> marked m' x -> x = id \/ marked m x.
Proof.
  unfold MarkTreeValid. intros E [g [A B]].
  assert (m_gens m' = m_gens m \/ m_gens m' = match m_gens m with g :: r => (id :: g) :: r | [] => [[id]] end) as X
    by (destruct (m_fail m) as [|[] f]; injection E as <- <-; cbn; auto).
  destruct X as [X|X]; rewrite X in A; [right; now exists g|].
  destruct (m_gens m) as [|g0 r] eqn:G; cbn in A.
  - destruct A as [<- |[]]. destruct B as [B|[]]. now left.
  - destruct A as [<- |A].
    + destruct B as [B|B]; [now left|]. right. exists g0. rewrite G. cbn. auto.
    + right. exists g. rewrite G. cbn. auto.
Qed.

Lemma mem_In id l : mem id l = true <-> In id l.
Proof.
  unfold mem. rewrite existsb_exists. split.
  - intros [x [A B]]. apply String.eqb_eq in B. now subst.
  - intros A. exists id. split; [exact A|apply String.eqb_refl].
Qed.

Lemma is_valid_spec m id m' b : IsTreeValid m id = (m', b) ->
  (forall x, marked m' x -> marked m x) /\ (b = true -> marked m id).
Proof.
  unfold IsTreeValid. destruct (m_gens m) as [|g r] eqn:G.
  - intros E. injection E as <- <-. split; [auto|discriminate].
  - destruct (mem id g) eqn:M.
    + intros E. injection E as <- <-. split; [auto|]. intros _. exists g. rewrite G. split; [now left|now apply mem_In].
    + destruct (existsb (mem id) r) eqn:X.
      * assert (marked m id) as MK.
        { apply existsb_exists in X. destruct X as [h [A B]]. exists h. rewrite G. split; [now right|now apply mem_In]. }
        intros E. split; [|auto]. intros x K. destruct (mark_marked _ _ _ _ _ E K) as [->|K']; assumption.
      * intros E. injection E as <- <-. split; [auto|discriminate].
Qed.

Section Universe.
Variable U : list (string * item) -> Prop.
Hypothesis no_collision : forall a b, U a -> U b -> tree_id a = tree_id b -> a = b.
Definition within (n : item) : Prop := match n with Directory es => U es | _ => True end.
Hypothesis closed : forall es, U es -> Forall (fun e => within (snd e)) es.

Definition sound (m : markers) : Prop :=
  forall id, marked m id -> exists es, U es /\ tree_id es = id /\ valid (Directory es).

Lemma sound_mark m es m' b : sound m -> U es -> valid (Directory es) -> MarkTreeValid m (tree_id es) = (m', b) -> sound m'.
Proof.
  intros S I V E id K. destruct (mark_marked _ _ _ _ _ E K) as [->|K']; [exists es; auto|now apply S].
Qed.

Lemma sound_isvalid m es m' b : sound m -> U es -> IsTreeValid m (tree_id es) = (m', b) ->
  sound m' /\ (b = true -> valid (Directory es)).
Proof.
  intros S I E. destruct (is_valid_spec _ _ _ _ E) as [A B]. split.
  - intros id K. apply S, A, K.
  - intros T. destruct (S _ (B T)) as (es' & I' & EE & V). now rewrite <- (no_collision _ _ I' I EE).
Qed.

Definition good_check (n : item) : Prop := forall m m' b, sound m -> within n -> Check n m = (m', b) ->
  sound m' /\ (b = true -> vdir n).

Lemma subtrees_sound l : Forall (fun e => good_check (snd e)) l -> Forall (fun e => within (snd e)) l ->
  forall m m' b, sound m -> ValidateGitSubtrees tree_id l m = (m', b) ->
  sound m' /\ (b = true -> Forall (fun e => vdir (snd e)) l).
Proof.
  induction l as [|[f x] l IH]; intros G W m m' b S E; cbn [ValidateGitSubtrees] in E.
  - injection E as <- <-. split; [exact S|constructor].
  - inversion G as [|? ? G1 G2]; subst. inversion W as [|? ? W1 W2]; subst.
    destruct (Check x m) as [m1 b1] eqn:E1. destruct (G1 _ _ _ S W1 E1) as [S1 V1].
    destruct b1; [|injection E as <- <-; split; [exact S1|discriminate]].
    destruct (IH G2 W2 _ _ _ S1 E) as [S2 V2]. split; [exact S2|]. intros T. constructor; auto.
Qed.

Lemma check_sound n : good_check n.
Proof.
  induction n as [x c|c| |es IH] using item_rec'; intros m m' b S W E;
    try (cbn in E; injection E as <- <-; split; [exact S|constructor]).
  cbn [within] in W. rewrite check_dir in E. destruct (IsTreeValid m (tree_id es)) as [m1 b1] eqn:E1.
  destruct (sound_isvalid _ _ _ _ S W E1) as [S1 V1].
  destruct b1; [injection E as <- <-; split; [exact S1|cbn; auto]|].
  destruct (ReadTree es false) as [es'|] eqn:R; [|injection E as <- <-; split; [exact S1|discriminate]].
  pose proof (read_direct_some _ _ R) as ->. apply read_direct in R.
  destruct (ValidateGitSubtrees tree_id es m1) as [m2 b2] eqn:E2.
  destruct (subtrees_sound es IH (closed _ W) _ _ _ S1 E2) as [S2 V2].
  destruct b2; [|injection E as <- <-; split; [exact S2|discriminate]].
  assert (valid (Directory es)) as V by (apply valid_dir; auto).
  split; [exact (sound_mark _ _ _ _ S2 W V E)|cbn; auto].
Qed.

Lemma git_tree_sound n m m' b : sound m -> within n -> IsGitTreeValid tree_id n m = (m', b) ->
  sound m' /\ (b = true -> valid n).
Proof.
  unfold IsGitTreeValid. intros S W E.
  destruct n as [x c|c| |es]; try (injection E as <- <-; split; [exact S|discriminate]).
  exact (check_sound (Directory es) m m' b S W E).
Qed.

Lemma read_sound es m m' r : sound m -> U es -> ReadValidGitCASTree tree_id es m = (m', r) ->
  sound m' /\ (forall es', r = Some es' -> es' = es /\ valid (Directory es)).
Proof.
  unfold ReadValidGitCASTree. intros S W E. destruct (IsTreeValid m (tree_id es)) as [m1 b1] eqn:E1.
  destruct (sound_isvalid _ _ _ _ S W E1) as [S1 V1].
  destruct b1.
  - injection E as <- <-. split; [exact S1|]. intros es' R. split; [|auto].
    unfold ReadDirectTree in R. destruct (forallb _ es); congruence.
  - destruct (ReadTree es false) as [es'|] eqn:R; [|injection E as <- <-; split; [exact S1|discriminate]].
    pose proof (read_direct_some _ _ R) as ->. apply read_direct in R.
    destruct (ValidateGitSubtrees tree_id es m1) as [m2 b2] eqn:E2.
    destruct (subtrees_sound es ltac:(apply Forall_forall; intros ? ?; apply check_sound) (closed _ W) _ _ _ S1 E2) as [S2 V2].
    destruct b2; [|injection E as <- <-; split; [exact S2|discriminate]].
    assert (valid (Directory es)) as V by (apply valid_dir; auto).
    destruct (MarkTreeValid m2 (tree_id es)) as [m3 b3] eqn:E3.
    pose proof (sound_mark _ _ _ _ S2 W V E3) as S3.
    destruct b3; injection E as <- <-; (split; [exact S3|]); [intros es' Q; injection Q as <-; auto|discriminate].
Qed.
End Universe.

(** ** Histories *)

(** What happens to the storage: a tree is checked, or read by its identifier; a check is killed, so that its last
    [k] markers were not made any more; garbage is collected. *)
Inductive event :=
| Checked (t : item)
| Read_by_id (es : list (string * item))
| Killed (t : item) (k : nat)
| Collected.

Definition undo (k : nat) (m : markers) : markers :=
  mkMarkers (match m_gens m with g :: r => skipn k g :: r | [] => [] end) (m_fail m).

Definition happens (m : markers) (e : event) : markers :=
  match e with
  | Checked t => fst (IsGitTreeValid tree_id t m)
  | Read_by_id es => fst (ReadValidGitCASTree tree_id es m)
  | Killed t k => undo k (fst (IsGitTreeValid tree_id t m))
  | Collected => rotate m
  end.
Definition history (h : list event) (m : markers) : markers := fold_left happens h m.

Definition tree_of (e : event) : option item :=
  match e with Checked t | Killed t _ => Some t | Read_by_id es => Some (Directory es) | Collected => None end.

(** The directories in the trees of a history. *)
Definition directory_in (h : list event) (es : list (string * item)) : Prop :=
  exists e t p, In e h /\ tree_of e = Some t /\ at_path t p = Some (Directory es).

Lemma incl_removelast {A} (l : list A) : incl (removelast l) l.
Proof.
  induction l as [|a l IH]; [intros x []|]. cbn. destruct l as [|b l]; [intros x []|].
  intros x [->|I]; [now left|right; now apply IH].
Qed.

Lemma sound_rotate U m : sound U m -> sound U (rotate m).
Proof.
  intros S id [g [A B]]. apply S. unfold rotate in A. cbn in A. destruct A as [<- |A]; [destruct B|].
  exists g. split; [now apply incl_removelast|exact B].
Qed.

Lemma In_skipn {A} k : forall (l : list A) x, In x (skipn k l) -> In x l.
Proof. induction k; intros l x; [auto|]. destruct l; [auto|]. cbn. intros I. right. now apply IHk. Qed.

Lemma sound_undo U k m : sound U m -> sound U (undo k m).
Proof.
  intros S id [g [A B]]. apply S. unfold undo in A. cbn in A. destruct (m_gens m) as [|g0 r] eqn:G; [destruct A|].
  destruct A as [<- |A]; [exists g0; rewrite G; split; [now left|exact (In_skipn _ _ _ B)]|].
  exists g. rewrite G. split; [now right|exact B].
Qed.

Section Histories.
Variable h : list event.
Hypothesis propers : forall e t, In e h -> tree_of e = Some t -> proper t.
Hypothesis no_collision : forall a b, directory_in h a -> directory_in h b -> tree_id a = tree_id b -> a = b.

Lemma in_closed es : directory_in h es -> Forall (fun e => within (directory_in h) (snd e)) es.
Proof.
  intros (e & t & p & I & T & E). apply Forall_forall. intros [f x] J. cbn. destruct x as [| | |es']; try exact Logic.I.
  destruct (propers _ _ I T _ _ E) as [N _].
  exists e, t, (p ++ [f]). split; [exact I|]. split; [exact T|]. rewrite at_path_app, E. cbn.
  now rewrite (In_alookup _ _ _ N J).
Qed.

Lemma within_in e t : In e h -> tree_of e = Some t -> within (directory_in h) t.
Proof. intros I T. destruct t as [| | |es]; try exact Logic.I. exists e, (Directory es), []. auto. Qed.

Lemma happens_sound m e : sound (directory_in h) m -> In e h -> sound (directory_in h) (happens m e).
Proof.
  intros S I. destruct e as [t|es|t k|]; cbn [happens].
  - destruct (IsGitTreeValid tree_id t m) as [m' b] eqn:E.
    exact (proj1 (git_tree_sound _ no_collision in_closed _ _ _ _ S (within_in _ _ I eq_refl) E)).
  - destruct (ReadValidGitCASTree tree_id es m) as [m' b] eqn:E.
    exact (proj1 (read_sound _ no_collision in_closed _ _ _ _ S (within_in _ _ I eq_refl) E)).
  - apply sound_undo. destruct (IsGitTreeValid tree_id t m) as [m' b] eqn:E.
    exact (proj1 (git_tree_sound _ no_collision in_closed _ _ _ _ S (within_in _ _ I eq_refl) E)).
  - now apply sound_rotate.
Qed.

Lemma history_sound l : incl l h -> forall m, sound (directory_in h) m -> sound (directory_in h) (history l m).
Proof.
  unfold history. induction l as [|e l IH]; intros L m S; [exact S|]. cbn [fold_left]. apply IH.
  - intros x I. apply L. now right.
  - apply happens_sound; [exact S|]. apply L. now left.
Qed.
End Histories.

Lemma sound_fresh U fails : sound U (mkMarkers [] fails).
Proof. intros id [g [[] _]]. Qed.

Lemma directory_in_incl h h' es : incl h h' -> directory_in h es -> directory_in h' es.
Proof. intros I (e & t & p & A & B & C). exists e, t, p. auto. Qed.

Lemma checked_valid h t fails m' :
  (forall e u, In e (h ++ [Checked t]) -> tree_of e = Some u -> proper u) ->
  (forall a b, directory_in (h ++ [Checked t]) a -> directory_in (h ++ [Checked t]) b -> tree_id a = tree_id b -> a = b) ->
  IsGitTreeValid tree_id t (history h (mkMarkers [] fails)) = (m', true) -> valid t.
Proof.
  intros P C E. set (hh := h ++ [Checked t]) in *.
  assert (In (Checked t) hh) as I by (apply in_or_app; right; now left).
  assert (sound (directory_in hh) (history h (mkMarkers [] fails))) as S.
  { apply (history_sound hh P C); [intros x J; apply in_or_app; now left|apply sound_fresh]. }
  exact (proj2 (git_tree_sound _ C (in_closed hh P) _ _ _ _ S (within_in hh _ _ I eq_refl) E) eq_refl).
Qed.

Lemma read_valid h es fails m' es' :
  (forall e u, In e (h ++ [Read_by_id es]) -> tree_of e = Some u -> proper u) ->
  (forall a b, directory_in (h ++ [Read_by_id es]) a -> directory_in (h ++ [Read_by_id es]) b -> tree_id a = tree_id b -> a = b) ->
  ReadValidGitCASTree tree_id es (history h (mkMarkers [] fails)) = (m', Some es') -> es' = es /\ valid (Directory es).
Proof.
  intros P C E. set (hh := h ++ [Read_by_id es]) in *.
  assert (In (Read_by_id es) hh) as I by (apply in_or_app; right; now left).
  assert (sound (directory_in hh) (history h (mkMarkers [] fails))) as S.
  { apply (history_sound hh P C); [intros x J; apply in_or_app; now left|apply sound_fresh]. }
  exact (proj2 (read_sound _ C (in_closed hh P) _ _ _ _ S (within_in hh _ _ I eq_refl) E) es' eq_refl).
Qed.

(** ** Completeness *)

Definition no_failures (m : markers) : Prop := m_fail m = [].

Lemma mark_ok m id : no_failures m -> exists m', MarkTreeValid m id = (m', true) /\ no_failures m'.
Proof. unfold no_failures, MarkTreeValid. intros ->. cbn. eexists. split; reflexivity. Qed.

Lemma isvalid_ok m id : no_failures m -> exists m' b, IsTreeValid m id = (m', b) /\ no_failures m'.
Proof.
  intros F. unfold IsTreeValid. destruct (m_gens m) as [|g r]; [eauto|]. destruct (mem id g); [eauto|].
  destruct (existsb (mem id) r); [|eauto]. destruct (mark_ok m id F) as (m' & -> & F'). eauto.
Qed.

Lemma subtrees_complete l :
  Forall (fun e => forall m, no_failures m -> exists m', Check (snd e) m = (m', true) /\ no_failures m') l ->
  forall m, no_failures m -> exists m', ValidateGitSubtrees tree_id l m = (m', true) /\ no_failures m'.
Proof.
  induction l as [|[f x] l IH]; intros G m F; [exists m; split; [reflexivity|exact F]|].
  inversion G as [|? ? G1 G2]; subst. cbn [ValidateGitSubtrees]. destruct (G1 m F) as (m1 & E1 & F1). cbn in E1.
  rewrite E1. apply (IH G2 m1 F1).
Qed.

Lemma check_complete n : (forall es, n = Directory es -> proper n /\ valid n) ->
  forall m, no_failures m -> exists m', Check n m = (m', true) /\ no_failures m'.
Proof.
  induction n as [x c|c| |es IH] using item_rec'; intros H m F;
    try (exists m; split; [reflexivity|exact F]).
  destruct (H es eq_refl) as [P V]. destruct (P [] es eq_refl) as [N _].
  rewrite check_dir. destruct (isvalid_ok m (tree_id es) F) as (m1 & b1 & -> & F1).
  destruct b1; [eauto|].
  rewrite (proj1 (read_direct es) (valid_direct es N V)).
  destruct (subtrees_complete es) with (m := m1) as (m2 & E2 & F2); [|exact F1|].
  - rewrite Forall_forall in IH |- *. intros [f x] I. cbn. intros m0 F0. apply (IH _ I); [|exact F0].
    intros es' E. cbn in E. subst x.
    assert (at_path (Directory es) [f] = Some (Directory es')) as A by (cbn; now rewrite (In_alookup _ _ _ N I)).
    split; [exact (proper_sub _ _ _ P A)|exact (valid_sub _ _ _ V A)].
  - rewrite E2. now apply mark_ok.
Qed.

Lemma git_tree_complete es : proper (Directory es) -> valid (Directory es) -> forall m, no_failures m ->
  exists m', IsGitTreeValid tree_id (Directory es) m = (m', true) /\ no_failures m'.
Proof. intros P V m F. apply (check_complete (Directory es)); [auto|exact F]. Qed.

Lemma read_complete es : proper (Directory es) -> valid (Directory es) -> forall m, no_failures m ->
  exists m', ReadValidGitCASTree tree_id es m = (m', Some es) /\ no_failures m'.
Proof.
  intros P V m F. destruct (P [] es eq_refl) as [N _]. unfold ReadValidGitCASTree.
  pose proof (proj1 (read_direct es) (valid_direct es N V)) as R.
  destruct (isvalid_ok m (tree_id es) F) as (m1 & b1 & -> & F1). destruct b1.
  - assert (ReadDirectTree es false = Some es) as ->.
    { unfold ReadTree in R. destruct (ReadDirectTree es false) as [x|]; [|discriminate R]. destruct (_ || _)%bool; congruence. }
    eauto.
  - rewrite R. destruct (subtrees_complete es) with (m := m1) as (m2 & -> & F2); [|exact F1|].
    + apply Forall_forall. intros [f x] I m0 F0. cbn. apply check_complete; [|exact F0]. intros es' ->.
      assert (at_path (Directory es) [f] = Some (Directory es')) as A by (cbn; now rewrite (In_alookup _ _ _ N I)).
      split; [exact (proper_sub _ _ _ P A)|exact (valid_sub _ _ _ V A)].
    + destruct (mark_ok m2 (tree_id es) F2) as (m3 & -> & F3). eauto.
Qed.

Lemma history_no_failures l m : no_failures m -> no_failures (history l m).
Proof.
  intros F. assert (forall a b n l', MarkTreeValid a n = (b, l') -> no_failures a -> no_failures b) as MK.
  { intros a b n l' E G. destruct (mark_ok a n G) as (x & E' & G'). rewrite E' in E. now injection E as <- <-. }
  assert (forall a b n l', IsTreeValid a n = (b, l') -> no_failures a -> no_failures b) as IV.
  { intros a b n l' E G. destruct (isvalid_ok a n G) as (x & y & E' & G'). rewrite E' in E. now injection E as <- <-. }
  assert (forall n a b l', Check n a = (b, l') -> no_failures a -> no_failures b) as CK.
  { intros n. induction n as [x c|c| |es IH] using item_rec'; intros a b l' E G; try (cbn in E; now injection E as <- <-).
    rewrite check_dir in E. destruct (IsTreeValid a (tree_id es)) as [a1 b1] eqn:E1. specialize (IV _ _ _ _ E1 G).
    destruct b1; [now injection E as <- <-|]. destruct (ReadTree es false); [|now injection E as <- <-].
    assert (forall l m0 m1 b1, Forall (fun e => forall a b l', Check (snd e) a = (b, l') -> no_failures a -> no_failures b) l ->
      ValidateGitSubtrees tree_id l m0 = (m1, b1) -> no_failures m0 -> no_failures m1) as ST.
    { clear. induction l as [|[f x] l IH]; intros m0 m1 b1 FA E F; cbn [ValidateGitSubtrees] in E; [now injection E as <- <-|].
      inversion FA as [|? ? A1 A2]; subst. destruct (Check x m0) as [m2 b2] eqn:E2. specialize (A1 _ _ _ E2 F).
      destruct b2; [exact (IH _ _ _ A2 E A1)|now injection E as <- <-]. }
    destruct (ValidateGitSubtrees tree_id es a1) as [a2 b2] eqn:E2. specialize (ST _ _ _ _ IH E2 IV).
    destruct b2; [exact (MK _ _ _ _ E ST)|now injection E as <- <-]. }
  assert (forall l m0 m1 b1, ValidateGitSubtrees tree_id l m0 = (m1, b1) -> no_failures m0 -> no_failures m1) as ST.
  { induction l0 as [|[f x] l0 IH]; intros m0 m1 b1 E G; cbn [ValidateGitSubtrees] in E; [now injection E as <- <-|].
    destruct (Check x m0) as [m2 b2] eqn:E2. specialize (CK _ _ _ _ E2 G).
    destruct b2; [exact (IH _ _ _ E CK)|now injection E as <- <-]. }
  assert (forall t a, no_failures a -> no_failures (fst (IsGitTreeValid tree_id t a))) as GT.
  { intros t a G. unfold IsGitTreeValid. destruct t as [| | |es]; try exact G. destruct (Check (Directory es) a) as [b l'] eqn:E.
    exact (CK _ _ _ _ E G). }
  revert m F. unfold history. induction l as [|e l IH]; intros m F; [exact F|]. cbn [fold_left]. apply IH.
  destruct e as [t|es|t k|]; cbn [happens]; [now apply GT| |exact (GT t m F)|exact F].
  unfold ReadValidGitCASTree. destruct (IsTreeValid m (tree_id es)) as [a1 b1] eqn:E1. specialize (IV _ _ _ _ E1 F).
  destruct b1; [exact IV|]. destruct (ReadTree es false); [|exact IV].
  destruct (ValidateGitSubtrees tree_id l0 a1) as [a2 b2] eqn:E2. specialize (ST _ _ _ _ E2 IV).
  destruct b2; [|exact ST]. destruct (MarkTreeValid a2 (tree_id es)) as [a3 b3] eqn:E3. specialize (MK _ _ _ _ E3 ST).
  destruct b3; exact MK.
Qed.
End Ids.
