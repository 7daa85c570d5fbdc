(** The theorems of [ToCompatible] and [ToNative], for executions of the whole system. *)
From Coq Require Import String Ascii List Bool NArith Arith Lia Sorted Permutation.
From Verif Require Import Common.Strs Hex.Model Hex.Proofs Describe.Model Executor.Wire Rehash.Directory Rehash.DirectoryProofs.
From Verif Require Import GitTree.Model GitTree.Spec TreeOps.Spec Expr.OpsProofs.
From Verif Require Import Rehash.Model Rehash.Spec Rehash.Nodes Rehash.Frame Rehash.ToCompatible Rehash.ToNative.
Import ListNotations.
Local Open Scope string_scope.
Local Open Scope list_scope.

Lemma Forall2_nth {A B} (R : A -> B -> Prop) l l' : Forall2 R l l' -> length l = length l' /\
  forall k a b, nth_error l k = Some a -> nth_error l' k = Some b -> R a b.
Proof.
  induction 1 as [|a b l l' Rab _ [L N]]; [split; [reflexivity|]; intros [|k]; discriminate|].
  split; [cbn; congruence|]. intros [|k] x y; cbn; [|apply N]. intros E E'. injection E as <-. injection E' as <-. exact Rab.
Qed.

Section H.
Variable H : string -> string.
Variable H2 : string -> string.
Variable utf8 : string -> bool.
Variable ord : list (string * entry) -> list (string * entry).
Variable source : objects.
Variable faulty : bool.
Variable U : fnode -> Prop.
Variable typed strict : Prop.
Variable gc : bool.
Variable fuel n : nat.
Hypothesis HL : forall s, String.length (H s) = 20.
Hypothesis UC : closed U.
Hypothesis UN : forall n, U n -> named n.
Hypothesis strict_ok : strict -> faulty = false.
Hypothesis strict_depth : strict -> forall u, U u -> depth u <= fuel.

Lemma to_compatible_system s : (forall l, Permutation (ord l) l) -> collision_free H (git_texts H U source) ->
  (typed -> forall u v, U u -> U v -> git_hash H u = git_hash H v -> ftype u = ftype v) ->
  (strict -> forall u, U u -> In (is_dir u, git_data H u) source) ->
  (strict -> forall u, U u -> is_dir u = true -> (strlen (comp_data H2 u) < 2 ^ 31)%N) ->
  reachable H H2 utf8 ord false source faulty gc fuel n s ->
  (forall infos p, In (infos, p) (st_threads s) -> Forall (fun i => exists u, U u /\ native_info H i u) infos) ->
  threads_ok H H2 false source faulty U (git_hash H) (fun u => comp_digest H2 (comp_data H2 u)) (comp_objects H2) typed strict s.
Proof.
  intros OP NC OT SS SZ R Q.
  eapply (system_ok H H2 utf8 ord false source faulty U (git_hash H) (fun u => comp_digest H2 (comp_data H2 u)) (comp_objects H2) typed strict); eauto.
  - intros u v Uu Uv E. eapply native_same_target; eauto.
  - intros u E Uu Du Dp. unfold conv. eapply to_directory_ok; eauto.
  - intros u data Uu Du Hd. eapply native_file; eauto.
  - intros S u Uu. eapply native_readable; eauto.
  - intros infos p I. specialize (Q infos p I). eapply Forall_impl; [|exact Q]. intros i (u & Uu & Nu). exists u. split; [exact Uu|].
    split; [exact Nu|]. intros S. now apply strict_depth.
Qed.

Lemma to_native_system s : hex_digests H2 utf8 -> (forall n, U n -> expressible H2 utf8 n) ->
  (forall u v, U u -> U v -> comp_data H2 u = comp_data H2 v -> is_dir u = is_dir v) ->
  collision_free H2 (comp_texts H2 U source) ->
  (typed -> forall u v, U u -> U v -> comp_hash H2 u = comp_hash H2 v -> ftype u = ftype v) ->
  (strict -> forall u, U u -> exists k, In (k, comp_data H2 u) source) ->
  reachable H H2 utf8 ord true source faulty gc fuel n s ->
  (forall infos p, In (infos, p) (st_threads s) -> Forall (fun i => exists u, U u /\ compatible_info H2 i u) infos) ->
  threads_ok H H2 true source faulty U (comp_hash H2) (td H) (git_objects H) typed strict s.
Proof.
  intros HX UE UD NC OT SS R Q.
  eapply (system_ok H H2 utf8 ord true source faulty U (comp_hash H2) (td H) (git_objects H) typed strict); eauto.
  - intros u v Uu Uv E. eapply comp_same_target; eauto.
  - intros u E Uu Du Dp. unfold conv. eapply to_git_tree_ok; eauto.
  - intros u data Uu Du Hd. eapply comp_file; eauto.
  - intros S u Uu. eapply comp_readable; eauto.
  - intros infos p I. specialize (Q infos p I). eapply Forall_impl; [|exact Q]. intros i (u & Uu & Nu). exists u. split; [exact Uu|].
    split; [exact Nu|]. intros S. now apply strict_depth.
Qed.
End H.

(** ** Undefined behaviour *)
Section Crash.
Variable A : Type.
Fixpoint safe (p : prog (outcome A)) : Prop :=
  match p with
  | Ret o => o <> Crash
  | Lookup _ k => forall r, safe (k r)
  | Remember _ _ k => forall r, safe (k r)
  | Read _ _ k => forall r, safe (k r)
  | Store _ _ k => forall r, safe (k r)
  end.
End Crash.
Arguments safe {A} p.
Lemma safe_bind {A B} (f : A -> prog (outcome B)) : (forall a, safe (f a)) -> forall p, safe p -> safe (bind p f).
Proof.
  intros F. induction p as [o|h k IH|h i k IH|t h k IH|t d k IH]; cbn; intros S; try (intros r; apply IH, S).
  destruct o; cbn; try discriminate; [apply F|congruence].
Qed.
Lemma safe_or {A B} (x : option A) (k : A -> prog (outcome B)) : (forall a, safe (k a)) -> safe (or_fail x k).
Proof. intros F. destruct x; cbn; [apply F|discriminate]. Qed.
Lemma safe_if {B} b (k : prog (outcome B)) : safe k -> safe (if_ok b k).
Proof. intros F. destruct b; cbn; [apply F|discriminate]. Qed.

Section S.
Variable H : string -> string.
Variable H2 : string -> string.
Variable utf8 : string -> bool.
Variable ord : list (string * entry) -> list (string * entry).
Lemma safe_entries rec l : (forall h, safe (rec h)) -> forall a, safe (dir_entries H2 rec l a).
Proof.
  intros R. induction l as [|[raw [name t]] l IH]; intros a; [discriminate|]. cbn [dir_entries]. apply safe_or. intros d. cbn [safe].
  assert (B : forall t' h i (f : string -> prog (outcome nodes)), (forall x, safe (f x)) -> safe (Read t' h (fun x => or_fail x (fun data =>
     Store false data (fun ok => if_ok ok (Remember h (i data) (fun ok' => if_ok ok' (f data)))))))).
  { intros t' h i f F r. apply safe_or. intros data r'. apply safe_if. intros r2. apply safe_if, F. }
  intros [| |i]; [discriminate| |].
  - destruct t.
    + apply (B File _ (fun data => (comp_digest H2 data, File))). intros. apply IH.
    + apply (B Executable _ (fun data => (comp_digest H2 data, Executable))). intros. apply IH.
    + apply safe_bind; [intros; apply IH|apply R].
    + apply (B Symlink _ (fun data => (comp_digest H2 data, Symlink))). intros. apply IH.
  - destruct t; try apply IH. apply (B Symlink _ (fun data => (comp_digest H2 data, Symlink))). intros. apply IH.
Qed.
Lemma safe_to_directory fuel : forall h, safe (to_directory H H2 ord fuel h).
Proof.
  induction fuel as [|fuel IH]; intros h; [discriminate|]. cbn [to_directory safe]. intros r. apply safe_or. intros c. apply safe_or. intros es.
  apply safe_bind; [|now apply safe_entries]. intros [[f d] l]. apply safe_or. intros b r1. apply safe_if. intros r2. apply safe_if. discriminate.
Qed.
Lemma safe_rehash fuel infos : safe (Rehash H H2 utf8 ord false fuel infos).
Proof.
  induction infos as [|[d t] infos IH]; [discriminate|]. cbn [Rehash safe].
  assert (N : forall i : info, safe (bind (Rehash H H2 utf8 ord false fuel infos) (fun l => Ret (Value (i :: l))))).
  { intros i. apply safe_bind; [discriminate|exact IH]. }
  intros [| |i]; [discriminate| |apply N]. destruct (IsTreeObject t).
  - apply safe_bind; [intros; apply N|apply safe_to_directory].
  - cbn [safe]. intros r. apply safe_or. intros c r1. apply safe_if. intros r2. apply safe_if, N.
Qed.
Lemma safe_access {A} native source faulty (p p' : prog (outcome A)) s s' : access H H2 native source faulty p s p' s' -> safe p -> safe p'.
Proof. destruct 1; cbn; auto. Qed.
Theorem system_safe source faulty gc fuel n s : reachable H H2 utf8 ord false source faulty gc fuel n s ->
  forall infos p, In (infos, p) (st_threads s) -> safe p.
Proof.
  induction 1 as [|s s' _ IH St]; [intros ? ? []|]. destruct St; cbn [st_threads]; intros is q I; try (eapply IH; exact I).
  - apply in_app_or in I as [I|[I|[]]]; [eapply IH; exact I|]. injection I as <- <-. apply safe_rehash.
  - apply (in_update ts1 ts2 (infos, p)) in I as [I|I].
    + injection I as -> ->. eapply safe_access; [exact H1|]. eapply IH. rewrite H0. apply in_or_app. right. now left.
    + eapply IH. rewrite H0. exact I.
Qed.
End S.
