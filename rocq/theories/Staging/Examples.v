(** Example directories. *)
From Coq Require Import String Ascii List Bool NArith Arith Lia.
From Verif Require Import Common.Strs Hex.Model Describe.Model Executor.Wire Rehash.Directory Rehash.DirectoryProofs.
From Verif Require Import GitTree.Model GitTree.Spec GitTree.Ids TreeOps.Spec Path.Model Rehash.Model Rehash.Spec Rehash.Nodes Rehash.Examples.
From Verif Require Import Staging.FileSystem Staging.Model Staging.Spec Staging.Collect Staging.CollectProofs Staging.Cas.
Import ListNotations.
Local Open Scope string_scope.
Local Open Scope list_scope.

Lemma own_free f : distinct toy1 (map (fun u => object_text (is_dir u) (git_data toy1 u)) (parts f)) = true ->
  collision_free toy1 (git_texts toy1 (fun n => In n (parts f)) (git_objects toy1 f)).
Proof.
  intros D. apply (distinct_free _ _ _ D). intros x [(u & I & ->)|(k & d & I & ->)].
  - apply in_map_iff. eauto.
  - apply in_map_iff in I as (u & E & I). injection E as <- <-. apply in_map_iff. eauto.
Qed.
Lemma own_comp_free f : distinct toy2 (map (comp_data toy2) (parts f)) = true ->
  collision_free toy2 (comp_texts toy2 (fun n => In n (parts f)) (comp_objects toy2 f)).
Proof.
  intros D. apply (distinct_free _ _ _ D). intros x [(u & I & ->)|(k & I)].
  - now apply in_map.
  - apply in_map_iff in I as (u & E & I). injection E as _ <-. now apply in_map.
Qed.

(** A directory with an empty directory. *)
Definition hollow : fnode := FDir [("a", FFile true "data"); ("e", FDir [])].
Lemma hollow_named : named hollow /\ plain hollow /\ linkable hollow.
Proof.
  split; [|split; repeat split; try reflexivity]. apply named_dir. split; [sorted|]. intros x c [I|[I|[]]]; injection I as <- <-; (split; [name|]); try exact Logic.I.
  split; [constructor|exact Logic.I].
Qed.
Lemma hollow_free : collision_free toy1 (git_texts toy1 (fun n => In n (parts hollow)) (git_objects toy1 hollow)).
Proof. apply own_free. vm_compute. reflexivity. Qed.

(** A tree with an entry [..]. *)
Definition climbing : fnode := FDir [("..", FFile false "data")].
Lemma climbing_named : named climbing /\ linkable climbing.
Proof.
  split; [|repeat split]. apply named_dir. split; [sorted|]. intros x c [I|[]]; injection I as <- <-; (split; [name|exact Logic.I]).
Qed.
Lemma climbing_free : collision_free toy1 (git_texts toy1 (fun n => In n (parts climbing)) (git_objects toy1 climbing)).
Proof. apply own_free. vm_compute. reflexivity. Qed.

(** A directory with a file, a link, an executable in a directory, and an empty directory. *)
Definition full : fnode := FDir [("a", FFile false "data"); ("e", FDir []); ("l", FLink "a"); ("s", FDir [("x", FFile true "run")])].
Lemma full_named : named full.
Proof.
  apply named_dir. split; [sorted|]. intros x c [I|[I|[I|[I|[]]]]]; injection I as <- <-; (split; [name|]); try exact Logic.I.
  - split; [constructor|exact Logic.I].
  - apply named_dir. split; [sorted|]. intros x c [I|[]]. injection I as <- <-. split; [name|exact Logic.I].
Qed.
Lemma full_plain : plain full.
Proof. repeat split. Qed.
Lemma full_linkable : linkable full.
Proof. repeat split. discriminate. Qed.
Lemma full_level : level_links full.
Proof. intros t [E|[E|[E|[E|[E|[E|[]]]]]]]; try discriminate. injection E as <-. reflexivity. Qed.
Lemma full_expressible : expressible toy2 any full.
Proof. repeat split; vm_compute; reflexivity. Qed.
Lemma full_free : collision_free toy1 (git_texts toy1 (fun n => In n (parts full)) (git_objects toy1 full)).
Proof. apply own_free. vm_compute. reflexivity. Qed.
Lemma full_comp_free : collision_free toy2 (comp_texts toy2 (fun n => In n (parts full)) (comp_objects toy2 full)).
Proof. apply own_comp_free. vm_compute. reflexivity. Qed.
