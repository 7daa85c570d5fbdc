(** Files with definitions: C140. *)
From Coq Require Import String Ascii List Bool Arith Lia.
From Verif Require Import Common.Strs Path.Spec Path.Model Path.Proofs Path.Proofs2 Symlinks.Paths.
From Verif Require Import Roots.Model Roots.Paths Roots.Spec Roots.Markers Roots.ModuleFiles.
Import ListNotations.
Local Open Scope string_scope.
Local Open Scope list_scope.

Section Props.
Variable value : Type.
Variable is_object : value -> bool.
Variable empty_object : value.
Variable parse : string -> option value.
Notation read := (ReadModuleFile value is_object empty_object parse).

Lemma plain_file f : plain f -> is_absolute f = false /\ split_slash f = [f].
Proof.
  intro P. pose proof (join_place [f] (Forall_cons f P (Forall_nil _))) as [A _]. cbn [join_slash] in A.
  split; [exact A|]. apply split_of_sfree. apply okname_plain in P. apply P.
Qed.

Lemma file_place module f ns : is_absolute module = false -> place_of module = mkPlace 0 (rev ns) -> plain f ->
  is_absolute (append (lexically_normal module) f) = false /\
  place_of (append (lexically_normal module) f) = mkPlace 0 (rev (ns ++ [f])).
Proof.
  intros A PL P. destruct (plain_file f P) as [F S]. destruct (normal_place module) as [NA NP].
  destruct (append_place (lexically_normal module) f F) as [B C]. rewrite NA, A in B. split; [exact B|].
  rewrite C, S, NA, A, NP, PL, rev_app_distr. cbn [fold_left rev app]. unfold step. cbn [down up].
  destruct P as (P1 & P2 & P3 & _).
  destruct (String.eqb_spec f ""); [congruence|]. destruct (String.eqb_spec f "."); [congruence|].
  destruct (String.eqb_spec f ".."); [congruence|]. reflexivity.
Qed.

(** Modules outside the repository have no definitions. *)
Theorem C140_outside mandatory root f module :
  ~ (is_absolute module = false /\ never_above (split_slash module)) ->
  read mandatory root f module = None.
Proof.
  intro D. unfold ReadModuleFile. destruct root as [r|]; [|reflexivity]. destruct f as [f|]; [|reflexivity].
  rewrite outside_normal. destruct (PathIsNonUpwards module) eqn:E; [|reflexivity].
  exfalso. apply D. now apply nonupwards_exact.
Qed.

(** For all others it is the file of the given name in the directory of the module: [ns] are the names of
    the directories leading there.  Answers are the same for all ways to write a path. *)
Theorem C140_definitions_partial mandatory r f module ns j :
  (forall p q, is_absolute p = false -> is_absolute q = false -> place_of p = place_of q ->
     is_file r p = is_file r q /\ content r p = content r q) ->
  plain f -> is_absolute module = false -> never_above (split_slash module) ->
  place_of module = mkPlace 0 (rev ns) ->
  let p := join_slash (ns ++ [f]) in
  read mandatory (Some r) (Some f) module = Some j <->
  is_absent r = false /\
  ((is_file r p = true /\ is_object j = true /\ exists c, content r p = Some c /\ parse c = Some j) \/
   (is_file r p = false /\ mandatory = false /\ j = empty_object)).
Proof.
  intros R P A N PL p. unfold ReadModuleFile. rewrite outside_normal.
  assert (E : PathIsNonUpwards module = true) by (apply nonupwards_exact; split; assumption).
  rewrite E. cbn [negb].
  destruct (file_place module f ns A PL P) as [A1 P1].
  assert (NS : Forall plain (ns ++ [f])).
  { apply Forall_app. split; [|exact (Forall_cons f P (Forall_nil _))].
    pose proof (place_of_wf module) as [W _]. rewrite PL in W. cbn [down] in W.
    apply Forall_rev in W. rewrite rev_involutive in W.
    eapply Forall_impl; [|exact W]. intros a. apply okname_plain. }
  destruct (join_place (ns ++ [f]) NS) as [A2 P2].
  destruct (R (append (lexically_normal module) f) p A1 A2) as [Q1 Q2]; [unfold p; congruence|].
  cbv zeta. rewrite Q1, Q2. clear Q1 Q2. destruct (is_absent r).
  { split; [discriminate|]. intros [X _]. discriminate. }
  destruct (is_file r p).
  - destruct (content r p) as [c|].
    + destruct (parse c) as [j'|] eqn:Ep.
      * destruct (is_object j') eqn:Eo.
        -- split.
           ++ intros [= <-]. split; [reflexivity|]. left. repeat split; [exact Eo|]. now exists c.
           ++ intros [_ [(_ & _ & c' & X & Y)|(X & _)]]; [|discriminate]. congruence.
        -- split; [discriminate|]. intros [_ [(_ & O & c' & X & Y)|(X & _)]]; [|discriminate]. congruence.
      * split; [discriminate|]. intros [_ [(_ & _ & c' & X & Y)|(X & _)]]; [|discriminate]. congruence.
    + split; [discriminate|]. intros [_ [(_ & _ & c' & X & _)|(X & _)]]; [|discriminate]. discriminate.
  - destruct mandatory.
    + split; [discriminate|]. intros [_ [(X & _)|(_ & X & _)]]; discriminate.
    + split.
      * intros [= <-]. split; [reflexivity|]. right. repeat split.
      * intros [_ [(X & _)|(_ & _ & ->)]]; [discriminate|reflexivity].
Qed.

(** All ways to write the name of a module give the same definitions. *)
Theorem C140_same_module_partial mandatory r f module module' :
  (forall p q, is_absolute p = false -> is_absolute q = false -> place_of p = place_of q ->
     is_file r p = is_file r q /\ content r p = content r q) ->
  plain f -> is_absolute module = false -> is_absolute module' = false ->
  place_of module = place_of module' ->
  read mandatory (Some r) (Some f) module = read mandatory (Some r) (Some f) module'.
Proof.
  intros R P A A' PL. unfold ReadModuleFile. rewrite !outside_normal.
  assert (U : forall m, is_absolute m = false -> PathIsNonUpwards m = true <-> up (place_of m) = 0).
  { intros m Am. rewrite nonupwards_exact. split.
    - intros [_ Hn]. destruct (downward_place m Am Hn) as (ns & _ & ->). reflexivity.
    - intro H0. split; [exact Am|]. apply up_zero_never_above. unfold place_of in H0. rewrite Am in H0. exact H0. }
  assert (EQ : PathIsNonUpwards module = PathIsNonUpwards module').
  { apply Bool.eq_iff_eq_true. rewrite (U module A), (U module' A'), PL. reflexivity. }
  rewrite EQ. destruct (PathIsNonUpwards module') eqn:E; [|reflexivity]. cbn [negb].
  assert (E' : place_of module' = mkPlace 0 (rev (rev (down (place_of module'))))).
  { apply (U module' A') in E. rewrite rev_involutive. destruct (place_of module'); cbn in *. now subst. }
  destruct (file_place module' f _ A' E' P) as [B1 B2].
  rewrite <- PL in E' at 1. destruct (file_place module f _ A E' P) as [D1 D2].
  destruct (R (append (lexically_normal module) f) (append (lexically_normal module') f) D1 B1) as [Q1 Q2];
    [congruence|].
  cbv zeta. now rewrite Q1, Q2.
Qed.

(** Nothing but files inside the repository matters. *)
Theorem C140_only_inside_partial mandatory r r' f module :
  is_absent r = is_absent r' ->
  (forall p, is_absolute p = false -> up (place_of p) = 0 ->
     is_file r p = is_file r' p /\ content r p = content r' p) ->
  plain f ->
  read mandatory (Some r) (Some f) module = read mandatory (Some r') (Some f) module.
Proof.
  intros AB R P. unfold ReadModuleFile. rewrite outside_normal.
  destruct (PathIsNonUpwards module) eqn:E; [|reflexivity]. cbn [negb].
  apply nonupwards_exact in E. destruct E as [A N].
  destruct (downward_place module A N) as (ns & _ & PL).
  destruct (file_place module f ns A PL P) as [B C].
  destruct (R (append (lexically_normal module) f) B) as [Q1 Q2]; [now rewrite C|].
  cbv zeta. now rewrite AB, Q1, Q2.
Qed.
End Props.
Print Assumptions C140_outside.
Print Assumptions C140_definitions_partial.
Print Assumptions C140_same_module_partial.
Print Assumptions C140_only_inside_partial.

(** The names of the files are not checked: with other names files outside matter. *)
Theorem C140_file_names_refuted :
  exists f r r' module,
    is_absent r = false /\ is_absent r' = false /\ never_above (split_slash module) /\
    (forall p, is_absolute p = false -> up (place_of p) = 0 ->
       is_file r p = is_file r' p /\ content r p = content r' p) /\
    ReadModuleFile string (fun _ => true) "{}" Some true (Some r) (Some f) module = Some "{""outside"": 1}" /\
    ReadModuleFile string (fun _ => true) "{}" Some true (Some r') (Some f) module = None.
Proof.
  exists "../TARGETS", (mkAnswers false (fun p => String.eqb p "../TARGETS") (fun _ => Some "{""outside"": 1}")),
    (mkAnswers false (fun _ => false) (fun _ => Some "{""outside"": 1}")), "".
  repeat split; try reflexivity.
  - intro n. destruct n as [|[|n]]; cbn; discriminate.
  - cbn [is_file]. destruct (String.eqb_spec p "../TARGETS") as [->|]; [|reflexivity].
    vm_compute in H0. discriminate.
Qed.
Print Assumptions C140_file_names_refuted.

Example C140_nonvacuous :
  let file p := match names (place_of p) with ["a"; "b"; "TARGETS"] => true | _ => false end in
  let r := mkAnswers false (fun p => (negb (is_absolute p) && file p)%bool) (fun _ => Some "{}") in
  (forall p q, is_absolute p = false -> is_absolute q = false -> place_of p = place_of q ->
     is_file r p = is_file r q /\ content r p = content r q) /\
  ReadModuleFile string (fun _ => true) "none" Some true (Some r) (Some "TARGETS") "a/./c/../b" = Some "{}" /\
  ReadModuleFile string (fun _ => true) "none" Some true (Some r) (Some "TARGETS") "a/../../b" = None /\
  ReadModuleFile string (fun _ => true) "none" Some false (Some r) (Some "TARGETS") "b" = Some "none".
Proof.
  cbv zeta. split; [|repeat split; vm_compute; reflexivity].
  intros p q A B C. cbn [is_file content]. rewrite A, B, C. split; reflexivity.
Qed.
