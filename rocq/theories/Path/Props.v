(** C14, C15, C16, C18: paths and module names. *)
From Coq Require Import String Ascii List Bool ZArith.
From Verif Require Import Path.Model Path.Spec Path.Proofs Path.Proofs2.
Import ListNotations.
Local Open Scope string_scope.
Local Open Scope list_scope.

(** C14: normalisation is idempotent. *)
Theorem C14_normal_path_idempotent : forall p, ToNormalPath (ToNormalPath p) = ToNormalPath p.
Proof. exact ToNormalPath_idem. Qed.
Print Assumptions C14_normal_path_idempotent.

(** C14: the normalised path leads to the same place, walking component by component. *)
Theorem C14_normal_path_same_place : forall p,
  is_absolute (ToNormalPath p) = is_absolute p /\ place_of (ToNormalPath p) = place_of p.
Proof. exact ToNormalPath_same_place. Qed.
Print Assumptions C14_normal_path_same_place.

(** C14: two spellings of the same place have the same normal form. *)
Theorem C14_normal_path_canonical : forall p q,
  is_absolute p = is_absolute q -> place_of p = place_of q -> ToNormalPath p = ToNormalPath q.
Proof. exact ToNormalPath_canonical. Qed.
Print Assumptions C14_normal_path_canonical.

(** C14: no dot, empty or inner dot-dot components and no trailing separator. *)
Theorem C14_normal_path_shape : forall p, normal_shape (ToNormalPath p).
Proof. exact ToNormalPath_shape. Qed.
Print Assumptions C14_normal_path_shape.

Example C14_nonvacuous :
  ToNormalPath "a/.././../b//c/." = "../b/c" /\ place_of "a/.././../b//c/." = mkPlace 1 ["c"; "b"].
Proof. split; reflexivity. Qed.

(** C15: accepted exactly if relative and never above the start after any number of components. *)
Theorem C15_non_upwards_exact : forall p,
  PathIsNonUpwards p = true <-> is_absolute p = false /\ never_above (split_slash p).
Proof. exact nonupwards_exact. Qed.
Print Assumptions C15_non_upwards_exact.

(** C15: for a link [dir/name], [dir] consisting of names only (possibly dot-dot). *)
Theorem C15_confined_exact : forall dir name target,
  name <> "" -> ~ In "/"%char (list_ascii_of_string name) ->
  Forall (fun c => c <> "") (split_slash dir) ->
  (PathIsConfined target (dir ++ "/" ++ name)%string = true <->
   is_absolute target = false /\ never_above (split_slash dir ++ split_slash target)).
Proof. exact confined_link_exact. Qed.
Print Assumptions C15_confined_exact.

Theorem C15_confined_toplevel : forall name target,
  name <> "" -> ~ In "/"%char (list_ascii_of_string name) ->
  (PathIsConfined target name = true <-> is_absolute target = false /\ never_above (split_slash target)).
Proof. exact confined_top_exact. Qed.
Print Assumptions C15_confined_toplevel.

(** C15: links given by an absolute path admit no confined target. *)
Theorem C15_confined_absolute_link : forall target link,
  is_absolute link = true -> PathIsConfined target link = false.
Proof. exact confined_absolute. Qed.
Print Assumptions C15_confined_absolute_link.

Example C15_nonvacuous :
  PathIsConfined "../x/../../y" "a/b/link" = true /\ PathIsConfined "../x/../../../y" "a/b/link" = false.
Proof. split; reflexivity. Qed.

(** C16 (full statement): accepted names are non-empty, not dot or dot-dot, and contain neither slash nor
    NUL. Proved without the NUL part; the NUL part is refuted below. *)
Theorem C16_valid_file_name_partial : forall s,
  IsValidFileName s = true <->
  s <> "" /\ s <> "." /\ s <> ".." /\ ~ In "/"%char (list_ascii_of_string s).
Proof. exact valid_file_name_exact. Qed.
Print Assumptions C16_valid_file_name_partial.

Theorem C16_valid_file_name_nul_refuted :
  exists s, IsValidFileName s = true /\ In "000"%char (list_ascii_of_string s).
Proof. exact valid_file_name_nul. Qed.
Print Assumptions C16_valid_file_name_nul_refuted.

(** C18: normal module names. *)
Theorem C18_normal_module_names : forall m,
  normal_module_name (normal_module_name m) = normal_module_name m /\
  exists l, Forall plain l /\ normal_module_name m = join_slash l.
Proof. exact normal_module_names. Qed.
Print Assumptions C18_normal_module_names.

(** C18: two spellings get the same name exactly if they are the same module (walked from the root). *)
Theorem C18_normal_module_same : forall m m',
  normal_module_name m = normal_module_name m' <->
  walk true (split_slash m) = walk true (split_slash m').
Proof. exact normal_module_same. Qed.
Print Assumptions C18_normal_module_same.

(** C18 (full statement): whatever is accepted stays in the workspace. The code accepts the single
    spelling that normalises to dot-dot; everything else accepted is proved to stay inside. *)
Theorem C18_relative_module_partial : forall cur rel m,
  is_absolute cur = false -> is_absolute rel = false ->
  relative_module cur rel = Some m -> ToNormalPath (append cur rel) <> ".." ->
  never_above (split_slash cur ++ split_slash rel) /\
  m = join_slash (rev (down (walk false (split_slash cur ++ split_slash rel)))).
Proof. exact relative_module_sound. Qed.
Print Assumptions C18_relative_module_partial.

Theorem C18_relative_module_complete : forall cur rel,
  is_absolute cur = false -> is_absolute rel = false ->
  never_above (split_slash cur ++ split_slash rel) ->
  relative_module cur rel =
    Some (join_slash (rev (down (walk false (split_slash cur ++ split_slash rel))))).
Proof. exact relative_module_complete. Qed.
Print Assumptions C18_relative_module_complete.

Theorem C18_relative_module_refuted :
  exists cur rel m, is_absolute cur = false /\ is_absolute rel = false /\
    relative_module cur rel = Some m /\ ~ never_above (split_slash cur ++ split_slash rel).
Proof. exact relative_module_escape. Qed.
Print Assumptions C18_relative_module_refuted.

Example C18_nonvacuous :
  relative_module "a/b" "../c" = Some "a/c" /\ relative_module "a/b" "../../../c" = None /\
  relative_module "" ".." = Some "".
Proof. repeat split; reflexivity. Qed.
