(** C19: git trees. *)
From Coq Require Import String Ascii List Bool NArith Arith Sorted Permutation.
From Verif Require Import Common.Strs Hex.Model GitTree.Model GitTree.Spec GitTree.Proofs GitTree.Ids.
Import ListNotations.
Local Open Scope string_scope.
Local Open Scope list_scope.

(** The content written is git's tree object for the set of entries: each entry once, in git's order. *)
Theorem C19_tree_object : forall es, valid_items (items es) -> git_tree_object (items es) (tree_content es).
Proof. exact tree_content_object. Qed.
Print Assumptions C19_tree_object.

(** It only depends on the set of entries. *)
Theorem C19_order_and_grouping_irrelevant : forall es1 es2, valid_items (items es1) -> valid_items (items es2) ->
  (forall i, In i (items es1) <-> In i (items es2)) -> tree_content es1 = tree_content es2.
Proof. exact tree_content_order. Qed.
Print Assumptions C19_order_and_grouping_irrelevant.

(** Different sets of entries have different contents. *)
Theorem C19_injective : forall es1 es2, valid_items (items es1) -> valid_items (items es2) ->
  tree_content es1 = tree_content es2 -> forall i, In i (items es1) <-> In i (items es2).
Proof. exact content_injective. Qed.
Print Assumptions C19_injective.

(** Reading the content back gives exactly the entries; ignoring special entries, all but the symlinks. *)
Theorem C19_read_back : forall (ignore_special : bool) es, valid_items (items es) ->
  exists es', ReadDirectTree ignore_special (tree_content es) = Some es' /\ NoDup (map fst es') /\
    Permutation (items es') (filter (fun i => negb (ignore_special && IsSymlinkObject (fst (snd i)))) (items es)).
Proof. exact read_back. Qed.
Print Assumptions C19_read_back.

Theorem C19_read_tree_data : forall H check es, valid_items (items es) ->
  (forall i, In i (items es) -> fst (snd i) = Symlink -> forall l, check l = true) ->
  exists es', ReadTreeData H check (snd (CreateShallowTree H es)) (ToHexString (fst (CreateShallowTree H es))) = Some es' /\
    NoDup (map fst es') /\ Permutation (items es') (items es).
Proof. exact read_tree_data. Qed.
Print Assumptions C19_read_tree_data.

(** Equal ids: equal sets of entries, or a collision of the hash on the two objects. *)
Theorem C19_id_determines_entries : forall H es1 es2, valid_items (items es1) -> valid_items (items es2) ->
  fst (CreateShallowTree H es1) = fst (CreateShallowTree H es2) ->
  (forall i, In i (items es1) <-> In i (items es2)) \/
  (tree_text (tree_content es1) <> tree_text (tree_content es2) /\
   H (tree_text (tree_content es1)) = H (tree_text (tree_content es2))).
Proof. exact id_determines. Qed.
Print Assumptions C19_id_determines_entries.

(** A directory sorts after a file with a name that extends it by a character below the slash. *)
Example C19_nonvacuous :
  let a := "aaaaaaaaaaaaaaaaaaaa" in let b := "bbbbbbbbbbbbbbbbbbbb" in
  let es := [(a, [("foo", Tree)]); (b, [("foo.c", File); ("x", Executable); ("l", Symlink)])] in
  valid_items (items es) /\
  map fst (sorted_entries es) = ["foo.c"; "foo/"; "l"; "x"] /\
  (exists es', ReadDirectTree false (tree_content es) = Some es' /\ List.length (items es') = 4).
Proof.
  cbv zeta. split; [|split].
  - split.
    + cbn. repeat (constructor; [cbn; intuition discriminate|]). constructor.
    + repeat constructor; cbn; try discriminate; unfold free_of; cbn; intuition discriminate.
  - reflexivity.
  - eexists. split; reflexivity.
Qed.
