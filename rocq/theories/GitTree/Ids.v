(** Object ids determine the objects, up to collisions of the hash function. *)
From Coq Require Import String Ascii List Bool NArith Arith Lia Sorted Permutation.
From Verif Require Import Common.Strs Hex.Model Hex.Proofs Expr.Eval Expr.OpsProofs GitTree.Model GitTree.Spec GitTree.Proofs.
Import ListNotations.
Local Open Scope string_scope.
Local Open Scope list_scope.
Local Infix "^^" := String.append (at level 60, right associativity).

Lemma dec_go_free c f : (N_of_ascii c < 48)%N -> forall n acc, free_of c acc -> free_of c (dec_go f n acc).
Proof.
  intros Hc. induction f as [|f IH]; intros n acc Ha; cbn [dec_go]; auto.
  assert (Ha' : free_of c (String (ascii_of_N (48 + N.modulo n 10)) acc)).
  { intros [E|Hi]; [|now apply Ha]. assert (N.modulo n 10 < 10)%N by (apply N.mod_upper_bound; lia).
    apply (f_equal N_of_ascii) in E. rewrite digit_ascii in E by auto.
    generalize dependent (N.modulo n 10). intros. lia. }
  destruct (N.ltb n 10); auto.
Qed.
Lemma dec_free c n : (N_of_ascii c < 48)%N -> free_of c (dec n).
Proof. intros. apply dec_go_free; auto. intros []. Qed.

Lemma tag_inj p d1 d2 : p ^^ dec (N.of_nat (String.length d1)) ^^ NUL ^^ d1 = p ^^ dec (N.of_nat (String.length d2)) ^^ NUL ^^ d2 -> d1 = d2.
Proof.
  intros E. apply app_str_inv_head in E. unfold NUL in E. cbn [String.append] in E.
  assert (F : forall n, free_of (ascii_of_N 0) (dec n)) by (intros; apply dec_free; cbn; lia).
  pose proof (take_until_app (ascii_of_N 0) (dec (N.of_nat (String.length d1))) d1 (F _)) as T1.
  rewrite E, take_until_app in T1 by auto. now injection T1.
Qed.

Section H.
Variable H : string -> string.
Definition tree_text (d : string) : string := "tree " ^^ dec (N.of_nat (String.length d)) ^^ NUL ^^ d.
Definition blob_text (d : string) : string := "blob " ^^ dec (N.of_nat (String.length d)) ^^ NUL ^^ d.

Theorem tree_id_inj d1 d2 : tree_id H d1 = tree_id H d2 -> d1 = d2 \/ (tree_text d1 <> tree_text d2 /\ H (tree_text d1) = H (tree_text d2)).
Proof.
  intros E. destruct (string_dec d1 d2) as [->|Hne]; auto. right. split; auto.
  intros T. apply Hne. now apply (tag_inj "tree ").
Qed.
Theorem blob_id_inj d1 d2 : blob_id H d1 = blob_id H d2 -> d1 = d2 \/ (blob_text d1 <> blob_text d2 /\ H (blob_text d1) = H (blob_text d2)).
Proof.
  intros E. destruct (string_dec d1 d2) as [->|Hne]; auto. right. split; auto.
  intros T. apply Hne. now apply (tag_inj "blob ").
Qed.
Theorem blob_tree_id d1 d2 : blob_id H d1 = tree_id H d2 -> blob_text d1 <> tree_text d2 /\ H (blob_text d1) = H (tree_text d2).
Proof. intros E. split; auto. discriminate. Qed.

Theorem read_tree_data check es : valid_items (items es) -> (forall i, In i (items es) -> fst (snd i) = Symlink -> forall l, check l = true) ->
  exists es', ReadTreeData H check (snd (CreateShallowTree H es)) (ToHexString (fst (CreateShallowTree H es))) = Some es' /\
    NoDup (map fst es') /\ Permutation (items es') (items es).
Proof.
  intros V HC. unfold ReadTreeData, CreateShallowTree. cbn [fst snd]. rewrite hex_decode_encode, String.eqb_refl.
  destruct (read_back false es V) as (es' & E & N & P). unfold ReadTree. rewrite E. exists es'.
  assert (F : forall l : list item, filter (visible false) l = l) by (induction l; cbn; congruence). rewrite F in P.
  split; auto. destruct (symlink_ids es') as [|x l] eqn:El; auto.
  assert (exists i, In i (items es) /\ fst (snd i) = Symlink) as (i & Hi & Hs).
  { unfold symlink_ids in El. assert (Hx : In x (x :: l)) by now left. rewrite <- El in Hx. apply in_map_iff in Hx as ([raw es0] & _ & Hg).
    apply filter_In in Hg as [Hg Hx]. cbn in Hx. apply existsb_exists in Hx as ([n t] & He & Ht). exists (n, (t, raw)).
    split; [|destruct t; cbn in *; congruence]. eapply Permutation_in; [exact P|]. unfold items. apply in_concat.
    exists (map (fun e => (fst e, (snd e, raw))) es0). split; [|apply in_map_iff; exists (n, t); auto].
    apply in_map_iff. exists (raw, es0). auto. }
  now rewrite (HC i Hi Hs).
Qed.

Theorem id_determines es1 es2 : valid_items (items es1) -> valid_items (items es2) ->
  fst (CreateShallowTree H es1) = fst (CreateShallowTree H es2) ->
  (forall i, In i (items es1) <-> In i (items es2)) \/
  (tree_text (tree_content es1) <> tree_text (tree_content es2) /\ H (tree_text (tree_content es1)) = H (tree_text (tree_content es2))).
Proof.
  intros V1 V2 E. apply tree_id_inj in E as [E|E]; auto. left. now apply content_injective.
Qed.
End H.
