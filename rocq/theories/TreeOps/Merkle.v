(** The digest of a tree determines everything below it. *)
From Coq Require Import String Ascii List Bool NArith Arith Lia Sorted.
From Verif Require Import Common.Strs Hex.Model GitTree.Model GitTree.Spec GitTree.Ids TreeOps.Model TreeOps.Spec TreeOps.Proofs TreeOps.Structure TreeOps.Witness.
Import ListNotations.

Lemma collision_dec (H : string -> string) (st : store) : no_collision H st \/
  exists x y, In x st /\ In y st /\ x <> y /\ tree_id H x = tree_id H y.
Proof.
  assert (D : forall l l' : store, (forall x y, In x l -> In y l' -> tree_id H x = tree_id H y -> x = y) \/ exists x y, In x l /\ In y l' /\ x <> y /\ tree_id H x = tree_id H y).
  { intros l l'. induction l as [|x l IHl]; [left; intros ? ? []|]. destruct IHl as [IHl|(u & v & Hu & Hv & R)].
    2:{ right. exists u, v. split; [now right|auto]. }
    assert (Dx : (forall y, In y l' -> tree_id H x = tree_id H y -> x = y) \/ exists y, In y l' /\ x <> y /\ tree_id H x = tree_id H y).
    { clear. induction l' as [|y l' I]; [left; intros ? []|]. destruct I as [I|(v & Hv & R)]; [|right; exists v; split; [now right|auto]].
      destruct (string_dec (tree_id H x) (tree_id H y)) as [E|E]; [destruct (string_dec x y) as [->|E']|].
      - left. intros z [<-|Hz]; auto.
      - right. exists y. split; [now left|auto].
      - left. intros z [<-|Hz]; auto. congruence. }
    destruct Dx as [Dx|(y & Hy & R)]; [left; intros ? y [<-|?] ?; auto|right; exists x, y; split; [now left|auto]]. }
  destruct (D st st) as [N|C]; [left; exact N|now right].
Qed.

Lemma digest_determines (H : string -> string) A B : raw_ids H -> wf A -> wf B -> ntype A = Tree -> ntype B = Tree -> nid H A = nid H B ->
  A = B \/ exists x y, In x (subs H A ++ subs H B) /\ In y (subs H A ++ subs H B) /\
     tree_text x <> tree_text y /\ H (tree_text x) = H (tree_text y).
Proof.
  intros HL WA WB TA TB E. destruct (collision_dec H (subs H A ++ subs H B)) as [N|(x & y & Hx & Hy & Hne & Ei)].
  - left. apply (stored_inj H HL _ N); auto; try congruence; apply subs_stored; [apply incl_appl|apply incl_appr]; apply incl_refl.
  - right. exists x, y. split; auto. split; auto. apply tree_id_inj in Ei as [Ei|Ei]; [contradiction|exact Ei].
Qed.
