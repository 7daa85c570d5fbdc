(** Archives of trees: C136. *)
From Coq Require Import String Ascii NArith List Bool Sorted.
From Verif Require Import Common.Strs Archive.Model Archive.Spec Archive.Proofs.
Import ListNotations.
Open Scope string_scope.
Open Scope list_scope.
Open Scope nat_scope.

(** If writing works and success is reported, then the archive has exactly one
    entry for everything in the tree, with the right path, type, permissions and
    content; directories come before their content, and entries are sorted by
    name. *)
Theorem C136_content_partial digest raw retrieve ReadTreeData create fuel d es :
  proper_trees digest raw ReadTreeData ->
  GenerateArchive digest raw retrieve ReadTreeData create (fun _ => true) fuel (d, Tree)
    = Some (es, true) ->
  exists paths,
    Forall2 (entry_for digest raw retrieve ReadTreeData create (d, Tree)) paths es /\
    StronglySorted before paths /\
    (forall names, In names paths <->
       names <> [] /\ exists o, leads digest raw retrieve ReadTreeData create (d, Tree) names o).
Proof.
  intros PT G. unfold GenerateArchive in G.
  destruct (add_to_archive digest raw retrieve ReadTreeData create fuel (d, Tree) "")
    as [[es' b]|] eqn:A; [|discriminate].
  rewrite written_all in G. assert (es' = es /\ b = true) as [-> ->] by (split; congruence).
  destruct (all_sound digest raw retrieve ReadTreeData create PT fuel (d, Tree) [] es
              (Forall_nil _) (or_intror eq_refl) A) as (ps & F & S & M & _).
  exists ps. split; [exact F|]. split; [exact S|].
  intros names. rewrite M. split.
  - intros [H X]. split; [exact (X eq_refl)|exact H].
  - intros [X H]. split; [exact H|]. intros _. exact X.
Qed.
Print Assumptions C136_content_partial.

(** The archive of a tree does not depend on the order in which the tree happens
    to be held in memory. *)
Theorem C136_reproducible_partial digest raw retrieve R R' create fuel fuel' d es es' :
  proper_trees digest raw R -> proper_trees digest raw R' ->
  (forall p d', R p d' = None <-> R' p d' = None) ->
  (forall p d' g g', R p d' = Some g -> R' p d' = Some g' ->
     forall name h t, (exists l, In (h, l) g /\ In (name, t) l) <->
                      (exists l, In (h, l) g' /\ In (name, t) l)) ->
  GenerateArchive digest raw retrieve R create (fun _ => true) fuel (d, Tree) = Some (es, true) ->
  GenerateArchive digest raw retrieve R' create (fun _ => true) fuel' (d, Tree) = Some (es', true) ->
  es = es'.
Proof.
  intros PT PT' N Q G G'.
  destruct (C136_content_partial _ _ _ _ _ _ _ _ PT G) as (ps & F & S & M).
  destruct (C136_content_partial _ _ _ _ _ _ _ _ PT' G') as (ps' & F' & S' & M').
  assert (L1 : forall o names o', leads digest raw retrieve R create o names o' ->
                                  leads digest raw retrieve R' create o names o').
  { intros o names o' L. induction L as [o|o name h t d1 names o' H C L IH]; [constructor|].
    apply (leads_cons _ _ _ _ _ _ name h t d1); [|exact C|exact IH].
    destruct H as (d0 & p & g & l & E & Rt & T & H1 & H2).
    destruct (R' p d0) as [g'|] eqn:T'; [|apply N in T'; congruence].
    destruct (proj1 (Q p d0 g g' T T' name h t)) as (l' & H1' & H2'); [now exists l|].
    exists d0, p, g', l'. auto. }
  assert (L2 : forall o names o', leads digest raw retrieve R' create o names o' ->
                                  leads digest raw retrieve R create o names o').
  { intros o names o' L. induction L as [o|o name h t d1 names o' H C L IH]; [constructor|].
    apply (leads_cons _ _ _ _ _ _ name h t d1); [|exact C|exact IH].
    destruct H as (d0 & p & g' & l & E & Rt & T' & H1 & H2).
    destruct (R p d0) as [g|] eqn:T; [|apply N in T; congruence].
    destruct (proj2 (Q p d0 g g' T T' name h t)) as (l' & H1' & H2'); [now exists l|].
    exists d0, p, g, l'. auto. }
  assert (E : ps = ps').
  { apply sorted_unique; [exact S|exact S'|]. intro x. rewrite M, M'.
    split; intros [X [o L]]; (split; [exact X|]); exists o; auto. }
  subst ps'. clear S S' M M' G G'. revert es' F'.
  induction F as [|names e ps es H F IH]; intros es' F'.
  - inversion F'. reflexivity.
  - inversion F' as [|? e' ? es2 H' F2]; subst. f_equal; [|exact (IH es2 F2)].
    destruct H as (o & p & L & Rt & P & X). destruct H' as (o' & p' & L' & Rt' & P' & X').
    apply L2 in L'. assert (Eo := leads_det _ _ _ _ _ _ _ _ PT L o' L'). subst o'.
    assert (p' = p) by congruence. subst p'.
    destruct e as [a b c x], e' as [a' b' c' x']. cbn [e_path e_type e_perm e_data] in *.
    destruct (snd o); destruct X as (? & ? & ?), X' as (? & ? & ?); congruence.
Qed.
Print Assumptions C136_reproducible_partial.

(** If everything in the tree can be obtained, then the archive is generated;
    [fuel] is more than the depth of the tree. *)
Theorem C136_success digest raw retrieve ReadTreeData create writes fuel d :
  (forall names o, leads digest raw retrieve ReadTreeData create (d, Tree) names o ->
     usable digest raw retrieve ReadTreeData create o /\ length names < fuel) ->
  exists es, GenerateArchive digest raw retrieve ReadTreeData create writes fuel (d, Tree)
               = Some (es, true).
Proof.
  intro H. destruct (all_complete _ _ _ _ _ fuel (d, Tree) "" H) as [es E].
  unfold GenerateArchive. rewrite E. eexists; reflexivity.
Qed.
Print Assumptions C136_success.

(** Success is only reported if everything in the tree could be obtained; and
    failure only if something could not. *)
Theorem C136_result digest raw retrieve ReadTreeData create writes fuel d es b :
  proper_trees digest raw ReadTreeData ->
  GenerateArchive digest raw retrieve ReadTreeData create writes fuel (d, Tree) = Some (es, b) ->
  (b = true <->
   forall names o, leads digest raw retrieve ReadTreeData create (d, Tree) names o ->
     usable digest raw retrieve ReadTreeData create o).
Proof.
  intros PT G. unfold GenerateArchive in G.
  destruct (add_to_archive digest raw retrieve ReadTreeData create fuel (d, Tree) "")
    as [[es' b']|] eqn:A; [|discriminate].
  assert (b' = b) by congruence. subst b'. split.
  - intros ->. destruct (all_sound digest raw retrieve ReadTreeData create PT fuel (d, Tree) [] es'
              (Forall_nil _) (or_intror eq_refl) A) as (ps & _ & _ & _ & U). exact U.
  - intro H. destruct b; [reflexivity|]. exfalso.
    destruct (all_failed _ _ _ _ _ _ _ _ _ A) as (names & o & L & N).
    exact (N (H names o L)).
Qed.
Print Assumptions C136_result.

(** An example: a tree with a file, an executable and a directory with a link. *)
Definition ex_retrieve (o : nat * otype) : option string :=
  match o with
  | (1, Tree) => Some "T" | (2, Tree) => Some "D"
  | (3, File) => Some "file" | (4, Executable) => Some "prog" | (5, Symlink) => Some "../f"
  | _ => None
  end.

Definition ex_tree (p : string) (d : nat) : option (list (nat * list (string * otype))) :=
  match d with
  | 1 => Some [(4, [("x", Executable)]); (3, [("f", File); ("a", File)]); (2, [("d", Tree)])]
  | 2 => Some [(5, [("l", Symlink)])]
  | _ => None
  end.

Example C136_nonvacuous :
  proper_trees nat nat ex_tree /\
  GenerateArchive nat nat ex_retrieve ex_tree (fun h _ => Some h) (fun _ => true) 5 (1, Tree) =
  Some ([mkEntry "a" AE_IFREG 292 "file"; mkEntry "d" AE_IFDIR 4095 "";
         mkEntry "d/l" AE_IFLNK 4095 "../f"; mkEntry "f" AE_IFREG 292 "file";
         mkEntry "x" AE_IFREG 365 "prog"], true).
Proof.
  split; [|vm_compute; reflexivity].
  intros p d g E. destruct d as [|[|[|d]]]; try discriminate; cbn [ex_tree] in E;
    injection E as <-; cbn [flat_map map snd fst app].
  - split.
    + repeat (constructor; [cbn [In]; intuition discriminate|]). constructor.
    + intros h es name t H1 H2. cbn [In] in H1.
      destruct H1 as [E|[E|[E|[]]]]; injection E as <- <-; cbn [In] in H2;
        repeat (destruct H2 as [H2|H2]; [injection H2 as <- _; split; [discriminate|];
          intros [|[|i]]; discriminate|]); destruct H2.
  - split.
    + repeat (constructor; [cbn [In]; intuition discriminate|]). constructor.
    + intros h es name t H1 H2. cbn [In] in H1.
      destruct H1 as [E|[]]; injection E as <- <-; cbn [In] in H2;
        repeat (destruct H2 as [H2|H2]; [injection H2 as <- _; split; [discriminate|];
          intros [|[|i]]; discriminate|]); destruct H2.
Qed.

(** Whether writing works is not looked at: success is reported for an archive
    that lacks a file, or everything. *)
Theorem C136_complete_refuted :
  exists retrieve ReadTreeData create fuel d,
    proper_trees nat nat ReadTreeData /\
    (exists names o, names <> [] /\
       leads nat nat retrieve ReadTreeData create (d, Tree) names o) /\
    GenerateArchive nat nat retrieve ReadTreeData create (fun _ => false) fuel (d, Tree)
      = Some ([], true).
Proof.
  exists ex_retrieve, ex_tree, (fun h _ => Some h), 5, 1.
  split; [exact (proj1 C136_nonvacuous)|]. split; [|vm_compute; reflexivity].
  exists ["f"], (3, File). split; [discriminate|].
  apply (leads_cons _ _ _ _ _ (1, Tree) "f" 3 File 3); [|reflexivity|constructor].
  exists 1, "T", [(4, [("x", Executable)]); (3, [("f", File); ("a", File)]); (2, [("d", Tree)])],
    [("f", File); ("a", File)].
  cbn [In]. repeat split; auto.
Qed.
Print Assumptions C136_complete_refuted.



(** After a failure the archive, which is opened first, is left behind with the
    entries before the failing one. *)
Theorem C136_nothing_left_refuted :
  exists retrieve ReadTreeData create fuel d es,
    proper_trees nat nat ReadTreeData /\
    GenerateArchive nat nat retrieve ReadTreeData create (fun _ => true) fuel (d, Tree)
      = Some (es, false) /\ es <> [].
Proof.
  exists (fun o => match o with (4, Executable) => None | _ => ex_retrieve o end),
    ex_tree, (fun h _ => Some h), 5, 1.
  eexists. split; [exact (proj1 C136_nonvacuous)|].
  split; [vm_compute; reflexivity|discriminate].
Qed.
Print Assumptions C136_nothing_left_refuted.
