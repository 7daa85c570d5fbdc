(** Properties C20 and C21. *)
From Coq Require Import String Ascii List Bool NArith Arith Lia Sorted.
From Verif Require Import Common.Strs Hex.Model Hex.Proofs GitTree.Model GitTree.Spec TreeOps.Model TreeOps.Spec TreeOps.Proofs TreeOps.Overlay TreeOps.Structure TreeOps.Witness TreeOps.Merkle GitTree.Ids.
Import ListNotations.
Local Open Scope string_scope.
Local Open Scope list_scope.

(** C20. Full statement: as below, without [uniform]; see [C20_types_refuted]. *)
Theorem C20_overlay_partial : forall (H : string -> string) (st : store) (A B : node),
  raw_ids H -> ntype A = Tree -> ntype B = Tree -> wf A -> wf B -> stored H st A -> stored H st B ->
  uniform H A -> uniform H B ->
  exists n, forall fuel, n <= fuel ->
  let '(st', r) := overlay H false fuel st (node_info H A) (node_info H B) in
  no_collision H st' ->
  exists R, r = Value (node_info H R) /\ wf R /\ stored H st' R /\ overlay_view (view A) (view B) (view R).
Proof.
  intros H st A B HL TA TB WA WB SA SB UA UB. exists (depth A). intros fuel Hf.
  pose proof (overlay_good H HL false A fuel B st TA TB Hf WA WB UA UB SA SB) as [_ G].
  destruct (overlay H false fuel st _ _) as [st' r]. cbn [fst snd] in G. intros N. specialize (G N).
  destruct r as [i| |]; [|now destruct G|destruct G]. destruct G as (-> & S & _). exists (merge A B). split; auto.
  split; [now apply merge_wf|]. split; auto. apply merge_view.
Qed.

Theorem C20_disjoint_overlay_partial : forall (H : string -> string) (st : store) (A B : node),
  raw_ids H -> ntype A = Tree -> ntype B = Tree -> wf A -> wf B -> stored H st A -> stored H st B ->
  uniform H A -> uniform H B ->
  exists n, forall fuel, n <= fuel ->
  let '(st', r) := overlay H true fuel st (node_info H A) (node_info H B) in
  no_collision H st' ->
  (conflict (view A) (view B) /\ r = Fatal) \/
  (~ conflict (view A) (view B) /\
   exists R, r = Value (node_info H R) /\ wf R /\ stored H st' R /\ overlay_view (view A) (view B) (view R)).
Proof.
  intros H st A B HL TA TB WA WB SA SB UA UB. exists (depth A). intros fuel Hf.
  pose proof (overlay_good H HL true A fuel B st TA TB Hf WA WB UA UB SA SB) as [_ G].
  destruct (overlay H true fuel st _ _) as [st' r]. cbn [fst snd] in G. intros N. specialize (G N).
  destruct r as [i| |]; [|left; tauto|destruct G]. destruct G as (-> & S & C). right. split; auto. exists (merge A B). split; auto.
  split; [now apply merge_wf|]. split; auto. apply merge_view.
Qed.

(** A file and an executable with the same content in one directory: after overlaying, the executable is a
    file. *)
Theorem C20_types_refuted : exists (H : string -> string) (st : store) (A B : node) (fuel : nat),
  raw_ids H /\ ntype A = Tree /\ ntype B = Tree /\ wf A /\ wf B /\ stored H st A /\ stored H st B /\
  exists R st', overlay H false fuel st (node_info H A) (node_info H B) = (st', Value (node_info H R)) /\
  no_collision H st' /\ wf R /\ stored H st' R /\
  ~ overlay_view (view A) (view B) (view R).
Proof. exact types_lost. Qed.

(** C21. *)
Theorem C21_structure : forall (H : string -> string) (st : store) (Ts : list node),
  raw_ids H -> Forall (fun T => ntype T = Tree /\ wf T /\ stored H st T) Ts ->
  exists n, forall fuel, n <= fuel ->
  let '(st', _, rs) := compute_all H fuel st [] (map (fun T => ToHexString (nid H T)) Ts) in
  no_collision H st' ->
  exists Ss, rs = map (fun S => Some (ToHexString (nid H S))) Ss /\
    Forall2 (fun T S => wf S /\ stored H st' S /\
      forall p, view S p = match view T p with Some (Content t _) => Some (Content t (blob_id H "")) | o => o end) Ts Ss.
Proof.
  intros H st Ts HL F. exists (fold_right (fun T m => Nat.max (depth T) m) 0 Ts). intros fuel Hf.
  assert (F' : Forall (fun T => ntype T = Tree /\ depth T <= fuel /\ wf T /\ stored H st T) Ts).
  { revert Hf. induction F as [|T Ts (? & ? & ?) F IH]; cbn [fold_right]; intros Hf; constructor; [|apply IH; lia].
    split; auto. split; [lia|auto]. }
  pose proof (compute_all_good H HL Ts fuel st [] F') as G. cbv zeta in G.
  destruct (compute_all H fuel st [] _) as [[st' c'] rs]. cbn [fst snd] in G. intros N.
  destruct G as [-> Fs]; [intros ? ?; discriminate|auto|]. exists (map (skel H) Ts). split; [now rewrite map_map|].
  clear Hf F'. induction F as [|T Ts (? & ? & ?) F IH]; cbn [map]; constructor; inversion Fs; subst; auto.
  split; [now apply skel_wf|]. split; auto. intros. apply skel_view.
Qed.

Theorem C21_same_structure : forall (H : string -> string) (st : store) (Ts : list node),
  raw_ids H -> Forall (fun T => ntype T = Tree /\ wf T /\ stored H st T) Ts ->
  exists n, forall fuel, n <= fuel ->
  let '(st', _, rs) := compute_all H fuel st [] (map (fun T => ToHexString (nid H T)) Ts) in
  no_collision H st' ->
  forall i j A B ra rb, nth_error Ts i = Some A -> nth_error Ts j = Some B -> nth_error rs i = Some ra -> nth_error rs j = Some rb ->
  (ra = rb <-> forall p, kind A p = kind B p).
Proof.
  intros H st Ts HL F. exists (fold_right (fun T m => Nat.max (depth T) m) 0 Ts). intros fuel Hf.
  assert (F' : Forall (fun T => ntype T = Tree /\ depth T <= fuel /\ wf T /\ stored H st T) Ts).
  { revert Hf. induction F as [|T Ts (? & ? & ?) F IH]; cbn [fold_right]; intros Hf; constructor; [|apply IH; lia].
    split; auto. split; [lia|auto]. }
  pose proof (compute_all_good H HL Ts fuel st [] F') as G. cbv zeta in G.
  destruct (compute_all H fuel st [] _) as [[st' c'] rs]. cbn [fst snd] in G. intros N.
  destruct G as [-> Fs]; [intros ? ?; discriminate|auto|]. intros i j A B ra rb HA HB Ha Hb.
  rewrite (map_nth_error _ _ _ HA) in Ha. rewrite (map_nth_error _ _ _ HB) in Hb. injection Ha as <-. injection Hb as <-.
  apply nth_error_In in HA, HB. rewrite Forall_forall in F, Fs. destruct (F _ HA) as (TA & WA & _). destruct (F _ HB) as (TB & WB & _).
  apply (same_structure H HL st'); auto.
Qed.

(** C44. Two directories with the same digest have the same object at every path, unless the hash function
    collides on two of the tree objects below them. *)
Theorem C44_digest_determines_directory : forall (H : string -> string) (A B : node),
  raw_ids H -> wf A -> wf B -> ntype A = Tree -> ntype B = Tree -> nid H A = nid H B ->
  (forall p, view A p = view B p) \/
  exists x y, In x (subs H A ++ subs H B) /\ In y (subs H A ++ subs H B) /\
     tree_text x <> tree_text y /\ H (tree_text x) = H (tree_text y).
Proof.
  intros H A B HL WA WB TA TB E. destruct (digest_determines H A B HL WA WB TA TB E) as [->|C]; auto.
Qed.
(** Conversely, the digest only depends on the objects found in the directory. *)
Theorem C44_directory_determines_digest : forall (H : string -> string) (A B : node),
  wf A -> wf B -> (forall p, view A p = view B p) -> nid H A = nid H B.
Proof. intros H A B WA WB E. now rewrite (view_ext A B). Qed.
Print Assumptions C44_digest_determines_directory.
Print Assumptions C44_directory_determines_digest.

Print Assumptions C20_overlay_partial.
Print Assumptions C20_disjoint_overlay_partial.
Print Assumptions C20_types_refuted.
Print Assumptions C21_structure.
Print Assumptions C21_same_structure.

(** Two overlapping directories: the merge has all files, the disjoint variant fails; the structures of both
    differ from each other. *)
Example C20_nonvacuous :
  wf ex_a /\ wf ex_b /\ stored toyH ex_store ex_a /\ stored toyH ex_store ex_b /\ uniform toyH ex_a /\ uniform toyH ex_b /\ raw_ids toyH /\
  (let '(st', r) := overlay toyH false 5 ex_store (node_info toyH ex_a) (node_info toyH ex_b) in
   no_collision toyH st' /\ r = Value (node_info toyH ex_r)) /\
  snd (overlay toyH true 5 ex_store (node_info toyH ex_a) (node_info toyH ex_b)) = Fatal.
Proof. exact ex_overlay. Qed.

Example C21_nonvacuous :
  let '(st', _, rs) := compute_all toyH 5 ex_store [] (map (fun T => ToHexString (nid toyH T)) [ex_a; ex_b; ex_a]) in
  no_collision toyH st' /\ (exists a b, rs = [Some a; Some b; Some a] /\ a <> b).
Proof. exact ex_structure. Qed.

Example C44_nonvacuous : wf ex_a /\ wf ex_b /\ nid toyH ex_a <> nid toyH ex_b /\
  nid toyH (Dir [("a", Blob File i1)]) <> nid toyH (Dir [("a", Blob Executable i1)]).
Proof.
  split; [exact ex_a_wf|]. split; [exact ex_b_wf|]. split; apply String.eqb_neq; vm_compute; reflexivity.
Qed.
