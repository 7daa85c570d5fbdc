(** Properties C50 to C54. *)
From Coq Require Import String Ascii List Bool NArith Arith Permutation Lia.
From Verif Require Import Common.Strs Hex.Model Hex.Proofs GitTree.Model GitTree.Spec GitTree.Proofs GitTree.Ids TreeOps.Model TreeOps.Spec TreeOps.Proofs TreeOps.Witness
  Path.Model Path.Spec Upload.Model Upload.Spec Upload.Logic Upload.Transfer Upload.Root Upload.Build Upload.Put Upload.Examples.
Import ListNotations.
Local Open Scope string_scope.
Local Open Scope list_scope.

(** C50. Whether there is an input root, and what it is. Full statement: for all paths, not only [tidy] ones; see
    [C50_trailing_slash_refuted]. *)
Theorem C50_input_root_partial : forall (H : string -> string) (ord : list child -> list child) (l : list input),
  raw_ids H -> (forall c, Permutation (ord c) c) -> Forall good_input l ->
  let root := match FromNamedArtifacts (map art l) with Some ns => FromDirectoryTree H ord ns | None => None end in
  (root <> None <->
     Forall (fun i => inside (fst i)) l /\ conflict_free l /\ Forall (fun i => snd i <> None) l) /\
  (forall bt, root = Some bt ->
     exists es, proper (Dir es) /\ root_of l (Dir es) /\
       bt_blob bt = {| b_tree := true; b_exec := false; b_data := content H es |}).
Proof.
  intros H ord l HL Ho G root. change root with (input_root H ord (map art l)). split; [split|].
  - intros N. destruct (input_root H ord (map art l)) as [bt|] eqn:E; [|congruence].
    destruct (input_root_some H HL ord Ho l bt G E) as (A & B & C & _). auto.
  - intros (A & B & C). destruct (input_root_exists H HL ord Ho l G A B C) as [bt ->]. discriminate.
  - intros bt E. destruct (input_root_some H HL ord Ho l bt G E) as (_ & _ & _ & es & P & B & R).
    exists es. split; [exact P|]. split; [exact R|]. inversion B; subst. reflexivity.
Qed.
Print Assumptions C50_input_root_partial.

(** The contents described by the inputs determine the directory. *)
Lemma root_unique l l' a b : (forall i, In i l <-> In i l') -> proper a -> proper b -> root_of l a -> root_of l' b -> a = b.
Proof.
  intros I Pa Pb [Ca Fa] [Cb Fb]. apply proper_view_ext; [exact Pa|exact Pb|]. intros p.
  destruct (view a p) as [[t id|]|] eqn:Va.
  - apply Ca in Va. symmetry. apply Cb. destruct Va as (q & Hq & E). exists q. split; [now apply I|exact E].
  - apply Fa in Va. symmetry. apply Fb. destruct Va as [->|(i & r & Hi & E)]; [now left|]. right. exists i, r. split; [now apply I|exact E].
  - destruct (view b p) as [[t id|]|] eqn:Vb; [| |reflexivity]; exfalso.
    + apply Cb in Vb. destruct Vb as (q & Hq & E). assert (X : view a p = Some (Content t id)); [|congruence].
      apply Ca. exists q. split; [now apply I|exact E].
    + apply Fb in Vb. assert (X : view a p = Some Folder); [|congruence]. apply Fa.
      destruct Vb as [->|(i & r & Hi & E)]; [now left|]. right. exists i, r. split; [now apply I|exact E].
Qed.

Lemma conflict_free_perm l l' : Permutation l l' -> conflict_free l -> conflict_free l'.
Proof.
  intros P C i j a b Hi Hj N. apply Permutation_nth_error in P as (_ & f & Inj & F). rewrite F in Hi, Hj.
  apply (C (f i) (f j) a b Hi Hj). intros E. apply N. now apply Inj.
Qed.

(** Neither the order of the inputs nor that of hash maps matters. *)
Theorem C50_order_partial : forall (H : string -> string) (ord ord' : list child -> list child) (l l' : list input),
  raw_ids H -> (forall c, Permutation (ord c) c) -> (forall c, Permutation (ord' c) c) -> Forall good_input l ->
  Permutation l l' ->
  let root o x := match FromNamedArtifacts (map art x) with Some ns => FromDirectoryTree H o ns | None => None end in
  option_map bt_blob (root ord l) = option_map bt_blob (root ord' l').
Proof.
  intros H ord ord' l l' HL Ho Ho' G P root.
  assert (G' : Forall good_input l') by (eapply Permutation_Forall; eassumption).
  assert (half : forall o o' x y, (forall c, Permutation (o c) c) -> (forall c, Permutation (o' c) c) -> Forall good_input x -> Forall good_input y ->
     Permutation x y -> forall bt, root o x = Some bt -> option_map bt_blob (root o' y) = Some (bt_blob bt)).
  { clear -HL. intros o o' x y Hx Hy Gx Gy P bt E. 
    destruct (input_root_some H HL o Hx x bt Gx E) as (A & B & C & es & Pr & Bt & R).
    destruct (input_root_exists H HL o' Hy y Gy) as [bt' E'].
    - eapply Permutation_Forall; eassumption.
    - exact (conflict_free_perm x y P B).
    - eapply Permutation_Forall; eassumption.
    - change (root o' y) with (input_root H o' (map art y)). rewrite E'. cbn. f_equal.
      destruct (input_root_some H HL o' Hy y bt' Gy E') as (_ & _ & _ & es' & Pr' & Bt' & R').
      assert (X : Dir es = Dir es').
      { eapply (root_unique x y); try eassumption. intros i. split; apply Permutation_in; [exact P|now apply Permutation_sym]. }
      injection X as <-. inversion Bt; inversion Bt'; subst. reflexivity. }
  destruct (root ord l) as [bt|] eqn:E.
  - cbn. symmetry. exact (half _ _ _ _ Ho Ho' G G' P bt E).
  - destruct (root ord' l') as [bt'|] eqn:E'; [|reflexivity].
    assert (X := half _ _ _ _ Ho' Ho G' G (Permutation_sym P) bt' E'). rewrite E in X. discriminate X.
Qed.
Print Assumptions C50_order_partial.

(** A path ending in a slash is accepted, and leads to a tree with an entry without name. *)
Theorem C50_trailing_slash_refuted : exists (H : string -> string) (bt n : btree) (id : string),
  raw_ids H /\ String.length id = 20 /\
  match FromNamedArtifacts (map art [("foo/", Some (File, id))]) with Some ns => FromDirectoryTree H (fun c => c) ns | None => None end = Some bt /\
  In n (bt_nodes bt) /\ b_data (bt_blob n) = git_text ("", (File, id)).
Proof.
  destruct slash_root as (bt & n & E & I & D). exists toyH, bt, n, i1. split; [exact toy_ids|]. split; [reflexivity|]. auto.
Qed.
Print Assumptions C50_trailing_slash_refuted.

Example C50_nonvacuous : raw_ids toyH /\ Forall good_input ex_inputs /\
  Forall (fun i => inside (fst i)) ex_inputs /\ conflict_free ex_inputs /\ Forall (fun i => snd i <> None) ex_inputs.
Proof. split; [exact toy_ids|]. split; [exact ex_inputs_good|exact ex_inputs_free]. Qed.

(** C51. At any point, even if others use the store at the same time, everything named in a stored tree is stored;
    a reported tree is that of the inputs and is stored with all it contains (or the hash function collides). *)
Theorem C51_upload_tree : forall (H : string -> string) (ord : list child -> list child) (l : list input)
    (src : digest -> option string) (fails : digest -> Prop) (s s' : cas) (p' : prog (option digest)),
  raw_ids H -> (forall c, Permutation (ord c) c) -> Forall good_input l ->
  complete H s -> (forall p t id, In (p, Some (t, id)) l -> has H s (IsTreeObject t, id)) ->
  steps H src fails (UploadTree H ord (map art l), s) (p', s') ->
  complete H s' /\
  forall d, p' = Ret (Some d) ->
    exists es, proper (Dir es) /\ root_of l (Dir es) /\ d = (true, nid H (Dir es)) /\ has H s' d /\
      (forall q n, at_path (Dir es) q = Some n ->
         has H s' (IsTreeObject (ntype n), nid H n) \/ collision H s' (fun y => In y (subs H (Dir es)))).
Proof.
  intros H ord l src fails s s' p' HL Ho G C A S.
  destruct (adequate H src fails _ p' _ s s' C (upload_tree_wp H HL src fails ord Ho l s G C A) S) as [C' Q].
  split; [exact C'|]. intros d E. destruct (Q _ E d eq_refl) as (Hd & es & P & R & D). exists es.
  split; [exact P|]. split; [exact R|]. split; [exact D|]. split; [exact Hd|]. intros q n Hn.
  destruct (deep H HL q (Dir es) s' P C') as [X|X]; [rewrite D in Hd; exact Hd|now right|left; now apply X].
Qed.
Print Assumptions C51_upload_tree.

(** If uploads succeed, so does the upload of the tree. *)
Theorem C51_succeeds : forall (H : string -> string) (ord : list child -> list child) (l : list input) (src : digest -> option string),
  raw_ids H -> (forall c, Permutation (ord c) c) -> Forall good_input l ->
  Forall (fun i => inside (fst i)) l -> conflict_free l -> Forall (fun i => snd i <> None) l ->
  outcome src (fun r => r <> None) (UploadTree H ord (map art l)).
Proof. intros H ord l src HL Ho. exact (upload_tree_outcome H HL src ord Ho l). Qed.
Print Assumptions C51_succeeds.

Example C51_nonvacuous : complete toyH ex_cas /\
  (forall p t id, In (p, Some (t, id)) ex_inputs -> has toyH ex_cas (IsTreeObject t, id)) /\
  exists d s', steps toyH (fun _ => None) (fun _ => False)
    (UploadTree toyH (fun c => c) (map art ex_inputs), ex_cas) (Ret (Some d), s').
Proof.
  split; [exact ex_cas_complete|]. split; [exact ex_cas_has|].
  destruct ex_inputs_free as (A & B & C).
  assert (O := C51_succeeds toyH (fun c => c) ex_inputs (fun _ => None) toy_ids (fun c => Permutation_refl c) ex_inputs_good A B C).
  destruct (outcome_run toyH (fun _ => None) (fun _ => False) _ _ O ex_cas) as (r & s' & S & N). destruct r as [d|]; [exists d, s'; exact S|congruence].
Qed.

(** C52. *)
Theorem C52_batches : forall (H : string -> string) (ord : list child -> list child) (check : list string -> bool) (fuel : nat),
  (forall arts, calls size_ok (UploadTree H ord arts)) /\
  (forall t id, calls size_ok (VerifyOrUploadGitArtifact H check fuel t id)) /\
  (forall infos, calls size_ok (GitRetrieveToCas H check fuel infos)).
Proof.
  intros H ord check fuel. split; [|split].
  - intros arts. apply upload_tree_calls.
  - intros t id. apply git_artifact_calls.
  - intros infos. apply git_retrieve_calls.
Qed.
Print Assumptions C52_batches.

(** C53. *)
Theorem C53_git_artifact : forall (H : string -> string) (check : list string -> bool) (fuel : nat) (t : otype) (id : string)
    (src : digest -> option string) (fails : digest -> Prop) (s s' : cas) (p' : prog bool),
  consistent H src -> complete H s ->
  steps H src fails (VerifyOrUploadGitArtifact H check fuel t id, s) (p', s') ->
  complete H s' /\
  (p' = Ret true -> has H s' (IsTreeObject t, id) /\
     forall d, reaches src (IsTreeObject t, id) d -> has H s' d \/ collision H s' (fun y => exists i, src i = Some y)).
Proof.
  intros H check fuel t id src fails s s' p' K C S.
  destruct (adequate H src fails _ p' _ s s' C (VerifyOrUploadGitArtifact_spec H src fails check K fuel t id s C) S) as [C' Q].
  split; [exact C'|]. intros E. assert (Hd := Q _ E eq_refl). split; [exact Hd|]. intros d R. now apply (deep_source H src s' (IsTreeObject t, id)).
Qed.
Print Assumptions C53_git_artifact.

Theorem C53_retrieve : forall (H : string -> string) (check : list string -> bool) (fuel : nat) (infos : list item)
    (src : digest -> option string) (fails : digest -> Prop) (s s' : cas) (p' : prog bool),
  consistent H src -> complete H s ->
  steps H src fails (GitRetrieveToCas H check fuel infos, s) (p', s') ->
  complete H s' /\
  (p' = Ret true -> forall x t id, In (x, (t, id)) infos -> has H s' (IsTreeObject t, id) /\
     forall d, reaches src (IsTreeObject t, id) d -> has H s' d \/ collision H s' (fun y => exists i, src i = Some y)).
Proof.
  intros H check fuel infos src fails s s' p' K C S.
  destruct (adequate H src fails _ p' _ s s' C (GitRetrieve_spec H src fails check K fuel infos s C) S) as [C' Q].
  split; [exact C'|]. intros E x t id Hi. assert (Hd := Q _ E eq_refl (x, (t, id)) Hi). change (entry_digest (x, (t, id))) with (IsTreeObject t, id) in Hd.
  split; [exact Hd|]. intros d R. now apply (deep_source H src s' (IsTreeObject t, id)).
Qed.
Print Assumptions C53_retrieve.

Theorem C53_succeeds : forall (H : string -> string) (check : list string -> bool) (src : digest -> option string) (n fuel : nat),
  (forall ids, check ids = true) -> n < fuel ->
  (forall t id, holds src n (IsTreeObject t, id) -> outcome src (fun ok => ok = true) (VerifyOrUploadGitArtifact H check fuel t id)) /\
  (forall infos, (forall x t id, In (x, (t, id)) infos -> holds src n (IsTreeObject t, id)) ->
     outcome src (fun ok => ok = true) (GitRetrieveToCas H check fuel infos)).
Proof.
  intros H check src n fuel L Lt. split.
  - intros t id P. apply (git_artifact_outcome H src check L n); [exact P|lia].
  - intros infos P. destruct fuel as [|f]; [lia|]. apply git_retrieve_outcome; [exact L|]. intros [x [t id]] He.
    apply (holds_mono src n); [apply (P x t id He)|lia].
Qed.
Print Assumptions C53_succeeds.

Example C53_nonvacuous : consistent toyH (ex_src toyH) /\ complete toyH [] /\
  holds (ex_src toyH) 2 (true, tree_id toyH (ex_tree toyH)) /\
  exists s', steps toyH (ex_src toyH) (fun _ => False)
    (GitRetrieveToCas toyH (fun _ => true) 3 [("", (Tree, tree_id toyH (ex_tree toyH)))], []) (Ret true, s').
Proof.
  split; [apply ex_consistent|]. split; [intros data d []|]. split; [exact (ex_holds toyH toy_ids)|].
  destruct (C53_succeeds toyH (fun _ => true) (ex_src toyH) 2 3 (fun _ => eq_refl) (le_n _)) as [_ O].
  assert (P : forall x t id, In (x, (t, id)) [("", (Tree, tree_id toyH (ex_tree toyH)))] -> holds (ex_src toyH) 2 (IsTreeObject t, id)).
  { intros x t id [E|[]]. injection E as <- <- <-. exact (ex_holds toyH toy_ids). }
  destruct (outcome_run toyH (ex_src toyH) (fun _ => False) _ _ (O _ P) []) as (r & s' & S & ->). eauto.
Qed.

(** C54. Full statement: as [C53_retrieve], for the transfer from the local store. It does not hold: *)
Theorem C54_local_refuted : forall (H : string -> string), raw_ids H ->
  exists (check : list string -> bool) (src : digest -> option string) (fuel : nat) (infos : list item) (s s' : cas),
    consistent H src /\ complete H s /\
    (forall x t id, In (x, (t, id)) infos -> holds src 2 (IsTreeObject t, id)) /\
    steps H src (fun _ => False) (LocalRetrieveToCas H check fuel infos, s) (Ret true, s') /\
    ~ complete H s'.
Proof.
  intros H HL. destruct (local_refuted H HL) as (s' & S & N).
  exists (fun _ => false), (ex_src H), 2, [("", (Tree, tree_id H (ex_tree H)))], [], s'.
  split; [apply ex_consistent|]. split; [intros data d []|]. split; [|split; [exact S|exact N]].
  intros x t id [E|[]]. injection E as <- <- <-. exact (ex_holds H HL).
Qed.
Print Assumptions C54_local_refuted.

(** ... except if all trees in the source are readable, including their links. *)
Theorem C54_local_partial : forall (H : string -> string) (check : list string -> bool) (fuel : nat) (infos : list item)
    (src : digest -> option string) (s s' : cas) (p' : prog bool),
  consistent H src -> complete H s ->
  (forall ids, check ids = true) ->
  (forall id data, src (true, id) = Some data -> exists l, valid_items l /\ git_tree_object l data) ->
  steps H src (fun _ => False) (LocalRetrieveToCas H check fuel infos, s) (p', s') ->
  complete H s' /\
  (p' = Ret true -> forall x t id, In (x, (t, id)) infos -> has H s' (IsTreeObject t, id) /\
     forall d, reaches src (IsTreeObject t, id) d -> has H s' d \/ collision H s' (fun y => exists i, src i = Some y)).
Proof.
  intros H check fuel infos src s s' p' K C L V S.
  assert (R : forall id data, src (true, id) = Some data -> exists items, tree_items check data = Some items).
  { intros id data E. destruct (V id data E) as (l & Vl & G). destruct (items_of check L l data Vl G) as (items & I & _). eauto. }
  destruct (adequate H src _ _ p' _ s s' C (LocalRetrieve_spec H src (fun _ => False) check K (fun _ F => F) R fuel infos s C) S) as [C' Q].
  split; [exact C'|]. intros E x t id Hi. assert (Hd := Q _ E eq_refl (x, (t, id)) Hi). change (entry_digest (x, (t, id))) with (IsTreeObject t, id) in Hd.
  split; [exact Hd|]. intros d Rd. now apply (deep_source H src s' (IsTreeObject t, id)).
Qed.
Print Assumptions C54_local_partial.

Theorem C54_succeeds_partial : forall (H : string -> string) (check : list string -> bool) (src : digest -> option string) (n fuel : nat) (infos : list item),
  (forall ids, check ids = true) -> n < fuel ->
  (forall x t id, In (x, (t, id)) infos -> holds src n (IsTreeObject t, id)) ->
  outcome src (fun ok => ok = true) (LocalRetrieveToCas H check fuel infos).
Proof.
  intros H check src n fuel infos L Lt P. destruct fuel as [|f]; [lia|]. apply local_retrieve_outcome; [exact L|]. intros [x [t id]] He.
  apply (holds_mono src n); [apply (P x t id He)|lia].
Qed.
Print Assumptions C54_succeeds_partial.
