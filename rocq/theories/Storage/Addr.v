(** Preservation of invariants of the storage by all operations, and the
    invariant that objects are stored under their hash. *)
From Coq Require Import String List Bool Arith Lia.
From Verif Require Import GitTree.Model Storage.Model Storage.Spec.
Import ListNotations.

Lemma slot_eqb_eq : forall a b, slot_eqb a b = true <-> a = b.
Proof. intros [] []; cbn; split; intros H; congruence. Qed.

Lemma at_path_eq : forall s i s' i', at_path s i (s', i') = true <-> s = s' /\ i = i'.
Proof.
  intros. unfold at_path. cbn. rewrite andb_true_iff, slot_eqb_eq, String.eqb_eq. reflexivity.
Qed.

Lemma lookup_insert : forall g s i d s' i',
  lookup (insert g s i d) s' i' = if at_path s' i' (s, i) then Some d else lookup g s' i'.
Proof. reflexivity. Qed.

Lemma lookup_delete : forall g s i s' i',
  lookup (delete g s i) s' i' = if at_path s' i' (s, i) then None else lookup g s' i'.
Proof.
  intros g s i s' i'. induction g as [|[[s2 i2] d2] g IH].
  - cbn. now destruct (at_path s' i' (s, i)).
  - unfold delete in *. cbn [filter fst].
    destruct (at_path s i (s2, i2)) eqn:E; cbn [negb lookup].
    + rewrite IH. apply at_path_eq in E. destruct E as [<- <-].
      now destruct (at_path s' i' (s, i)).
    + destruct (at_path s' i' (s2, i2)) eqn:E2; [|exact IH].
      apply at_path_eq in E2. destruct E2 as [-> ->].
      destruct (at_path s2 i2 (s, i)) eqn:E3; [|reflexivity].
      apply at_path_eq in E3. destruct E3 as [-> ->].
      assert (at_path s i (s, i) = true) by now apply at_path_eq. congruence.
Qed.

Lemma update_nth_length : forall k f l, length (update_nth k f l) = length l.
Proof. induction k as [|k IH]; intros f [|g l]; cbn; auto. Qed.

Lemma nth_update_nth : forall k f l k',
  nth k' (update_nth k f l) [] =
  if Nat.eqb k k' then (if k <? length l then f (nth k l []) else []) else nth k' l [].
Proof.
  induction k as [|k IH]; intros f [|g l] [|k']; cbn; try reflexivity.
  - now destruct (k =? k').
  - rewrite IH. reflexivity.
Qed.

Lemma gen_at_update : forall gs L k f k',
  gen_at (mkStore (update_nth k f gs) L) k' =
  if Nat.eqb k k' then (if k <? length gs then f (nth k gs []) else []) else nth k' gs [].
Proof. intros. apply nth_update_nth. Qed.

(** ** Preservation *)
Section Pres.

Variable I : store -> Prop.

Fixpoint pres {A} (m : M A) : Prop :=
  match m with
  | Ret _ => True
  | Act X act k => (forall ok σ, I σ -> I (snd (act ok σ))) /\ forall x, pres (k x)
  end.

Lemma pres_ret {A} (a : A) : pres (ret a).
Proof. exact Logic.I. Qed.

Lemma pres_bind {A B} (m : M A) (f : A -> M B) :
  pres m -> (forall a, pres (f a)) -> pres (bind m f).
Proof.
  intros Hm Hf. induction m as [a|X act k IH]; cbn in *; [apply Hf|].
  destruct Hm as [H1 H2]. split; auto.
Qed.

Lemma pres_access {A : Set} (act : bool -> store -> A * store) :
  (forall b σ, I σ -> I (snd (act b σ))) -> pres (access act).
Proof. intros H. cbn. auto. Qed.

Lemma pres_look : forall k s i, pres (look k s i).
Proof. intros. apply pres_access. auto. Qed.
Lemma pres_attempt : pres attempt.
Proof. apply pres_access. auto. Qed.
Lemma pres_num : pres num_generations.
Proof. apply pres_access. auto. Qed.
Lemma pres_is_file : forall k s i, pres (is_file k s i).
Proof. intros. apply pres_bind; [apply pres_look|]. intros. apply pres_ret. Qed.
Lemma pres_read_file : forall k s i, pres (read_file k s i).
Proof. intros. apply pres_bind; [apply pres_look|]. intros. apply pres_ret. Qed.

Lemma pres_any_of {A} (l : list A) f : (forall x, pres (f x)) -> pres (any_of l f).
Proof.
  intros H. induction l as [|x l IH]; [apply pres_ret|].
  apply pres_bind; [apply H|]. intros [|]; [apply pres_ret|apply IH].
Qed.

Lemma pres_all_of {A} (l : list A) f : (forall x, In x l -> pres (f x)) -> pres (all_of l f).
Proof.
  intros H. induction l as [|x l IH]; [apply pres_ret|].
  apply pres_bind; [apply H; now left|]. intros [|]; [|apply pres_ret].
  apply IH. intros y Hy. apply H. now right.
Qed.

Lemma pres_generations f : (forall k, pres (f k)) -> pres (generations f).
Proof. intros H. apply pres_bind; [apply pres_num|]. intros n. now apply pres_any_of. Qed.

Lemma pres_run {A} (m : M A) : forall oks σ, pres m -> I σ -> I (snd (run m oks σ)).
Proof.
  induction m as [a|X act k IH]; intros oks σ P0 I0; cbn [run]; [exact I0|].
  destruct P0 as [P1 P2]. destruct oks as [|ok oks]; [exact I0|].
  specialize (P1 ok σ I0). destruct (act ok σ) as [x σ']. apply IH; auto.
Qed.

Definition pres_threads (l : list (op * M answer)) : Prop := forall o m, In (o, m) l -> pres m.

Lemma pres_advance : forall l t ok σ, pres_threads l -> I σ ->
  pres_threads (fst (advance l t ok σ)) /\ I (snd (advance l t ok σ)).
Proof.
  induction l as [|[o m] l IH]; intros t ok σ PL I0; cbn [advance]; [auto|].
  destruct t as [|t].
  - destruct m as [a|X act k]; [auto|].
    assert (P0 : pres (Act X act k)) by (apply (PL o); now left). destruct P0 as [P1 P2].
    specialize (P1 ok σ I0). destruct (act ok σ) as [x σ']. cbn [fst snd] in *. split; [|exact P1].
    intros o' m' [E|Hin]; [injection E as <- <-; apply P2|apply (PL o'); now right].
  - assert (PL' : pres_threads l) by (intros o' m' Hin; apply (PL o'); now right).
    specialize (IH t ok σ PL' I0). destruct (advance l t ok σ) as [r' σ'].
    cbn [fst snd] in *. destruct IH as [H1 H2].
    assert (G : pres_threads ((o, m) :: r')).
    { intros o' m' [E|Hin]; [injection E as <- <-; apply (PL o); now left|now apply (H1 o')]. }
    destruct m; cbn [fst snd]; split; assumption.
Qed.

End Pres.

Create HintDb pres.
#[export] Hint Resolve pres_ret pres_look pres_attempt pres_is_file pres_read_file : pres.

(** ** What all operations preserve *)
Section Addr.

Variable C : config.
Local Notation hash := (cfg_hash C).

(** Objects are added under their hash. *)
Definition fits (s : slot) (i : id) (d : data) : Prop :=
  object_slot s = true -> exists b, d = Bytes b /\ hash (kind_of s) b = i.

Record closed (I : store -> Prop) : Prop := {
  c_add : forall σ k s i d, fits s i d -> I σ ->
    I (mkStore (update_nth k (fun g => insert g s i d) (gens σ)) (log σ));
  c_remove : forall σ k s i, I σ -> I (mkStore (update_nth k (fun g => delete g s i) (gens σ)) (log σ));
  c_note : forall σ k b, I σ -> I (mkStore (gens σ) ((k, b) :: log σ));
  c_move : forall σ k, I σ -> I (mkStore (update_nth k (fun _ => [])
             (update_nth (S k) (fun _ => gen_at σ k) (gens σ))) (log σ));
  c_drop : forall σ k, I σ -> I (mkStore (update_nth k (fun _ => []) (gens σ)) (log σ))
}.

Section Closed.
Variable I : store -> Prop.
Hypothesis CI : closed I.
Local Notation P := (pres I).

Lemma pres_note : forall k b, P (note k b).
Proof. intros k b. apply pres_access. intros _ σ A. cbn. now apply (c_note I CI). Qed.

Lemma pres_add : forall md k s i d, fits s i d -> P (add md k s i d).
Proof.
  intros md k s i d H. apply pres_access. intros b σ A.
  pose proof (c_add I CI σ k s i d H A) as X.
  destruct (lookup _ _ _), md, b; cbn; auto.
Qed.

Lemma pres_remove : forall k s i, P (remove k s i).
Proof.
  intros k s i. apply pres_access. intros [|] σ A; [|exact A]. now apply (c_remove I CI).
Qed.

Lemma pres_move : forall k, P (move_generation k).
Proof. intros k. apply pres_access. intros [|] σ A; [|exact A]. now apply (c_move I CI). Qed.

Lemma pres_drop : forall k, P (drop_generation k).
Proof. intros k. apply pres_access. intros [|] σ A; [|exact A]. now apply (c_drop I CI). Qed.

Ltac step :=
  match goal with
  | |- pres _ (ret _) => apply pres_ret
  | |- pres _ (look _ _ _) => apply pres_look
  | |- pres _ attempt => apply pres_attempt
  | |- pres _ num_generations => apply pres_num
  | |- pres _ (is_file _ _ _) => apply pres_is_file
  | |- pres _ (read_file _ _ _) => apply pres_read_file
  | |- pres _ (note _ _) => apply pres_note
  | |- pres _ (remove _ _ _) => apply pres_remove
  | |- pres _ (generations _) => apply pres_generations; intros
  | |- pres _ (any_of _ _) => apply pres_any_of; intros
  | |- pres _ (all_of _ _) => apply pres_all_of; intros
  | |- pres _ (bind _ _) => apply pres_bind; [|intros]
  | |- pres _ (if ?b then _ else _) => destruct b
  | |- pres _ (match ?x with _ => _ end) => destruct x
  | |- pres _ (let '(_, _) := ?x in _) => destruct x
  | |- pres _ (fun _ => _) => idtac
  end.

Lemma pres_LocalStore : forall k s b, P (LocalStore C k s b).
Proof.
  intros. unfold LocalStore. repeat step. apply pres_add. intros _. eauto.
Qed.
Hint Resolve pres_LocalStore : pres.

Lemma pres_LocalBlobPath : forall k d x, P (LocalBlobPath C k d x).
Proof. intros. unfold LocalBlobPath. repeat step; auto with pres. Qed.
Hint Resolve pres_LocalBlobPath : pres.

Lemma pres_splice_parts : forall path k ps, (forall p, P (path p)) -> P (splice_parts path k ps).
Proof.
  intros path k ps H. induction ps as [|p ps IH]; cbn [splice_parts]; repeat step; auto.
Qed.
Lemma pres_splice : forall path k ps, (forall p, P (path p)) -> P (splice path k ps).
Proof. intros. unfold splice. repeat step. now apply pres_splice_parts. Qed.

Lemma pres_LocalTrySplice : forall k ls d, P (LocalTrySplice C k ls d).
Proof.
  intros. unfold LocalTrySplice, LocalReadEntry. repeat step.
  apply pres_splice. auto with pres.
Qed.
Hint Resolve pres_LocalTrySplice : pres.

Lemma pres_LocalUplinkLarge : forall up k ls d,
  object_slot ls = false -> (forall p, P (up p)) -> P (LocalUplinkLarge up k ls d).
Proof.
  intros. unfold LocalUplinkLarge, LocalReadEntry. repeat step; auto.
  apply pres_add. unfold fits. congruence.
Qed.

Lemma pres_LocalUplinkBlob : forall n k d x sk sr, P (LocalUplinkBlob C n k d x sk sr).
Proof.
  induction n as [|n IH]; intros; cbn [LocalUplinkBlob]; repeat step; auto with pres;
    apply pres_LocalUplinkLarge; auto.
Qed.
Hint Resolve pres_LocalUplinkBlob : pres.

Lemma pres_LocalUplinkGitTree : forall n k d sr, P (LocalUplinkGitTree C n k d sr).
Proof.
  induction n as [|n IH]; intros; cbn [LocalUplinkGitTree]; unfold uplink_ref;
    repeat step; auto with pres; apply pres_LocalUplinkLarge; auto with pres.
Qed.
Hint Resolve pres_LocalUplinkGitTree : pres.

Lemma pres_callback : forall s d, P (exists_callback C s d).
Proof.
  intros. unfold exists_callback, UplinkTree, UplinkBlob. repeat step; auto with pres.
Qed.
Hint Resolve pres_callback : pres.

Lemma pres_Store : forall s b, P (Store C s b).
Proof. intros. unfold Store. repeat step; auto with pres. apply pres_add. intros _. eauto. Qed.
Hint Resolve pres_Store : pres.

Lemma pres_BlobPath : forall d x, P (BlobPath C d x).
Proof. intros. unfold BlobPath, BlobPathNoSync, StoreBlob. repeat step; auto with pres. Qed.
Hint Resolve pres_BlobPath : pres.

Lemma pres_GetEntryPath : forall m ls d, P (GetEntryPath C m ls d).
Proof.
  intros. unfold GetEntryPath, UplinkLargeBlob. repeat step.
  apply pres_LocalUplinkLarge; auto with pres.
Qed.
Hint Resolve pres_GetEntryPath : pres.

Lemma pres_check_item : forall j t, P (check_item C j t).
Proof. intros. unfold check_item, TreePath. repeat step; auto with pres. Qed.
Hint Resolve pres_check_item : pres.

Lemma pres_CheckTreeInvariant : forall d b, P (CheckTreeInvariant C d b).
Proof. intros. unfold CheckTreeInvariant. repeat step. auto with pres. Qed.
Hint Resolve pres_CheckTreeInvariant : pres.

Lemma pres_store_chunks : forall m cs, P (store_chunks C m cs).
Proof.
  intros m cs. induction cs as [|c cs IH]; cbn [store_chunks]; unfold cas_store;
    repeat step; auto with pres.
Qed.
Hint Resolve pres_store_chunks : pres.

Lemma pres_Split : forall m ls d, large_slot ls = true -> P (Split C m ls d).
Proof.
  intros m ls d O. unfold Split, ReadEntry, LocalReadEntry, split_source, WriteEntry, cas_path.
  assert (N : object_slot ls = false) by (destruct ls; cbn in *; congruence).
  repeat (step || (apply pres_add; unfold fits; congruence) || auto with pres).
Qed.

Lemma pres_Splice : forall s d ps, P (Splice C s d ps).
Proof.
  intros. unfold Splice, TreePath. repeat (step || auto with pres).
  all: try (apply pres_splice; auto with pres).
Qed.

Lemma pres_uplink_action : forall k a, P (LocalUplinkAction C k a).
Proof.
  intros. unfold LocalUplinkAction, uplink_ref.
  repeat (step || (apply pres_add; unfold fits; cbn; congruence) || auto with pres).
Qed.

Lemma pres_uplink_target : forall n k a, P (LocalUplinkTarget C n k a).
Proof.
  induction n as [|n IH]; intros; cbn [LocalUplinkTarget]; unfold uplink_ref;
  repeat (step || (apply pres_add; unfold fits; cbn; congruence) || auto with pres).
Qed.

Lemma pres_Compactify : forall f e b, P (Compactify C f e b).
Proof.
  intros. unfold Compactify, RemoveInvalid, RemoveSpliced, remove_if_file, SplitLarge.
  repeat (step || (apply pres_Split; destruct (fst x); reflexivity) || auto with pres).
Qed.

Lemma pres_rotate : P rotate.
Proof. unfold rotate. repeat step. apply pres_move. Qed.
Lemma pres_drop_all : P drop_all.
Proof. unfold drop_all. repeat step. apply pres_drop. Qed.

Lemma pres_gc : forall nr al f e b, P (TriggerGarbageCollection C nr al f e b).
Proof.
  intros. unfold TriggerGarbageCollection.
  repeat (step || apply pres_rotate || apply pres_drop_all || apply pres_Compactify).
Qed.

Lemma pres_program : forall o, P (program C o).
Proof.
  intros [] ; cbn [program]; unfold StoreBlob, StoreTree, AddTree, ReadBlob, ReadTree, TreePath,
    StoreResult, CachedResult, StoreTarget, ReadTarget, StoreBlob, StoreTree, ReadBlob;
  repeat (step || (apply pres_add; unfold fits; cbn; congruence) || apply pres_uplink_action
          || apply pres_uplink_target || apply pres_Splice
          || (apply pres_Split; reflexivity) || auto with pres).
Qed.

Lemma pres_perform : forall Σ a, pres_threads I (threads Σ) -> I (disk Σ) ->
  pres_threads I (threads (perform C Σ a)) /\ I (disk (perform C Σ a)).
Proof.
  intros Σ [o|t ok|nr al f e b oks] PT A; cbn [perform].
  - split; [|exact A]. intros o' m Hin. cbn [threads] in Hin. apply in_app_or in Hin.
    destruct Hin as [Hin|[E|[]]]; [exact (PT o' m Hin)|]. injection E as <- <-. apply pres_program.
  - pose proof (pres_advance I (threads Σ) t ok (disk Σ) PT A) as H.
    destruct (advance (threads Σ) t ok (disk Σ)) as [l σ]. cbn in *. exact H.
  - split; [intros o m []|]. cbn [disk]. apply pres_run; [apply pres_gc|exact A].
Qed.

Lemma pres_perform_all : forall acts Σ, pres_threads I (threads Σ) -> I (disk Σ) ->
  pres_threads I (threads (perform_all C acts Σ)) /\ I (disk (perform_all C acts Σ)).
Proof.
  induction acts as [|a acts IH]; intros Σ PT A; [auto|].
  destruct (pres_perform Σ a PT A) as [H1 H2]. exact (IH _ H1 H2).
Qed.

End Closed.

(** *** Objects are stored under their hash *)
Definition addressed (σ : store) : Prop := forall k s i d,
  lookup (gen_at σ k) s i = Some d -> object_slot s = true ->
  exists b, d = Bytes b /\ hash (kind_of s) b = i.

Lemma closed_addressed : closed addressed.
Proof.
  split.
  - intros σ k s i d H A k' s' i' d' L O. rewrite gen_at_update in L.
    destruct (Nat.eqb_spec k k') as [->|].
    + destruct (k' <? length (gens σ)); [|discriminate L].
      rewrite lookup_insert in L. destruct (at_path s' i' (s, i)) eqn:E.
      * apply at_path_eq in E. destruct E as [-> ->]. injection L as <-. auto.
      * exact (A k' s' i' d' L O).
    + exact (A k' s' i' d' L O).
  - intros σ k s i A k' s' i' d' L O. cbn [snd] in L. rewrite gen_at_update in L.
    destruct (Nat.eqb_spec k k') as [->|].
    + destruct (k' <? length (gens σ)); [|discriminate L].
      rewrite lookup_delete in L. destruct (at_path s' i' (s, i)); [discriminate L|].
      exact (A k' s' i' d' L O).
    + exact (A k' s' i' d' L O).
  - intros σ k b A. exact A.
  - intros σ k A k' s' i' d' L O. cbn [snd] in L. rewrite gen_at_update in L.
    destruct (Nat.eqb_spec k k').
    + destruct (k <? _); discriminate L.
    + rewrite nth_update_nth in L. destruct (S k =? k').
      * destruct (S k <? _); [exact (A k s' i' d' L O)|discriminate L].
      * exact (A k' s' i' d' L O).
  - intros σ k A k' s' i' d' L O. cbn [snd] in L. rewrite gen_at_update in L.
    destruct (Nat.eqb_spec k k').
    + destruct (k <? _); discriminate L.
    + exact (A k' s' i' d' L O).
Qed.

(** *** The log only grows, and the number of generations is kept *)
Definition grown (n : nat) (L : list (kind * bytes)) (σ : store) : Prop :=
  length (gens σ) = n /\ exists p, log σ = p ++ L.

Lemma closed_grown : forall n L, closed (grown n L).
Proof.
  intros n L. split; intros; unfold grown in *; cbn [gens log];
    rewrite ?update_nth_length; intuition.
  destruct H1 as [p ->]. now exists ((k, b) :: p).
Qed.

End Addr.
