(** Entries of the caches are what was stored under their key (for C115), for the storage of Storage/Model.v. *)
From Coq Require Import String List Bool Arith Lia.
From Verif Require Import GitTree.Model Storage.Model Storage.Spec.
Import ListNotations.

Section Clean.
Variable C : config.
(** What may be put in the target cache, and in the action cache. *)
Variable PT PA : id -> data -> Prop.
Local Notation hash := (cfg_hash C).

Definition fits (s : slot) (i : id) (d : data) : Prop :=
  match s with
  | STarget => PT i d
  | SAction => PA i d
  | SFile | SExec => forall b, d = Bytes b -> hash KBlob b = i
  | _ => True
  end.
Definition fine (σ : store) : Prop := forall k s i d, lookup (gen_at σ k) s i = Some d -> fits s i d.

(** Each access keeps the storage fine, and [Q] holds of what is returned. *)
Fixpoint clean {A} (Q : A -> Prop) (m : M A) : Prop :=
  match m with
  | Ret a => Q a
  | Act X act k => forall ok σ, fine σ -> fine (snd (act ok σ)) /\ clean Q (k (fst (act ok σ)))
  end.
Definition harmless {A} (m : M A) : Prop := clean (fun _ => True) m.

Lemma clean_weaken {A} (Q Q' : A -> Prop) (m : M A) : (forall a, Q a -> Q' a) -> clean Q m -> clean Q' m.
Proof.
  intros W. induction m as [a|X act k IH]; cbn [clean]; [apply W|]. intros H ok σ F. destruct (H ok σ F) as [H1 H2]. split; [exact H1|]. now apply IH.
Qed.
Lemma clean_bind {A B} (Q : A -> Prop) (Q' : B -> Prop) (m : M A) (f : A -> M B) : clean Q m -> (forall a, Q a -> clean Q' (f a)) -> clean Q' (bind m f).
Proof.
  intros H W. induction m as [a|X act k IH]; cbn [clean bind] in *; [now apply W|].
  intros ok σ F. destruct (H ok σ F) as [H1 H2]. split; [exact H1|]. now apply IH.
Qed.
Lemma harmless_bind {A B} (Q' : B -> Prop) (m : M A) (f : A -> M B) : harmless m -> (forall a, clean Q' (f a)) -> clean Q' (bind m f).
Proof. intros H W. eapply clean_bind; [exact H|]. intros a _. apply W. Qed.

Lemma gen_at_update σ k f j l : gen_at (mkStore (update_nth k f (gens σ)) l) j = if (Nat.eqb j k && Nat.ltb k (length (gens σ)))%bool then f (gen_at σ j) else gen_at σ j.
Proof.
  unfold gen_at. cbn [gens]. generalize (gens σ). intros gs. revert k j. induction gs as [|g gs IH]; intros k j; cbn [update_nth length].
  - destruct k; cbn; rewrite Bool.andb_false_r; reflexivity.
  - destruct k as [|k], j as [|j]; cbn [update_nth nth Nat.eqb]; try reflexivity.
    rewrite IH. change (Nat.ltb (S k) (S (length gs))) with (Nat.ltb k (length gs)). reflexivity.
Qed.
Lemma look_clean k s i : clean (fun o => forall d, o = Some d -> fits s i d) (look k s i).
Proof. cbn. intros ok σ F. split; [exact F|]. intros d E. eapply F; eauto. Qed.
Lemma look_harmless k s i : harmless (look k s i). Proof. eapply clean_weaken; [|apply look_clean]. trivial. Qed.
Lemma slot_eqb_eq a b : slot_eqb a b = true -> a = b.
Proof. destruct a, b; cbn; congruence. Qed.
Lemma fine_insert σ k s i d l : fine σ -> fits s i d -> fine (mkStore (update_nth k (fun g => insert g s i d) (gens σ)) l).
Proof.
  intros F P k' s' i' d' L. rewrite gen_at_update in L. destruct (Nat.eqb k' k && Nat.ltb k (length (gens σ)))%bool; [|eapply F; eauto].
  unfold insert in L. cbn [lookup] in L. unfold at_path in L. cbn [fst snd] in L. destruct (slot_eqb s' s && String.eqb i' i)%bool eqn:Q; [|eapply F; eauto].
  apply andb_prop in Q as [Q1 Q2]. apply slot_eqb_eq in Q1 as ->. apply String.eqb_eq in Q2 as ->. injection L as <-. exact P.
Qed.
Lemma add_harmless mode k s i d : fits s i d -> harmless (add mode k s i d).
Proof.
  intros P. cbn. intros ok σ F. split; [|trivial].
  destruct (lookup (gen_at σ k) s i) as [o|], mode, ok; cbn; try exact F; now apply fine_insert.
Qed.
Lemma lookup_delete g s i s' i' d : lookup (delete g s i) s' i' = Some d -> exists d', lookup g s' i' = Some d' /\ (d' = d).
Proof.
  induction g as [|[p x] g IH]; cbn [delete filter lookup fst]; [discriminate|].
  destruct (at_path s i p) eqn:Q; cbn [negb].
  - intros L. destruct (at_path s' i' p) eqn:Q2; [|now apply IH]. exfalso.
    assert (s' = s /\ i' = i) as [-> ->].
    { unfold at_path in *. apply andb_prop in Q as [A B], Q2 as [A' B']. apply slot_eqb_eq in A, A'. apply String.eqb_eq in B, B'. now subst. }
    clear IH Q2. revert L. fold (delete g s i). clear Q. induction g as [|[q y] g IH]; cbn [delete filter lookup fst]; [discriminate|].
    destruct (at_path s i q) eqn:Q3; cbn [negb]; [exact IH|]. cbn [lookup]. rewrite Q3. exact IH.
  - cbn [lookup]. destruct (at_path s' i' p); [|apply IH]. intros E. eauto.
Qed.
Lemma remove_harmless k s i : harmless (remove k s i).
Proof.
  cbn. intros ok σ F. split; [|trivial]. destruct ok; cbn; [|exact F]. intros k' s' i' d' L. rewrite gen_at_update in L.
  destruct (Nat.eqb k' k && Nat.ltb k (length (gens σ)))%bool; [|eapply F; eauto]. apply lookup_delete in L as (x & L & ->). eapply F; eauto.
Qed.
Lemma attempt_harmless : harmless attempt. Proof. cbn. auto. Qed.
Lemma num_harmless : harmless num_generations. Proof. cbn. auto. Qed.
Lemma note_harmless k b : harmless (note k b). Proof. cbn. intros ok σ F. split; [exact F|trivial]. Qed.
Lemma ret_harmless {A} (a : A) : harmless (ret a). Proof. exact Logic.I. Qed.

Lemma any_of_harmless {A} (l : list A) f : (forall x, harmless (f x)) -> harmless (any_of l f).
Proof. intros H. induction l as [|x l IH]; cbn [any_of]; [exact Logic.I|]. apply harmless_bind; [apply H|]. intros []; [exact Logic.I|exact IH]. Qed.
Lemma all_of_harmless {A} (l : list A) f : (forall x, harmless (f x)) -> harmless (all_of l f).
Proof. intros H. induction l as [|x l IH]; cbn [all_of]; [exact Logic.I|]. apply harmless_bind; [apply H|]. intros []; [exact IH|exact Logic.I]. Qed.
Lemma generations_harmless f : (forall k, harmless (f k)) -> harmless (generations f).
Proof. intros H. apply harmless_bind; [apply num_harmless|]. intros n. now apply any_of_harmless. Qed.
Lemma is_file_harmless k s i : harmless (is_file k s i).
Proof. apply harmless_bind; [apply look_harmless|]. intros a. exact Logic.I. Qed.
Lemma read_file_clean k s i : clean (fun o => forall b, o = Some b -> fits s i (Bytes b)) (read_file k s i).
Proof.
  eapply clean_bind; [apply look_clean|]. intros d H. cbn. intros b E. destruct d as [[x| |]|]; try discriminate. injection E as ->. now apply H.
Qed.
Lemma read_file_harmless k s i : harmless (read_file k s i). Proof. eapply clean_weaken; [|apply read_file_clean]. trivial. Qed.

Ltac go := repeat first
  [ apply ret_harmless | exact Logic.I | apply look_harmless | apply is_file_harmless | apply read_file_harmless | apply note_harmless | apply attempt_harmless
  | apply num_harmless | apply remove_harmless | assumption
  | match goal with
    | |- harmless (bind _ _) => apply harmless_bind; [|intros ?]
    | |- clean (fun _ => True) (bind _ _) => apply harmless_bind; [|intros ?]
    | |- harmless (all_of _ _) => apply all_of_harmless; intros ?
    | |- harmless (any_of _ _) => apply any_of_harmless; intros ?
    | |- harmless (generations _) => apply generations_harmless; intros ?
    | |- harmless (match ?x with _ => _ end) => destruct x
    | |- clean (fun _ => True) ?m => change (harmless m)
    end ].

Lemma LocalStore_harmless k s b : (s = SFile \/ s = SExec \/ s = STree) -> harmless (LocalStore C k s b).
Proof. intros S. unfold LocalStore. go. apply add_harmless. destruct S as [-> | [-> | -> ]]; cbn; trivial; intros b' E; now injection E as <-. Qed.
Lemma blob_slots x : blob_slot x = SFile \/ blob_slot x = SExec \/ blob_slot x = STree. Proof. destruct x; cbn; auto. Qed.
Ltac stores := first [apply LocalStore_harmless; (apply blob_slots || (cbn; tauto))].
Lemma LocalBlobPath_harmless k d x : harmless (LocalBlobPath C k d x).
Proof. unfold LocalBlobPath. go. stores. Qed.
Lemma LocalReadEntry_harmless k ls d : harmless (LocalReadEntry k ls d). Proof. unfold LocalReadEntry. go. Qed.
Lemma splice_harmless path k parts : (forall p, harmless (path p)) -> harmless (splice path k parts).
Proof.
  intros H. unfold splice. go. induction parts as [|p r IH]; cbn [splice_parts]; [exact Logic.I|]. go; first [apply H|exact IH].
Qed.
Lemma LocalTrySplice_harmless k ls d : harmless (LocalTrySplice C k ls d).
Proof. unfold LocalTrySplice. go; first [apply LocalReadEntry_harmless|apply splice_harmless; intros p; apply LocalBlobPath_harmless]. Qed.
Definition large (ls : slot) : Prop := ls = SLargeFile \/ ls = SLargeTree.
Lemma large_fits ls i d : large ls -> fits ls i d. Proof. intros [-> | ->]; exact Logic.I. Qed.
Lemma LocalUplinkLarge_harmless up k ls d : large ls -> (forall p, harmless (up p)) -> harmless (LocalUplinkLarge up k ls d).
Proof. intros L H. unfold LocalUplinkLarge. go; first [apply LocalReadEntry_harmless|apply H|now apply add_harmless, large_fits]. Qed.
Lemma LocalUplinkBlob_harmless n : forall k d x sk sp, harmless (LocalUplinkBlob C n k d x sk sp).
Proof.
  induction n as [|n IH]; intros k d x sk sp; cbn [LocalUplinkBlob]; [exact Logic.I|]. go; try stores; try apply LocalBlobPath_harmless; try apply LocalTrySplice_harmless.
  apply LocalUplinkLarge_harmless; [now left|]. intros p. apply IH.
  all: try (apply LocalUplinkLarge_harmless; [now left|]; intros p; apply IH).
Qed.
Lemma uplink_ref_harmless tree k t d : (forall i, harmless (tree i)) -> harmless (uplink_ref C tree k t d).
Proof. intros H. unfold uplink_ref. go; first [apply H|apply LocalUplinkBlob_harmless]. Qed.
Lemma LocalUplinkGitTree_harmless n : forall k d sp, harmless (LocalUplinkGitTree C n k d sp).
Proof.
  induction n as [|n IH]; intros k d sp; cbn [LocalUplinkGitTree]; [exact Logic.I|]. go; try stores; try apply LocalTrySplice_harmless;
    try (apply uplink_ref_harmless; intros ?; apply IH); try (apply LocalUplinkLarge_harmless; [now right|]; intros ?; apply LocalUplinkBlob_harmless).
Qed.
Lemma UplinkBlob_harmless d x : harmless (UplinkBlob C d x). Proof. unfold UplinkBlob. go. apply LocalUplinkBlob_harmless. Qed.
Lemma UplinkTree_harmless d : harmless (UplinkTree C d). Proof. unfold UplinkTree. go. apply LocalUplinkGitTree_harmless. Qed.
Lemma UplinkLargeBlob_harmless d : harmless (UplinkLargeBlob C d).
Proof. unfold UplinkLargeBlob. go. apply LocalUplinkLarge_harmless; [now left|]. intros p. apply LocalUplinkBlob_harmless. Qed.
Lemma exists_harmless s d : harmless (exists_callback C s d).
Proof. unfold exists_callback. destruct s; first [apply UplinkTree_harmless|apply UplinkBlob_harmless]. Qed.
Lemma Store_clean s b : (s = SFile \/ s = SExec \/ s = STree) -> clean (fun r => forall i, r = Some i -> i = hash (kind_of s) b) (Store C s b).
Proof.
  intros S. unfold Store. apply harmless_bind; [apply note_harmless|]. intros _. apply harmless_bind; [apply exists_harmless|]. intros [].
  - cbn. intros i E. congruence.
  - apply harmless_bind; [apply add_harmless; destruct S as [-> | [-> | -> ]]; cbn; trivial; intros b' E; now injection E as <-|].
    intros []; cbn; intros i E; congruence.
Qed.
Lemma Store_harmless s b : (s = SFile \/ s = SExec \/ s = STree) -> harmless (Store C s b).
Proof. intros S. eapply clean_weaken; [|apply Store_clean, S]. trivial. Qed.
Lemma StoreBlob_harmless b x : harmless (StoreBlob C b x). Proof. apply Store_harmless, blob_slots. Qed.
Lemma StoreTree_harmless b : harmless (StoreTree C b). Proof. apply Store_harmless. cbn. tauto. Qed.
Lemma BlobPath_harmless d x : harmless (BlobPath C d x).
Proof. unfold BlobPath, BlobPathNoSync. go; first [apply exists_harmless|apply StoreBlob_harmless]. Qed.
Lemma ReadBlob_clean d x : clean (fun r => forall b, r = Some b -> hash KBlob b = d) (ReadBlob C d x).
Proof.
  unfold ReadBlob. apply harmless_bind; [apply BlobPath_harmless|]. intros [].
  - eapply clean_weaken; [|apply read_file_clean]. cbn beta. intros o H b E. specialize (H b E). destruct x; cbn in H; now apply H.
  - cbn. discriminate.
Qed.
Lemma ReadBlob_harmless d x : harmless (ReadBlob C d x). Proof. eapply clean_weaken; [|apply ReadBlob_clean]. trivial. Qed.
Lemma TreePath_harmless d : harmless (TreePath C d). Proof. apply exists_harmless. Qed.
Lemma ReadTree_harmless d : harmless (ReadTree C d). Proof. unfold ReadTree. go. apply TreePath_harmless. Qed.
Lemma GetEntryPath_harmless m ls d : large ls -> harmless (GetEntryPath C m ls d).
Proof. intros L. unfold GetEntryPath. go. apply UplinkLargeBlob_harmless. Qed.
Lemma ReadEntry_harmless m ls d : large ls -> harmless (ReadEntry C m ls d).
Proof. intros L. unfold ReadEntry. go; first [now apply GetEntryPath_harmless|apply LocalReadEntry_harmless]. Qed.
Lemma WriteEntry_harmless m ls d p : large ls -> harmless (WriteEntry C m ls d p).
Proof. intros L. unfold WriteEntry. go; first [now apply GetEntryPath_harmless|now apply add_harmless, large_fits]. Qed.
Lemma cas_store_harmless m b : harmless (cas_store C m SFile b).
Proof. unfold cas_store. destruct m; [apply LocalStore_harmless|apply Store_harmless]; now left. Qed.
Lemma cas_path_harmless m s d : harmless (cas_path C m s d).
Proof. unfold cas_path. destruct m; [go|apply exists_harmless]. Qed.
Lemma store_chunks_harmless m cs : harmless (store_chunks C m cs).
Proof. induction cs as [|c r IH]; cbn [store_chunks]; [exact Logic.I|]. go. apply cas_store_harmless. Qed.
Lemma Split_harmless m ls d : large ls -> harmless (Split C m ls d).
Proof.
  intros L. unfold Split. go; first [now apply ReadEntry_harmless|apply store_chunks_harmless|now apply WriteEntry_harmless|unfold split_source; destruct ls; go; apply cas_path_harmless].
Qed.
Lemma CheckTreeInvariant_harmless d b : harmless (CheckTreeInvariant C d b).
Proof.
  unfold CheckTreeInvariant. go. unfold check_item.
  go; first [apply GetEntryPath_harmless; cbv; tauto|apply TreePath_harmless|apply BlobPath_harmless].
Qed.
Lemma Splice_harmless s d parts : (s = SFile \/ s = SExec \/ s = STree) -> harmless (Splice C s d parts).
Proof.
  intros S. unfold Splice. apply harmless_bind; [destruct s; first [apply TreePath_harmless|apply BlobPath_harmless]|]. intros []; [exact Logic.I|].
  apply harmless_bind; [apply splice_harmless; intros p; apply BlobPath_harmless|]. intros [b|]; [|exact Logic.I].
  destruct (String.eqb (hash (kind_of s) b) d); [|exact Logic.I].
  apply harmless_bind; [destruct s; try exact Logic.I; apply CheckTreeInvariant_harmless|]. intros []; [now apply Store_harmless|exact Logic.I].
Qed.
Lemma AddTree_harmless d b : harmless (AddTree C d b).
Proof. unfold AddTree. go; first [apply CheckTreeInvariant_harmless|apply StoreTree_harmless]. Qed.

(** *** The caches *)
Lemma copied_harmless s k a : (s = SAction \/ s = STarget) -> harmless (f <- look k s a ;; match f with None => ret false | Some x => add FirstWins 0 s a x end).
Proof.
  intros S. eapply clean_bind; [apply look_clean|]. intros [x|] H; [|exact Logic.I]. apply add_harmless. now apply H.
Qed.
Lemma LocalUplinkAction_harmless k a : harmless (LocalUplinkAction C k a).
Proof.
  unfold LocalUplinkAction. apply harmless_bind; [apply is_file_harmless|]. intros []; [exact Logic.I|].
  apply harmless_bind; [apply look_harmless|]. intros [[b|ps|key]|]; try exact Logic.I.
  apply harmless_bind; [apply LocalBlobPath_harmless|]. intros []; [|exact Logic.I].
  apply harmless_bind; [apply read_file_harmless|]. intros c. destruct (match c with Some b => cfg_parse_action C b | None => None end) as [refs|]; [|exact Logic.I].
  apply harmless_bind; [apply all_of_harmless; intros r; apply uplink_ref_harmless; intros i; apply LocalUplinkGitTree_harmless|]. intros []; [|exact Logic.I].
  apply harmless_bind; [apply LocalUplinkBlob_harmless|]. intros []; [|exact Logic.I]. apply copied_harmless. now left.
Qed.
Lemma LocalUplinkTarget_harmless n : forall k a, harmless (LocalUplinkTarget C n k a).
Proof.
  induction n as [|n IH]; intros k a; cbn [LocalUplinkTarget]; [exact Logic.I|].
  apply harmless_bind; [apply is_file_harmless|]. intros []; [exact Logic.I|].
  apply harmless_bind; [apply look_harmless|]. intros [[b|ps|key]|]; try exact Logic.I.
  apply harmless_bind; [apply LocalBlobPath_harmless|]. intros []; [|exact Logic.I].
  apply harmless_bind; [apply read_file_harmless|]. intros c. destruct (match c with Some b => cfg_parse_target C b | None => None end) as [[implied refs]|]; [|exact Logic.I].
  apply harmless_bind; [apply all_of_harmless; intros r; destruct (String.eqb r a); [exact Logic.I|apply IH]|]. intros []; [|exact Logic.I].
  apply harmless_bind; [apply all_of_harmless; intros r; apply uplink_ref_harmless; intros i; apply LocalUplinkGitTree_harmless|]. intros []; [|exact Logic.I].
  apply harmless_bind; [apply LocalUplinkBlob_harmless|]. intros []; [|exact Logic.I]. apply copied_harmless. now right.
Qed.
Lemma StoreTarget_harmless a b : PT a (Key (hash KBlob b)) -> harmless (StoreTarget C a b).
Proof.
  intros P. unfold StoreTarget. eapply clean_bind; [apply Store_clean; left; reflexivity|]. intros [key|] H; [|exact Logic.I].
  apply add_harmless. rewrite (H key eq_refl). exact P.
Qed.
Lemma StoreResult_harmless a b : PA a (Key (hash KBlob b)) -> harmless (StoreResult C a b).
Proof.
  intros P. unfold StoreResult. eapply clean_bind; [apply Store_clean; left; reflexivity|]. intros [key|] H; [|exact Logic.I].
  apply add_harmless. rewrite (H key eq_refl). exact P.
Qed.
Lemma ReadTarget_clean a :
  clean (fun r => forall x, r = Some x -> exists key b, PT a (Key key) /\ hash KBlob b = key /\ cfg_parse_target C b = Some x) (ReadTarget C a).
Proof.
  unfold ReadTarget. apply harmless_bind; [apply generations_harmless; intros k; apply LocalUplinkTarget_harmless|]. intros _.
  eapply clean_bind; [apply look_clean|]. intros [[b|ps|key]|] H; try (cbn; discriminate).
  eapply clean_bind; [apply ReadBlob_clean|]. intros [b|] HB; cbn; [|discriminate]. intros x E. exists key, b.
  split; [now apply (H (Key key))|]. split; [now apply HB|exact E].
Qed.
Lemma CachedResult_clean a :
  clean (fun r => forall x, r = Some x -> exists key b, PA a (Key key) /\ hash KBlob b = key /\ cfg_parse_action C b = Some x) (CachedResult C a).
Proof.
  unfold CachedResult. apply harmless_bind; [apply generations_harmless; intros k; apply LocalUplinkAction_harmless|]. intros _.
  eapply clean_bind; [apply look_clean|]. intros [[b|ps|key]|] H; try (cbn; discriminate).
  eapply clean_bind; [apply ReadBlob_clean|]. intros [b|] HB; cbn; [|discriminate]. intros x E. exists key, b.
  split; [now apply (H (Key key))|]. split; [now apply HB|exact E].
Qed.

(** *** Garbage collection *)
Lemma SplitLarge_harmless p : harmless (SplitLarge C p).
Proof.
  unfold SplitLarge. apply harmless_bind; [apply read_file_harmless|]. intros [b|]; [|exact Logic.I].
  apply harmless_bind; [apply Split_harmless; destruct (fst p); cbv; tauto|]. intros [parts|]; [|exact Logic.I].
  destruct (length parts <? 2); [exact Logic.I|apply remove_harmless].
Qed.
Lemma Compactify_harmless f e b : harmless (Compactify C f e b).
Proof.
  unfold Compactify. apply harmless_bind; [apply all_of_harmless; intros p; unfold RemoveInvalid; go|]. intros []; [|exact Logic.I].
  apply harmless_bind; [apply all_of_harmless; intros p; unfold RemoveSpliced, remove_if_file; go|]. intros []; [|exact Logic.I].
  apply all_of_harmless. intros p. apply SplitLarge_harmless.
Qed.
Lemma fine_nil σ k l : fine σ -> fine (mkStore (update_nth k (fun _ => []) (gens σ)) l).
Proof.
  intros F k' s i d L. rewrite gen_at_update in L. destruct (Nat.eqb k' k && Nat.ltb k (length (gens σ)))%bool; [discriminate|eapply F; eauto].
Qed.
Lemma move_harmless k : harmless (move_generation k).
Proof.
  intros ok σ F. split; [|exact Logic.I]. destruct ok; cbn [fst snd]; [|exact F].
  change (update_nth (S k) (fun _ => gen_at σ k) (gens σ)) with (gens (mkStore (update_nth (S k) (fun _ => gen_at σ k) (gens σ)) (log σ))).
  apply fine_nil. intros k' s i d L. rewrite gen_at_update in L.
  destruct (Nat.eqb k' (S k) && Nat.ltb (S k) (length (gens σ)))%bool; eapply F; eauto.
Qed.
Lemma drop_harmless k : harmless (drop_generation k).
Proof. cbn. intros ok σ F. split; [|trivial]. destruct ok; cbn; [|exact F]. now apply fine_nil. Qed.
Lemma collect_harmless nr al f e b : harmless (TriggerGarbageCollection C nr al f e b).
Proof.
  unfold TriggerGarbageCollection, drop_all, rotate. destruct (nr && al)%bool; [exact Logic.I|]. destruct al.
  - apply harmless_bind; [apply num_harmless|]. intros n. apply all_of_harmless, drop_harmless.
  - apply harmless_bind; [apply Compactify_harmless|]. intros []; [|exact Logic.I]. destruct nr; [exact Logic.I|].
    apply harmless_bind; [apply num_harmless|]. intros n. apply all_of_harmless, move_harmless.
Qed.
Lemma run_clean {A} (Q : A -> Prop) (m : M A) : forall oks σ, clean Q m -> fine σ ->
  fine (snd (run m oks σ)) /\ (forall a, fst (run m oks σ) = Some a -> Q a).
Proof.
  induction m as [a|X act k IH]; intros oks σ H F; cbn [run].
  - split; [exact F|]. cbn. intros a' E. now injection E as <-.
  - destruct oks as [|ok r]; [split; [exact F|discriminate]|]. destruct (H ok σ F) as [H1 H2]. destruct (act ok σ) as [x σ']. cbn in *. now apply IH.
Qed.

(** *** Systems *)
Definition says (o : op) (r : answer) : Prop :=
  match o, r with
  | OReadTarget a, ATarget (Some x) => exists key b, PT a (Key key) /\ hash KBlob b = key /\ cfg_parse_target C b = Some x
  | OCachedResult a, ARefs (Some x) => exists key b, PA a (Key key) /\ hash KBlob b = key /\ cfg_parse_action C b = Some x
  | _, _ => True
  end.
Definition allowed (o : op) : Prop :=
  match o with
  | OStoreTarget a b => PT a (Key (hash KBlob b))
  | OStoreResult a b => PA a (Key (hash KBlob b))
  | _ => True
  end.
Lemma program_clean o : allowed o -> clean (says o) (program C o).
Proof.
  intros P. destruct o; cbn [program says allowed] in *.
  1-10, 12: apply harmless_bind; [|intros ?; exact Logic.I].
  - apply StoreBlob_harmless.
  - apply StoreTree_harmless.
  - apply AddTree_harmless.
  - apply ReadBlob_harmless.
  - apply ReadTree_harmless.
  - apply Split_harmless. now left.
  - apply Split_harmless. now right.
  - apply Splice_harmless, blob_slots.
  - apply Splice_harmless. tauto.
  - now apply StoreResult_harmless.
  - now apply StoreTarget_harmless.
  - eapply clean_bind; [apply CachedResult_clean|]. intros [x|] H; cbn; [|exact Logic.I]. now apply H.
  - eapply clean_bind; [apply ReadTarget_clean|]. intros [x|] H; cbn; [|exact Logic.I]. now apply H.
Qed.
Definition good (Σ : system) : Prop := fine (disk Σ) /\ forall o m, In (o, m) (threads Σ) -> clean (says o) m.
Lemma advance_good l : forall t ok σ, fine σ -> (forall o m, In (o, m) l -> clean (says o) m) ->
  fine (snd (advance l t ok σ)) /\ (forall o m, In (o, m) (fst (advance l t ok σ)) -> clean (says o) m).
Proof.
  induction l as [|[o m] l IH]; intros t ok σ F H; [now destruct t|]. destruct t as [|t]; cbn [advance].
  - destruct m as [a|X act k]; [split; [exact F|exact H]|].
    destruct (H o (Act X act k) (or_introl eq_refl) ok σ F) as [H1 H2]. destruct (act ok σ) as [x σ']. cbn in *.
    split; [exact H1|]. intros o' m' [E|Y]; [now injection E as <- <-|]. apply H. now right.
  - destruct (IH t ok σ F (fun o' m' Y => H o' m' (or_intror Y))) as [H1 H2]. destruct m; destruct (advance l t ok σ) as [l' σ']; cbn in *;
      (split; [exact H1|]); intros o' m' [E|Y]; try (now apply H2); apply H; now left.
Qed.
Lemma perform_good Σ a : good Σ -> (forall o, a = Start o -> allowed o) -> good (perform C Σ a).
Proof.
  intros [F T] P. destruct a as [o|t ok|nr al f e b oks]; cbn [perform].
  - split; [exact F|]. cbn. intros o' m' Y. apply in_app_or in Y as [Y|[E|[]]]; [now apply T|]. injection E as <- <-. now apply program_clean, P.
  - destruct (advance_good (threads Σ) t ok (disk Σ) F T) as [H1 H2]. destruct (advance (threads Σ) t ok (disk Σ)) as [l σ]. now split.
  - split; [|intros ? ? []]. cbn [disk]. exact (proj1 (run_clean _ _ oks (disk Σ) (collect_harmless nr al f e b) F)).
Qed.
Lemma performs_good acts : forall Σ, good Σ -> (forall o, In (Start o) acts -> allowed o) -> good (perform_all C acts Σ).
Proof.
  induction acts as [|a acts IH]; intros Σ G P; [exact G|]. cbn. apply IH; [|intros o Y; apply P; now right].
  apply perform_good; [exact G|]. intros o ->. apply P. now left.
Qed.
Lemma fresh_good n : good (fresh n).
Proof.
  split; [|intros ? ? []]. intros k s i d L. exfalso. unfold gen_at in L. cbn in L. revert k L. induction n as [|n IH]; intros k L; cbn in L.
  - destruct k; discriminate.
  - destruct k; [discriminate|]. now apply (IH k).
Qed.
Lemma reached_good n acts : (forall o, In (Start o) acts -> allowed o) -> good (reached C n acts).
Proof. intros P. apply performs_good; [apply fresh_good|exact P]. Qed.
Lemma reached_says n acts th o r : (forall o, In (Start o) acts -> allowed o) -> returned (reached C n acts) th o r -> says o r.
Proof. intros P R. destruct (reached_good n acts P) as [_ T]. apply nth_error_In in R. exact (T _ _ R). Qed.
End Clean.

(** What was stored in a history. *)
Definition target_stored (C : config) (acts : list action) (a : id) (d : data) : Prop :=
  exists b, In (Start (OStoreTarget a b)) acts /\ d = Key (cfg_hash C KBlob b).
Definition result_stored (C : config) (acts : list action) (a : id) (d : data) : Prop :=
  exists b, In (Start (OStoreResult a b)) acts /\ d = Key (cfg_hash C KBlob b).
Lemma all_allowed C acts o : In (Start o) acts -> allowed C (target_stored C acts) (result_stored C acts) o.
Proof. intros H. destruct o; cbn; trivial; eexists; eauto. Qed.
