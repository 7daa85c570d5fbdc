(** Garbage collection: no other computation runs at the same time. *)
From Coq Require Import String List Bool Arith Lia.
From Verif Require Import GitTree.Model Storage.Model Storage.Spec Storage.Addr Storage.Inv Storage.Hoare
  Storage.Uplink.
Import ListNotations.

(** Nothing is lost, except that in the youngest generation a file may be
    replaced by its large entry. *)
Definition weak (σ σ' : store) : Prop :=
  length (gens σ') = length (gens σ) /\ suffix (log σ) (log σ') /\
  (forall k s i d, lookup (gen_at σ k) s i = Some d ->
    (exists d', lookup (gen_at σ' k) s i = Some d' /\ (object_slot s = true \/ k <> 0 -> d' = d)) \/
    (k = 0 /\ object_slot s = true /\ present (gen_at σ' 0) (large_of s) i)) /\
  (forall k s i, k <> 0 -> present (gen_at σ' k) s i -> had (gen_at σ k) s i).

Lemma weak_present : forall σ σ' k s i, weak σ σ' -> object_slot s = false \/ k <> 0 ->
  present (gen_at σ k) s i -> present (gen_at σ' k) s i.
Proof.
  intros σ σ' k s i (_ & _ & W & _) O H. apply present_some in H. destruct H as [d L].
  destruct (W k s i d L) as [(d' & L' & _)|(-> & O' & _)].
  - apply present_some. eauto.
  - destruct O; congruence.
Qed.

Lemma large_not_object : forall s, object_slot (large_of s) = false.
Proof. now destruct s. Qed.

Lemma weak_refl : forall σ, weak σ σ.
Proof.
  intros σ. split; [reflexivity|]. split; [apply suffix_refl|]. split.
  - intros k s i d L. left. eauto.
  - intros k s i _ H. now left.
Qed.
Lemma weak_trans : forall a b c, weak a b -> weak b c -> weak a c.
Proof.
  intros a b c W1 W2.
  split; [destruct W1, W2; congruence|].
  split; [destruct W1 as (_ & S1 & _), W2 as (_ & S2 & _); eapply suffix_trans; eauto|].
  split.
  2:{ destruct W1 as (_ & _ & _ & A4), W2 as (_ & _ & _ & B4). intros k s i Hk H.
      destruct (B4 k s i Hk H) as [H'|(x & y & -> & H')]; [auto|].
      right. destruct (A4 k _ i Hk H') as [H2|(x' & y' & _ & H2)]; eauto. }
  intros k s i d L. destruct W1 as (_ & _ & W1' & _). destruct (W1' k s i d L) as [(d' & L' & E)|(-> & O & H)].
  - destruct W2 as (_ & _ & W2' & _). destruct (W2' k s i d' L') as [(d'' & L'' & E')|H].
    + left. exists d''. split; [exact L''|]. intros X. rewrite E', E; auto.
    + now right.
  - right. split; [reflexivity|]. split; [exact O|]. eapply weak_present; [exact W2| |exact H].
    left. apply large_not_object.
Qed.
Lemma ext_weak : forall a b, ext a b -> weak a b.
Proof.
  intros a b (A1 & A2 & A3 & A4). split; [exact A1|]. split; [exact A2|]. split; [|exact A4]. intros k s i d L.
  left. destruct (A3 k s i d L) as (d' & L' & E). exists d'. split; [exact L'|]. intros [X|X]; [auto|].
  apply E. right. now apply negb_true_iff, Nat.eqb_neq.
Qed.

Lemma weak_avail_blob : forall σ σ' k i, weak σ σ' -> avail_blob (gen_at σ k) i -> avail_blob (gen_at σ' k) i.
Proof.
  intros σ σ' k i W [H|[H|H]].
  - apply present_some in H. destruct H as [d L]. destruct (proj1 (proj2 (proj2 W)) k _ i d L) as [(d' & L' & _)|(-> & _ & H)].
    + left. apply present_some. eauto.
    + right; right. exact H.
  - apply present_some in H. destruct H as [d L]. destruct (proj1 (proj2 (proj2 W)) k _ i d L) as [(d' & L' & _)|(-> & _ & H)].
    + right; left. apply present_some. eauto.
    + right; right. exact H.
  - right; right. eapply weak_present; [exact W|now left|exact H].
Qed.
Lemma weak_avail_tree : forall σ σ' k i, weak σ σ' -> avail_tree (gen_at σ k) i -> avail_tree (gen_at σ' k) i.
Proof.
  intros σ σ' k i W [H|H].
  - apply present_some in H. destruct H as [d L]. destruct (proj1 (proj2 (proj2 W)) k _ i d L) as [(d' & L' & _)|(-> & _ & H)].
    + left. apply present_some. eauto.
    + right. exact H.
  - right. eapply weak_present; [exact W|now left|exact H].
Qed.
Lemma weak_avail : forall σ σ' k t i, weak σ σ' -> avail (gen_at σ k) t i -> avail (gen_at σ' k) t i.
Proof.
  intros σ σ' k t i W. unfold avail. destruct (IsTreeObject t).
  - eapply weak_avail_tree; eauto.
  - eapply weak_avail_blob; eauto.
Qed.

Definition exclusive : logic := mkLogic weak weak_refl weak_trans (fun a b H => proj1 (proj2 H))
  eq (fun a b H => eq_ind a (weak a) (weak_refl a) b H) (fun a b c H1 H2 => eq_trans H1 H2).

Section Gc.

Variable C : config.
Local Notation hash := (cfg_hash C).
Local Notation chunker := (cfg_chunker C).
Local Notation T := (triple C shared).
Local Notation ST := (stable C shared).
Local Notation TX := (triple C exclusive).
Local Notation SX := (stable C exclusive).

Lemma lift_safe {A} (Q : A -> store -> Prop) (m : M A) : forall σ, safe C shared Q m σ -> safe C exclusive Q m σ.
Proof.
  induction m as [a|X act k IH]; intros σ S0; [exact S0|]. cbn [safe] in *.
  intros σ1 R1 I1 L1 L2. cbn [l_E exclusive] in R1. subst σ1.
  destruct (S0 σ (ext_refl σ) I1 L1 L2) as (A1 & A2 & A3).
  split; [now apply ext_weak|]. auto.
Qed.
Lemma lift {A} (P : store -> Prop) (m : M A) (Q : A -> store -> Prop) : T P m Q -> TX P m Q.
Proof. intros H σ L0 I0 P0. now apply lift_safe, H. Qed.

Variable N : nat.
Hypothesis Npos : 0 < N.
Hypothesis chunker_concat : forall b, concat_bytes (chunker b) = b.
Hypothesis rechunk : forall b c, In c (chunker b) -> chunker c = [c].
Hypothesis names_valid : forall k b, cfg_valid_name C (hash k b) = true.
Local Notation sz := (sz N).

(** ** Splitting in the youngest generation only *)
Ltac stab :=
  repeat first
    [ assumption | apply st_pure | apply st_and | apply st_or | apply st_present | apply st_avail_blob
    | apply st_avail_tree | apply st_avail | apply st_entries | apply st_refs
    | apply st_lookup; reflexivity | apply st_lookup_old; assumption | apply st_chunks
    | apply st_in | apply st_blob_ok | apply st_tree_in | apply st_tree_ok
    | apply st_full_rank | apply st_ranked | apply st_len | apply st_sz
    | apply st_imp | apply st_ex; intro | apply st_all; intro
    | match goal with |- stable _ _ (fun _ => match ?x with _ => _ end) => destruct x end ].
Ltac pre X := apply (fun H => triple_pre C shared _ X _ _ H).

Lemma l_store (P : store -> Prop) b : ST P -> (forall σ, P σ -> sz σ) ->
  T P (LocalStore C 0 SFile b) (fun r σ => r = Some (hash KBlob b) /\
    lookup (gen_at σ 0) SFile (hash KBlob b) = Some (Bytes b)).
Proof.
  intros SP SZ. unfold LocalStore. cbn [kind_of].
  eapply (triple_seq C shared); [stab|apply t_note; stab|]. intros u. cbn beta. set (i := hash KBlob b).
  eapply (triple_seq C shared); [stab|apply (t_is_file C False); [stab|tauto]|].
  intros [|]; cbn beta iota.
  - apply t_ret. intros σ L0 I0 ((_ & Hin) & H & _). split; [reflexivity|].
    apply (exact_blob C σ 0 false); auto.
  - eapply (triple_seq C shared); [stab|apply (t_add C N Npos); [stab|lia|intuition|auto| |intros; congruence]|].
    + intros σ _ _ ((_ & Hin) & _) _. cbn. exists b. split; auto. split; auto.
    + intros r. apply t_ret. intros σ L0 I0 (((_ & Hin) & _) & -> & H). split; [reflexivity|].
      apply (exact_blob C σ 0 false); auto.
Qed.

Lemma l_store_chunks (P : store -> Prop) cs : ST P -> (forall σ, P σ -> sz σ) ->
  T P (store_chunks C (Some 0) cs) (fun r σ => r = Some (map (hash KBlob) cs) /\
    forall c, In c cs -> lookup (gen_at σ 0) SFile (hash KBlob c) = Some (Bytes c)).
Proof.
  intros SP SZ. induction cs as [|c cs IH]; cbn [store_chunks map].
  - apply t_ret. intros σ _ _ _. split; [reflexivity|intros c []].
  - cbn [cas_store].
    eapply (triple_seq C shared); [stab|apply l_store; auto|].
    intros r. cbn beta.
    pre (fun σ => (P σ /\ lookup (gen_at σ 0) SFile (hash KBlob c) = Some (Bytes c)) /\ r = Some (hash KBlob c)); [|intros; tauto].
    apply triple_pure. intros ->.
    eapply (triple_seq C shared); [stab|eapply triple_pre; [exact IH|tauto]|].
    intros r. apply t_ret. intros σ _ _ ((_ & H) & -> & H'). split; [reflexivity|].
    intros c' [<-|Hc]; auto.
Qed.

Lemma l_source (P : store -> Prop) ls d : ST P -> large_slot ls = true ->
  T P (split_source C (Some 0) ls d) (fun r σ =>
    match r with
    | Some b => exists s, In s (source_slots ls) /\ lookup (gen_at σ 0) s d = Some (Bytes b)
    | None => True
    end).
Proof.
  intros SP LS. unfold split_source. cbn [place cas_path].
  assert (RD : forall s (P' : store -> Prop), ST P' -> object_slot s = true -> T P' (read_file 0 s d) (fun r σ =>
     match r with Some b => lookup (gen_at σ 0) s d = Some (Bytes b) | None => True end)).
  { intros s P' SP' O. eapply t_post; [apply (t_read C False); [exact SP'|exact O|tauto]|].
    intros [b|] σ _ _ [H _]; [apply H|exact Logic.I]. }
  destruct ls; try discriminate LS; cbn [source_slots].
  - eapply (triple_seq C shared); [stab|apply (t_is_file C False); [stab|tauto]|].
    intros [|]; cbn beta iota.
    + eapply t_post; [apply RD; [stab|reflexivity]|]. intros [b|] σ _ _ H; [|exact Logic.I].
      exists SFile. cbn. auto.
    + pre P; [|tauto].
      eapply (triple_seq C shared); [stab|apply (t_is_file C False); [stab|tauto]|].
      intros [|]; cbn beta iota; [|apply t_ret; auto].
      eapply t_post; [apply RD; [stab|reflexivity]|]. intros [b|] σ _ _ H; [|exact Logic.I].
      exists SExec. cbn. auto.
  - eapply (triple_seq C shared); [stab|apply (t_is_file C False); [stab|tauto]|].
    intros [|]; cbn beta iota; [|apply t_ret; auto].
    eapply t_post; [apply RD; [stab|reflexivity]|]. intros [b|] σ _ _ H; [|exact Logic.I].
    exists STree. cbn. auto.
Qed.

Lemma l_Split (P : store -> Prop) ls d : ST P -> large_slot ls = true -> (forall σ, P σ -> sz σ) ->
  T P (Split C (Some 0) ls d) (fun r σ =>
    match r with
    | Some ps => 2 <= length ps -> present (gen_at σ 0) ls d
    | None => True
    end).
Proof.
  intros SP LS SZ. unfold Split, ReadEntry, GetEntryPath. cbn [place].
  assert (GE : forall P' : store -> Prop, ST P' -> T P' (e <- is_file 0 ls d ;; (if (e : bool) then ret true else ret false))
     (fun r σ => r = true -> present (gen_at σ 0) ls d)).
  { intros P' SP'. eapply (triple_seq C shared); [stab|apply (t_is_file C False); [stab|tauto]|].
    intros [|]; cbn beta iota; apply t_ret; [|discriminate]. intros σ _ _ (_ & H & _). exact H. }
  eapply (triple_seq C shared) with (Q1 := fun e σ => match e with
     | Some ps => present (gen_at σ 0) ls d | None => True end); [stab| |].
  { eapply (triple_seq C shared); [stab|apply GE; stab|].
    intros [|]; cbn beta iota; [|apply t_ret; auto].
    eapply t_post; [apply (t_entry C False); [stab|exact LS|tauto]|].
    intros [ps|] σ _ _ [H _]; [|auto]. destruct H as (b & _ & _ & _ & (_ & _ & H & _)). exact H. }
  intros [ps|]; cbn beta.
  { apply t_ret. intros σ _ _ (_ & H) _. exact H. }
  pre P; [|tauto].
  eapply (triple_seq C shared); [stab|apply l_source; auto|].
  intros [b|]; cbn beta; [|apply t_ret; auto].
  pre (fun σ => exists s, (P σ /\ lookup (gen_at σ 0) s d = Some (Bytes b)) /\ In s (source_slots ls)).
  2:{ intros σ _ (P0 & s & H1 & H2). exists s. auto. }
  apply triple_ex. intros s. apply triple_pure. intros HS.
  assert (SL : ST (fun σ => lookup (gen_at σ 0) s d = Some (Bytes b)))
    by (apply st_lookup; eapply source_object; eauto).
  eapply (triple_seq C shared); [stab|apply t_attempt; stab|].
  intros r. cbn beta. apply triple_pure. intros ->. cbn iota.
  eapply (triple_seq C shared); [stab|apply l_store_chunks; [stab|intuition]|].
  intros r. cbn beta.
  pre (fun σ => ((P σ /\ lookup (gen_at σ 0) s d = Some (Bytes b)) /\ chunks_at C (gen_at σ 0) b) /\
    r = Some (map (hash KBlob) (chunker b))); [|intros; tauto].
  apply triple_pure. intros ->.
  eapply (triple_seq C shared); [stab|apply t_attempt; stab|].
  intros r. cbn beta. apply triple_pure. intros ->. cbn iota.
  unfold WriteEntry, GetEntryPath. cbn [place].
  eapply (triple_bind C shared) with (Q1 := fun (_ : bool) σ => 2 <= length (chunker b) -> present (gen_at σ 0) ls d).
  - eapply (triple_seq C shared); [stab|apply GE; stab|].
    intros [|]; cbn beta iota.
    { apply t_ret. intros σ _ _ (_ & H) _. auto. }
    rewrite map_length. destruct (length (chunker b) <? 2) eqn:E2.
    { apply Nat.ltb_lt in E2. apply t_ret. intros. lia. }
    apply Nat.ltb_ge in E2.
    eapply t_post; [apply (t_add C N Npos); [stab|lia|intuition|now left| |intros; congruence]|].
    + intros σ _ I0 (((P0 & L) & HC) & _) _.
      destruct (source_entry C σ ls d b s I0 LS HS L) as (_ & _ & H). auto.
    + intros r σ _ _ [_ H] _. exact H.
  - intros r. apply t_ret. intros σ _ _ H. now rewrite map_length.
Qed.

(** ** Removing files *)
Lemma sx_pure : forall F : Prop, SX (fun _ => F).
Proof. intros F σ σ' _ _ _ _ H. exact H. Qed.
Lemma sx_and : forall P Q : store -> Prop, SX P -> SX Q -> SX (fun σ => P σ /\ Q σ).
Proof. intros P Q HP HQ σ σ' X L I0 I1 [A B]. split; [eapply HP|eapply HQ]; eauto. Qed.
Lemma sx_sz : SX sz.
Proof. intros σ σ' (E & _) _ _ _ H. unfold Uplink.sz in *. congruence. Qed.
Lemma sx_large : forall s i, object_slot s = false -> SX (fun σ => present (gen_at σ 0) s i).
Proof. intros s i O σ σ' W _ _ _ H. eapply weak_present; eauto. Qed.

Lemma delete_step : forall σ s i, limits C (log σ) -> Inv C σ -> 0 < length (gens σ) -> object_slot s = true ->
  (present (gen_at σ 0) s i -> present (gen_at σ 0) (large_of s) i) ->
  let σ' := mkStore (update_nth 0 (fun g => delete g s i) (gens σ)) (log σ) in
  weak σ σ' /\ Inv C σ'.
Proof.
  intros σ s i [NC LF] [I1 I2] Hl O HP σ'.
  set (g := gen_at σ 0) in *. set (g' := delete g s i).
  assert (GA : gen_at σ' 0 = g').
  { unfold σ'. rewrite gen_at_update, Nat.eqb_refl. apply Nat.ltb_lt in Hl. now rewrite Hl. }
  assert (GO : forall k, k <> 0 -> gen_at σ' k = gen_at σ k).
  { intros k Hn. unfold σ'. rewrite gen_at_update. destruct (Nat.eqb_spec 0 k); [congruence|reflexivity]. }
  assert (LD : forall s' i', lookup g' s' i' = if at_path s' i' (s, i) then None else lookup g s' i')
    by (intros; apply lookup_delete).
  assert (KEEP : forall s' i', object_slot s' = false -> lookup g' s' i' = lookup g s' i').
  { intros s' i' O'. rewrite LD. destruct (at_path s' i' (s, i)) eqn:E; [|reflexivity].
    apply at_path_eq in E. destruct E as [-> ->]. congruence. }
  assert (LOST : forall s' i' d, lookup g s' i' = Some d -> lookup g' s' i' = Some d \/
     (s' = s /\ i' = i /\ present g' (large_of s) i)).
  { intros s' i' d L. rewrite LD. destruct (at_path s' i' (s, i)) eqn:E; [|now left].
    apply at_path_eq in E. destruct E as [E1 E2]. subst s' i'. right. split; [reflexivity|]. split; [reflexivity|].
    unfold present. rewrite KEEP by apply large_not_object. apply HP. unfold present. congruence. }
  assert (AB : forall j, avail_blob g j -> avail_blob g' j).
  { intros j [H|[H|H]]; apply present_some in H; destruct H as [d L]; destruct (LOST _ _ _ L) as [L'|(E1 & E2 & H)].
    - left. apply present_some. eauto.
    - subst. right; right. exact H.
    - right; left. apply present_some. eauto.
    - subst. right; right. exact H.
    - right; right. apply present_some. eauto.
    - subst. discriminate O. }
  assert (AT : forall j, avail_tree g j -> avail_tree g' j).
  { intros j [H|H]; apply present_some in H; destruct H as [d L]; destruct (LOST _ _ _ L) as [L'|(E1 & E2 & H)].
    - left. apply present_some. eauto.
    - subst. right. exact H.
    - right. apply present_some. eauto.
    - subst. discriminate O. }
  assert (AV : forall t j, avail g t j -> avail g' t j)
    by (intros t j; unfold avail; destruct (IsTreeObject t); auto).
  assert (CH : forall b, chunks_at C g b -> chunks_at C g' b).
  { intros b HC c Hc. destruct (LOST _ _ _ (HC c Hc)) as [L'|(E1 & E2 & H)]; [exact L'|]. exfalso.
    subst s. cbn [large_of] in H. unfold present in H. rewrite KEEP in H by reflexivity.
    destruct (lookup g SLargeFile i) as [d|] eqn:EL; [|congruence].
    destruct (I2 0 _ _ _ EL) as (b' & (B1 & B2) & (_ & B3 & _)).
    destruct (I2 0 _ _ _ (HC c Hc)) as (c' & Ec & (C1 & C2)). injection Ec as <-.
    destruct (NC _ _ _ _ B2 C2) as [_ ->]; [congruence|].
    rewrite (rechunk _ _ Hc) in B3. cbn in B3. lia. }
  assert (TO : forall j b, tree_ok C (log σ) g j b -> tree_ok C (log σ) g' j b).
  { intros j b (T0 & es & P0 & EA). split; [exact T0|]. exists es. split; [exact P0|].
    intros x t0 ts t H1 H2. apply AV. exact (EA x t0 ts t H1 H2). }
  assert (OK : gen_ok C (log σ) g').
  { intros s' i' d L. assert (L0 : lookup g s' i' = Some d).
    { rewrite LD in L. destruct (at_path s' i' (s, i)); [discriminate L|exact L]. }
    pose proof (I2 0 _ _ _ L0) as EO. fold g in EO. destruct s'; cbn [entry_ok] in *; auto.
    - destruct EO as (b & E & H). exists b. auto.
    - destruct EO as (b & H & E1 & E2 & E3). exists b. split; [exact H|]. split; [exact E1|]. auto.
    - destruct EO as (b & H & E1 & E2 & E3). exists b. split; [auto|]. split; [exact E1|]. auto.
    - destruct EO as (key & b & refs & E & B & PA & A & RA). exists key, b, refs.
      split; [exact E|]. split; [exact B|]. split; [exact PA|]. split; [auto|].
      intros t j H. apply AV. auto.
    - destruct EO as (key & b & imp & refs & E & B & PA & A & RA & IM). exists key, b, imp, refs.
      split; [exact E|]. split; [exact B|]. split; [exact PA|]. split; [auto|].
      split; [intros t j H; apply AV; auto|].
      intros j Hj. destruct (IM j Hj) as [H|H]; [now left|]. right. unfold present. now rewrite KEEP. }
  split.
  - split; [apply update_nth_length|]. split; [apply suffix_refl|]. split.
    2:{ intros k s' i' Hk H. rewrite GO in H by exact Hk. now left. }
    intros k s' i' d L.
    destruct (Nat.eq_dec k 0) as [->|Hn].
    + rewrite GA. destruct (LOST _ _ _ L) as [L'|(-> & -> & H)]; [left; eauto|right; auto].
    + left. rewrite GO by exact Hn. eauto.
  - split; [cbn [σ' gens]; now rewrite update_nth_length|]. intros k. cbn [log σ'].
    destruct (Nat.eq_dec k 0) as [->|Hn]; [now rewrite GA|]. rewrite GO by exact Hn. apply I2.
Qed.

Lemma x_remove (P : store -> Prop) s i : SX P -> object_slot s = true ->
  (forall σ, limits C (log σ) -> Inv C σ -> P σ -> present (gen_at σ 0) s i -> present (gen_at σ 0) (large_of s) i) ->
  TX P (remove 0 s i) (fun _ _ => True).
Proof.
  intros SP O H. apply triple_access; [exact SP|]. intros σ _ L0 I0 P0. cbn.
  destruct (delete_step σ s i L0 I0 (proj1 I0) O (H σ L0 I0 P0)) as [A1 A2]. auto.
Qed.

Lemma x_all_of {A} (l : list A) f (P : store -> Prop) : SX P ->
  (forall x, In x l -> TX P (f x) (fun _ _ => True)) -> TX P (all_of l f) (fun _ _ => True).
Proof.
  intros SP H. induction l as [|x l IH]; cbn [all_of]; [apply triple_ret; auto|].
  eapply (triple_seq C exclusive); [exact SP|apply H; now left|].
  intros [|]; cbn beta; [|apply triple_ret; auto].
  eapply triple_pre; [apply IH|intuition]. intros y Hy. apply H. now right.
Qed.

Lemma x_RemoveInvalid p : object_slot (fst p) = true -> TX sz (RemoveInvalid C p) (fun _ _ => True).
Proof.
  intros O. unfold RemoveInvalid. destruct (cfg_valid_name C (snd p)) eqn:V; [apply triple_ret; auto|].
  apply x_remove; [apply sx_sz|exact O|]. intros σ L0 I0 _ H. exfalso.
  apply present_some in H. destruct H as [d L]. pose proof (proj2 I0 0 _ _ _ L) as EO.
  destruct (fst p); try discriminate O; destruct EO as (b & _ & EO).
  - destruct EO as [E _]. now rewrite <- E, names_valid in V.
  - destruct EO as [E _]. now rewrite <- E, names_valid in V.
  - destruct EO as [(E & _) _]. now rewrite <- E, names_valid in V.
Qed.

Lemma x_is_file (P : store -> Prop) s i : SX P -> TX P (is_file 0 s i) (fun b σ => b = true -> present (gen_at σ 0) s i).
Proof.
  intros SP. eapply triple_conseq; [apply (triple_is_file C exclusive P 0 s i SP)|auto|].
  intros b σ _ _ [_ H] E. now apply H.
Qed.

Lemma x_remove_if (P : store -> Prop) s i : SX P -> object_slot s = true ->
  (forall σ, P σ -> present (gen_at σ 0) (large_of s) i) ->
  TX P (remove_if_file s i) (fun _ _ => True).
Proof.
  intros SP O H. unfold remove_if_file.
  eapply (triple_seq C exclusive); [exact SP|apply x_is_file; exact SP|].
  intros [|]; cbn beta; [|apply triple_ret; auto].
  eapply triple_pre; [apply (x_remove P); auto|]; intuition.
Qed.

Lemma x_RemoveSpliced p : large_slot (fst p) = true -> TX sz (RemoveSpliced p) (fun _ _ => True).
Proof.
  intros LS. destruct p as [s i]. cbn [fst] in LS. unfold RemoveSpliced. cbn [fst snd].
  assert (O : object_slot s = false) by now destruct s.
  eapply (triple_seq C exclusive); [apply sx_sz|apply x_is_file, sx_sz|].
  intros [|]; cbn beta iota; [|apply triple_ret; auto].
  eapply triple_pre with (P' := fun σ => present (gen_at σ 0) s i); [|intuition].
  pose proof (sx_large s i O) as SP.
  destruct s; try discriminate LS.
  - apply x_all_of; [exact SP|]. intros s' [<-|[<-|[]]]; apply x_remove_if; auto.
  - apply x_remove_if; auto.
Qed.

Lemma x_SplitLarge p : object_slot (fst p) = true -> TX sz (SplitLarge C p) (fun _ _ => True).
Proof.
  intros O. destruct p as [s i]. cbn [fst] in O. unfold SplitLarge. cbn [fst snd].
  assert (LS : large_slot (large_of s) = true) by now destruct s.
  eapply (triple_bind C exclusive) with (Q1 := fun c σ => sz σ /\
    (forall b, c = Some b -> hash (kind_of s) b = i)).
  { apply lift. eapply t_post; [apply t_keep; [|apply (t_read C False); [| |]]|].
    - apply st_sz.
    - apply st_sz.
    - exact O.
    - tauto.
    - cbn beta. intros [b|] σ _ _ (S0 & H & _); (split; [exact S0|]); [|discriminate].
      intros b' E. injection E as <-. apply H. }
  intros [b|]; cbn beta iota; [|apply triple_ret; auto].
  apply triple_pure. intros Hd. specialize (Hd b eq_refl). rewrite Hd.
  change (match s with STree => SLargeTree | _ => SLargeFile end) with (large_of s).
  eapply (triple_bind C exclusive).
  { apply lift. apply (l_Split sz); [apply st_sz|exact LS|auto]. }
  intros [ps|]; cbn beta iota; [|apply triple_ret; auto].
  destruct (length ps <? 2) eqn:E; [apply triple_ret; auto|]. apply Nat.ltb_ge in E.
  eapply triple_pre with (P' := fun σ => present (gen_at σ 0) (large_of s) i).
  2:{ intros σ _ H. auto. }
  apply x_remove; [apply sx_large, large_not_object|exact O|auto].
Qed.

Lemma x_Compactify f e b : TX sz (Compactify C f e b) (fun _ _ => True).
Proof.
  unfold Compactify.
  eapply (triple_seq C exclusive); [apply sx_sz|apply x_all_of; [apply sx_sz|]|].
  { intros p Hp. apply x_RemoveInvalid. apply filter_In in Hp. apply Hp. }
  intros [|]; cbn beta iota; [|apply triple_ret; auto].
  eapply triple_pre with (P' := sz); [|tauto].
  eapply (triple_seq C exclusive); [apply sx_sz|apply x_all_of; [apply sx_sz|]|].
  { intros p Hp. apply x_RemoveSpliced. apply filter_In in Hp. apply Hp. }
  intros [|]; cbn beta iota; [|apply triple_ret; auto].
  eapply triple_pre with (P' := sz); [|tauto].
  apply x_all_of; [apply sx_sz|].
  intros p Hp. apply x_SplitLarge. apply filter_In in Hp. apply Hp.
Qed.

End Gc.
