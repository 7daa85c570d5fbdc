(** Specifications of the operations that may run concurrently. *)
From Coq Require Import String List Bool Arith Lia.
From Verif Require Import GitTree.Model Storage.Model Storage.Spec Storage.Addr Storage.Inv Storage.Hoare.
Import ListNotations.

Section Shared.

Variable C : config.
Local Notation hash := (cfg_hash C).
Local Notation chunker := (cfg_chunker C).
Local Notation parse_tree := (cfg_parse_tree C).
Local Notation parse_action := (cfg_parse_action C).
Local Notation parse_target := (cfg_parse_target C).
Local Notation fuel := (cfg_fuel C).

(** Nothing gets lost. *)
Definition shared : logic := mkLogic ext ext_refl ext_trans (fun a b H => proj1 (proj2 H))
  ext (fun a b H => H) ext_trans.

Local Notation T := (triple C shared).
Local Notation ST := (stable C shared).

(** ** Stable assertions *)
Lemma st_pure : forall F : Prop, ST (fun _ => F).
Proof. intros F σ σ' _ _ _ _ H. exact H. Qed.
Lemma st_and : forall P Q, ST P -> ST Q -> ST (fun σ => P σ /\ Q σ).
Proof. intros P Q HP HQ σ σ' X L I0 I1 [A B]. split; [eapply HP|eapply HQ]; eauto. Qed.
Lemma st_or : forall P Q, ST P -> ST Q -> ST (fun σ => P σ \/ Q σ).
Proof. intros P Q HP HQ σ σ' X L I0 I1 [A|B]; [left; eapply HP|right; eapply HQ]; eauto. Qed.
Lemma st_imp : forall (F : Prop) Q, ST Q -> ST (fun σ => F -> Q σ).
Proof. intros F Q HQ σ σ' X L I0 I1 A HF. eapply HQ; eauto. Qed.
Lemma st_all : forall X (Q : X -> store -> Prop), (forall x, ST (Q x)) -> ST (fun σ => forall x, Q x σ).
Proof. intros X Q HQ σ σ' E L I0 I1 A x. eapply HQ; eauto. Qed.
Lemma st_ex : forall X (Q : X -> store -> Prop), (forall x, ST (Q x)) -> ST (fun σ => exists x, Q x σ).
Proof. intros X Q HQ σ σ' E L I0 I1 [x A]. exists x. eapply HQ; eauto. Qed.
Lemma st_present : forall k s i, ST (fun σ => present (gen_at σ k) s i).
Proof. intros k s i σ σ' (_ & _ & X & _) _ _ _ A. eapply gext_present; [apply X|exact A]. Qed.
Lemma st_avail_blob : forall k i, ST (fun σ => avail_blob (gen_at σ k) i).
Proof. intros k i σ σ' (_ & _ & X & _) _ _ _ A. eapply gext_avail_blob; [apply X|exact A]. Qed.
Lemma st_avail_tree : forall k i, ST (fun σ => avail_tree (gen_at σ k) i).
Proof. intros k i σ σ' (_ & _ & X & _) _ _ _ A. eapply gext_avail_tree; [apply X|exact A]. Qed.
Lemma st_avail : forall k t i, ST (fun σ => avail (gen_at σ k) t i).
Proof. intros k t i σ σ' (_ & _ & X & _) _ _ _ A. eapply gext_avail; [apply X|exact A]. Qed.
Lemma st_entries : forall k es, ST (fun σ => entries_avail (gen_at σ k) es).
Proof. intros k es σ σ' (_ & _ & X & _) _ _ _ A. eapply gext_entries; [apply X|exact A]. Qed.
Lemma st_refs : forall k es, ST (fun σ => refs_avail (gen_at σ k) es).
Proof. intros k es σ σ' (_ & _ & X & _) _ _ _ A. eapply gext_refs; [apply X|exact A]. Qed.
Lemma st_lookup : forall k s i d, object_slot s = true ->
  ST (fun σ => lookup (gen_at σ k) s i = Some d).
Proof.
  intros k s i d O σ σ' (_ & _ & X & _) _ _ _ A. destruct (X k s i d A) as (d' & E & H).
  rewrite E. now rewrite H by auto.
Qed.
Lemma st_lookup_old : forall k s i d, k <> 0 -> ST (fun σ => lookup (gen_at σ k) s i = Some d).
Proof.
  intros k s i d O σ σ' (_ & _ & X & _) _ _ _ A. destruct (X k s i d A) as (d' & E & H).
  rewrite E. rewrite H; [reflexivity|]. right. apply negb_true_iff, Nat.eqb_neq. exact O.
Qed.
Lemma st_chunks : forall k b, ST (fun σ => chunks_at C (gen_at σ k) b).
Proof. intros k b σ σ' (_ & _ & X & _) _ _ _ A. eapply gext_chunks; [apply X|exact A]. Qed.
Lemma st_in : forall x, ST (fun σ => In x (log σ)).
Proof. intros x σ σ' (_ & X & _) _ _ _ A. eapply suffix_in; eauto. Qed.
Lemma st_blob_ok : forall i b, ST (fun σ => blob_ok C (log σ) i b).
Proof. intros i b. apply st_and; [apply st_pure|apply st_in]. Qed.
Lemma st_tree_in : forall i b, ST (fun σ => tree_in C (log σ) i b).
Proof.
  intros i b σ σ' (_ & X & _) _ _ _ A. eapply tree_in_mono; [|apply suffix_length; exact X|exact A].
  intros; eapply suffix_in; eauto.
Qed.
Lemma st_tree_ok : forall k i b, ST (fun σ => tree_ok C (log σ) (gen_at σ k) i b).
Proof.
  intros. unfold tree_ok. apply st_and; [apply st_tree_in|]. apply st_ex. intros es.
  apply st_and; [apply st_pure|apply st_entries].
Qed.
Lemma st_ranked : forall n b, ST (fun σ => ranked C (log σ) n b).
Proof.
  intros n b σ σ' (_ & X & _) _ _ _ A. eapply ranked_mono; [|apply Nat.le_refl|exact A].
  intros; eapply suffix_in; eauto.
Qed.
Lemma st_full_rank : forall b, ST (fun σ => ranked C (log σ) (length (log σ)) b).
Proof.
  intros b σ σ' (_ & X & _) _ _ _ A. eapply ranked_mono; [|apply suffix_length; exact X|exact A].
  intros; eapply suffix_in; eauto.
Qed.
Lemma st_len : forall n, ST (fun σ => length (gens σ) = n).
Proof. intros n σ σ' (X & _) _ _ _ A. congruence. Qed.
Lemma st_in_all : forall X (l : list X) Q, (forall x, ST (Q x)) ->
  ST (fun σ => forall x, In x l -> Q x σ).
Proof. intros X l Q H. apply st_all. intros x. apply st_imp. apply H. Qed.

Ltac stab :=
  repeat first
    [ assumption | apply st_pure | apply st_and | apply st_or | apply st_present | apply st_avail_blob
    | apply st_avail_tree | apply st_avail | apply st_entries | apply st_refs
    | apply st_lookup; reflexivity | apply st_lookup_old; assumption | apply st_chunks
    | apply st_in | apply st_blob_ok | apply st_tree_in | apply st_tree_ok
    | apply st_full_rank | apply st_ranked | apply st_len
    | apply st_imp | apply st_ex; intro | apply st_all; intro
    | match goal with |- stable _ (fun _ => match ?x with _ => _ end) => destruct x end ].

(** ** Primitives *)
Variable N : nat.
Hypothesis Npos : 0 < N.
Definition sz (σ : store) : Prop := length (gens σ) = N.
Lemma st_sz : ST sz.
Proof. unfold sz. apply st_len. Qed.
Hint Resolve st_sz : core.

Ltac seq X := eapply (triple_seq C shared); [stab|eapply X; stab| intros ?].

Lemma t_ret {A} (P : store -> Prop) (a : A) (Q : A -> store -> Prop) :
  (forall σ, limits C (log σ) -> Inv C σ -> P σ -> Q a σ) -> T P (ret a) Q.
Proof. apply triple_ret. Qed.

Lemma t_post {A} (P : store -> Prop) (m : M A) (Q Q' : A -> store -> Prop) :
  T P m Q' -> (forall a σ, limits C (log σ) -> Inv C σ -> Q' a σ -> Q a σ) -> T P m Q.
Proof. intros H HQ. eapply triple_conseq; eauto. Qed.

Lemma t_keep {A} (P : store -> Prop) (m : M A) (Q : A -> store -> Prop) :
  ST P -> T P m Q -> T P m (fun a σ => P σ /\ Q a σ).
Proof.
  intros SP H. refine (triple_conseq C shared _ _ m _ _ (triple_frame C shared P P m Q SP H) _ _); auto.
Qed.

Lemma triple_case {A} (D P : store -> Prop) (m : M A) (Q : A -> store -> Prop) :
  (forall σ, D σ \/ ~ D σ) -> T (fun σ => P σ /\ D σ) m Q -> T (fun σ => P σ /\ ~ D σ) m Q -> T P m Q.
Proof.
  intros HD H1 H2 σ L0 I0 P0. destruct (HD σ) as [X|X].
  - exact (H1 σ L0 I0 (conj P0 X)).
  - exact (H2 σ L0 I0 (conj P0 X)).
Qed.

(** Adding a consequence to the precondition. *)
Lemma triple_lim {A} (P F : store -> Prop) (m : M A) (Q : A -> store -> Prop) :
  (forall σ, limits C (log σ) -> Inv C σ -> P σ -> F σ) ->
  T (fun σ => P σ /\ F σ) m Q -> T P m Q.
Proof. intros H X. eapply triple_conseq; [exact X|intros; split; auto|auto]. Qed.

Lemma present_dec : forall g s i, present g s i \/ ~ present g s i.
Proof. intros. unfold present. destruct (lookup g s i); [left|right]; congruence. Qed.

Lemma t_is_file (B : Prop) (P : store -> Prop) k s i : ST P ->
  (forall σ, Inv C σ -> P σ -> B -> present (gen_at σ k) s i) ->
  T P (is_file k s i) (fun b σ => (b = true -> present (gen_at σ k) s i) /\ (B -> b = true)).
Proof.
  intros SP H. eapply triple_conseq; [apply (triple_is_file C shared P k s i SP)| | ].
  - auto.
  - intros b σ _ I0 [P0 E]. split; [apply E|]. intros B0. apply E. auto.
Qed.

Lemma t_read (B : Prop) (P : store -> Prop) k s i : ST P -> object_slot s = true ->
  (forall σ, Inv C σ -> P σ -> B -> present (gen_at σ k) s i) ->
  T P (read_file k s i) (fun r σ =>
    match r with
    | Some b => lookup (gen_at σ k) s i = Some (Bytes b) /\
        hash (kind_of s) b = i /\ In (kind_of s, b) (log σ)
    | None => True
    end /\ (B -> r <> None)).
Proof.
  intros SP O H. eapply triple_conseq; [apply (triple_read_file C shared P k s i SP)| | ].
  - auto.
  - intros r σ _ I0 [P0 E]. split.
    + destruct r as [b|]; [|exact Logic.I]. assert (L := proj1 (E b) eq_refl). split; [exact L|].
      pose proof (proj2 I0 k _ _ _ L) as OK. destruct s; try discriminate O; cbn in OK.
      * destruct OK as (b' & Eb & H1 & H2). injection Eb as <-. cbn. auto.
      * destruct OK as (b' & Eb & H1 & H2). injection Eb as <-. cbn. auto.
      * destruct OK as (b' & Eb & (H1 & H2 & _) & _). injection Eb as <-. cbn. auto.
    + intros B0. specialize (H σ I0 P0 B0). apply present_some in H. destruct H as [d L].
      pose proof (proj2 I0 k _ _ _ L) as OK.
      assert (exists b, d = Bytes b) as [b ->].
      { destruct s; try discriminate O; destruct OK as (b & -> & _); eauto. }
      apply E in L. congruence.
Qed.

Lemma t_attempt (P : store -> Prop) : ST P -> T P attempt (fun b _ => b = true).
Proof.
  intros SP. eapply triple_conseq; [apply (triple_attempt C shared P SP)|auto| ].
  intros b σ _ _ [_ E]. exact E.
Qed.

Lemma t_look (P : store -> Prop) k s i : ST P ->
  T P (look k s i) (fun d σ => lookup (gen_at σ k) s i = d).
Proof.
  intros SP. eapply triple_conseq; [apply (triple_look C shared P k s i SP)|auto| ].
  intros b σ _ _ [_ E]. exact E.
Qed.

Lemma insert_step : forall σ k s i d, k < length (gens σ) ->
  (k = 0 \/ lookup (gen_at σ k) s i = None) ->
  (lookup (gen_at σ k) s i = None \/ object_slot s = false) ->
  (k <> 0 -> had (gen_at σ k) s i) ->
  Inv C σ -> entry_ok C (log σ) (gen_at σ k) s i d ->
  let σ' := mkStore (update_nth k (fun g => insert g s i d) (gens σ)) (log σ) in
  ext σ σ' /\ Inv C σ' /\ present (gen_at σ' k) s i.
Proof.
  intros σ k s i d Hk H0 H1 H2 [I1 I2] OK σ'.
  assert (GX : gext (negb (k =? 0)) (gen_at σ k) (insert (gen_at σ k) s i d)).
  { apply gext_insert. intros d' L X. destruct H1 as [H1|H1]; [congruence|].
    destruct X as [X|X]; [congruence|]. destruct H0 as [->|H0]; [discriminate X|congruence]. }
  assert (GA : gen_at σ' k = insert (gen_at σ k) s i d).
  { unfold σ'. rewrite gen_at_update, Nat.eqb_refl. apply Nat.ltb_lt in Hk. now rewrite Hk. }
  assert (GO : forall k', k' <> k -> gen_at σ' k' = gen_at σ k').
  { intros k' Hn. unfold σ'. rewrite gen_at_update. destruct (Nat.eqb_spec k k'); [congruence|reflexivity]. }
  split; [|split].
  - split; [apply update_nth_length|]. split; [apply suffix_refl|]. split; intros k'.
    + destruct (Nat.eq_dec k' k) as [->|Hn]; [now rewrite GA|]. rewrite GO by exact Hn. apply gext_refl.
    + intros s' i' Hk'. destruct (Nat.eq_dec k' k) as [->|Hn]; [|rewrite GO by exact Hn; now left].
      rewrite GA. unfold present at 1. rewrite lookup_insert.
      destruct (at_path s' i' (s, i)) eqn:E; [|now left].
      apply at_path_eq in E. destruct E as [-> ->]. auto.
  - split; [cbn; now rewrite update_nth_length|]. intros k'. cbn [log σ'].
    destruct (Nat.eq_dec k' k) as [->|Hn]; [|rewrite GO by exact Hn; apply I2].
    rewrite GA. eapply gen_ok_insert; [exact GX|apply I2|exact OK].
  - rewrite GA. unfold present. rewrite lookup_insert.
    assert (at_path s i (s, i) = true) as -> by now apply at_path_eq. congruence.
Qed.

Lemma t_add (P : store -> Prop) md k s i d : ST P -> k < N -> (forall σ, P σ -> sz σ) ->
  (md = FirstWins \/ (k = 0 /\ object_slot s = false)) ->
  (forall σ, limits C (log σ) -> Inv C σ -> P σ -> lookup (gen_at σ k) s i = None \/ md = LastWins ->
     entry_ok C (log σ) (gen_at σ k) s i d) ->
  (forall σ, k <> 0 -> P σ -> had (gen_at σ k) s i) ->
  T P (add md k s i d) (fun r σ => r = true /\ present (gen_at σ k) s i).
Proof.
  intros SP Hk SZ MD H HH. apply triple_access; [exact SP|].
  - intros σ _ L0 I0 P0. pose proof (SZ σ P0) as Hs. unfold sz in Hs.
    specialize (H σ L0 I0 P0).
    destruct (lookup (gen_at σ k) s i) as [d'|] eqn:E.
    + destruct md; cbn [fst snd].
      * split; [apply ext_refl|]. split; [exact I0|]. split; [reflexivity|]. unfold present. congruence.
      * destruct MD as [MD|[-> O]]; [discriminate MD|].
        destruct (insert_step σ 0 s i d) as (A1 & A2 & A3); auto; try lia.
    + assert (X : let σ' := mkStore (update_nth k (fun g => insert g s i d) (gens σ)) (log σ) in
        ext σ σ' /\ Inv C σ' /\ present (gen_at σ' k) s i).
      { apply insert_step; auto; lia. }
      destruct X as (A1 & A2 & A3). destruct md; cbn [fst snd]; auto.
Qed.

Lemma note_Inv : forall σ k b, Inv C σ -> Inv C (mkStore (gens σ) ((k, b) :: log σ)).
Proof.
  intros σ k b [I1 I2]. split; [exact I1|]. intros n. cbn [log].
  apply gen_ok_log with (L := log σ); [now exists [(k, b)]|]. exact (I2 n).
Qed.
Lemma note_ext : forall σ k b, ext σ (mkStore (gens σ) ((k, b) :: log σ)).
Proof.
  intros σ k b. split; [reflexivity|]. split; [now exists [(k, b)]|]. split.
  - intros n. exact (gext_refl _ (gen_at σ n)).
  - intros n s i _ H. now left.
Qed.

Lemma t_note (P : store -> Prop) k b : ST P -> T P (note k b) (fun _ σ => In (k, b) (log σ)).
Proof.
  intros SP. apply triple_access; [exact SP|]. intros σ _ L0 I0 P0. cbn [fst snd].
  split; [apply note_ext|]. split; [now apply note_Inv|]. now left.
Qed.

Lemma t_note_tree (P : store -> Prop) b n es : ST P -> parse_tree b = Some es ->
  (forall σ, P σ -> entries_avail (gen_at σ n) es) ->
  T P (note KTree b) (fun _ σ => tree_in C (log σ) (hash KTree b) b).
Proof.
  intros SP PT H. apply triple_access; [exact SP|]. intros σ _ L0 I0 P0. cbn [fst snd].
  split; [apply note_ext|]. split; [now apply note_Inv|].
  split; [reflexivity|]. split; [now left|].
  pose proof (entries_ranked C (log σ) _ b es (proj2 I0 n) PT (H _ P0)) as R0.
  eapply ranked_mono; [|apply Nat.le_refl|exact R0]. intros x Hx. now right.
Qed.

(** ** A single generation *)
Ltac pre X := apply (fun H => triple_pre C shared _ X _ _ H).

Lemma t_LocalStore (P : store -> Prop) k x b : ST P -> k < N -> (forall σ, P σ -> sz σ) ->
  (forall σ, k <> 0 -> P σ -> present (gen_at σ k) (blob_slot (negb x)) (hash KBlob b)) ->
  T P (LocalStore C k (blob_slot x) b)
    (fun r σ => r = Some (hash KBlob b) /\ present (gen_at σ k) (blob_slot x) (hash KBlob b)).
Proof.
  intros SP Hk SZ HH. unfold LocalStore.
  assert (KB : kind_of (blob_slot x) = KBlob) by now destruct x. rewrite KB.
  seq t_note. cbn beta. set (i := hash KBlob b).
  seq (t_is_file False); [tauto|]. destruct a0.
  - apply t_ret. intros σ _ _ H. intuition.
  - eapply (triple_seq C shared); [stab|apply t_add; [stab|exact Hk|intuition|auto| |]| ].
    2:{ intros σ K ((P0 & _) & _). right. exists x, (negb x). auto. }
    + intros σ _ _ H _. destruct x; cbn; exists b; split; auto; split; tauto.
    + intros r. apply t_ret. intros σ _ _ (H & -> & Hp). auto.
Qed.

Lemma t_LocalStore_tree (P : store -> Prop) b es : ST P -> (forall σ, P σ -> sz σ) ->
  parse_tree b = Some es -> (forall σ, P σ -> entries_avail (gen_at σ 0) es) ->
  T P (LocalStore C 0 STree b)
    (fun r σ => r = Some (hash KTree b) /\ present (gen_at σ 0) STree (hash KTree b)).
Proof.
  intros SP SZ PT EA. unfold LocalStore. cbn [kind_of].
  eapply (triple_seq C shared); [stab|eapply t_note_tree; eauto| ].
  intros u. cbn beta. set (i := hash KTree b).
  seq (t_is_file False); [tauto|]. destruct a.
  - apply t_ret. intros σ _ _ H. intuition.
  - eapply (triple_seq C shared); [stab|apply t_add; [stab|exact Npos|intuition|auto| |intros; congruence]| ].
    + intros σ _ _ ((H & TI) & _) _. cbn. exists b. split; auto. split; [exact TI|]. eauto.
    + intros r. apply t_ret. intros σ _ _ (H & -> & Hp). auto.
Qed.

Lemma t_LocalBlobPath (B : Prop) (P : store -> Prop) k d x : ST P -> k < N -> (forall σ, P σ -> sz σ) ->
  (forall σ, Inv C σ -> P σ -> B -> present (gen_at σ k) SFile d \/ present (gen_at σ k) SExec d) ->
  T P (LocalBlobPath C k d x) (fun r σ => (r = true -> present (gen_at σ k) (blob_slot x) d) /\ (B -> r = true)).
Proof.
  intros SP Hk SZ HB. unfold LocalBlobPath.
  eapply (triple_bind C shared); [apply (triple_is_file C shared P); exact SP| ].
  intros [|]; cbn beta.
  - apply t_ret. intros σ _ _ (P0 & E). split; [intros _; now apply E|auto].
  - (* the other one must be there *)
    pre (fun σ => P σ /\ (B -> present (gen_at σ k) (blob_slot (negb x)) d)).
    2:{ intros σ I0 (P0 & E). split; [exact P0|]. intros B0.
        destruct x; cbn in *; destruct (HB σ I0 P0 B0) as [H|H]; auto;
          apply E in H; discriminate H. }
    eapply (triple_seq C shared);
      [stab|apply (t_read B); [stab|now destruct x|intros σ _ (_ & H) B0; auto]| ].
    intros [b|]; cbn beta.
    + pre (fun σ => (P σ /\ lookup (gen_at σ k) (blob_slot (negb x)) d = Some (Bytes b)) /\ hash KBlob b = d).
      2:{ intros σ _ ((P0 & _) & (L & Hh & _) & _). split; [auto|]. rewrite <- Hh. now destruct x. }
      apply triple_pure. intros Hd.
      assert (SL : ST (fun σ => lookup (gen_at σ k) (blob_slot (negb x)) d = Some (Bytes b))).
      { apply st_lookup. now destruct x. }
      eapply (triple_seq C shared); [stab|apply t_LocalStore; [stab|exact Hk|intuition|]| ].
      { intros σ _ (_ & L). rewrite Hd. unfold present. rewrite L. discriminate. }
      intros r. cbn beta.
      pre (fun σ => present (gen_at σ k) (blob_slot x) d /\ r = Some (hash KBlob b)).
      2:{ intros σ _ (_ & E & Hp). rewrite Hd in Hp. auto. }
      apply triple_pure. intros ->. cbn [is_some].
      eapply t_post; [apply (t_is_file True); [stab|]| ].
      * intros σ _ H _. exact H.
      * intros r σ _ _ [H1 H2]. split; auto.
    + apply t_ret. intros σ _ _ (_ & _ & H). split; [discriminate|]. intros B0. now destruct (H B0).
Qed.

(** ** Splicing *)
Hypothesis chunker_concat : forall b, concat_bytes (chunker b) = b.

Definition held (ls : slot) (σ : store) (k : nat) (d : id) (b : bytes) : Prop :=
  hash (kind_of ls) b = d /\ In (kind_of ls, b) (log σ) /\ present (gen_at σ k) ls d /\
  (ls = SLargeTree -> tree_ok C (log σ) (gen_at σ k) d b).

Lemma st_held : forall ls k d b, ST (fun σ => held ls σ k d b).
Proof. intros. unfold held. stab. Qed.

Lemma t_entry (B : Prop) (P : store -> Prop) k ls d : ST P -> large_slot ls = true ->
  (forall σ, Inv C σ -> P σ -> B -> present (gen_at σ k) ls d) ->
  T P (LocalReadEntry k ls d) (fun r σ =>
    match r with
    | Some ps => exists b, ps = map (hash KBlob) (chunker b) /\ 2 <= length (chunker b) /\
        chunks_at C (gen_at σ k) b /\ held ls σ k d b
    | None => True
    end /\ (B -> r <> None)).
Proof.
  intros SP LS HB. unfold LocalReadEntry.
  eapply (triple_bind C shared); [apply (triple_look C shared P); exact SP| ].
  intros e. apply t_ret. intros σ _ I0 (P0 & E).
  assert (X : forall d', e = Some d' -> exists b, d' = Parts (map (hash KBlob) (chunker b)) /\
     2 <= length (chunker b) /\ chunks_at C (gen_at σ k) b /\ held ls σ k d b).
  { intros d' ->. pose proof (proj2 I0 k _ _ _ E) as OK.
    assert (PR : present (gen_at σ k) ls d) by (unfold present; congruence).
    destruct ls; try discriminate LS; cbn in OK.
    - destruct OK as (b & (H1 & H2) & (E1 & E2 & E3)). exists b.
      split; [exact E1|]. split; [exact E2|]. split; [exact E3|].
      split; [exact H1|]. split; [exact H2|]. split; [exact PR|discriminate].
    - destruct OK as (b & TO & (E1 & E2 & E3)). exists b.
      split; [exact E1|]. split; [exact E2|]. split; [exact E3|].
      destruct TO as [(H1 & H2 & H3) H4].
      split; [exact H1|]. split; [exact H2|]. split; [exact PR|]. intros _. repeat split; auto. }
  split.
  - destruct e as [d'|]; [|exact Logic.I]. destruct (X d' eq_refl) as (b & -> & H). exists b. auto.
  - intros B0. specialize (HB σ I0 P0 B0). unfold present in HB. rewrite E in HB.
    destruct e as [d'|]; [|congruence]. destruct (X d' eq_refl) as (b & -> & H). discriminate.
Qed.

Lemma t_splice_parts (P : store -> Prop) path k cs : ST P ->
  (forall p, T (fun σ => P σ /\ present (gen_at σ k) SFile p) (path p) (fun r _ => r = true)) ->
  T (fun σ => P σ /\ forall c, In c cs -> lookup (gen_at σ k) SFile (hash KBlob c) = Some (Bytes c))
    (splice_parts path k (map (hash KBlob) cs)) (fun r _ => r = Some (concat_bytes cs)).
Proof.
  intros SP HP. induction cs as [|c cs IH]; cbn [map splice_parts].
  - apply t_ret. reflexivity.
  - assert (SA : forall l, ST (fun σ => forall c, In c l -> lookup (gen_at σ k) SFile (hash KBlob c) = Some (Bytes c)))
      by (intros; stab).
    eapply (triple_seq C shared); [stab| | ].
    + eapply triple_pre; [apply HP|]. intros σ _ (P0 & H). split; [exact P0|].
      unfold present. rewrite H by now left. discriminate.
    + intros r. cbn beta. apply triple_pure. intros ->.
      eapply (triple_seq C shared); [stab| | ].
      * apply (triple_read_file C shared). stab.
      * intros r. cbn beta.
        pre (fun σ => (P σ /\ forall c0, In c0 cs -> lookup (gen_at σ k) SFile (hash KBlob c0) = Some (Bytes c0)) /\
              r = Some c).
        2:{ intros σ _ ((P0 & H) & _ & E). split; [split; [exact P0|intros; apply H; now right]|].
            apply E. apply H. now left. }
        apply triple_pure. intros ->.
        eapply (triple_bind C shared); [exact IH| ].
        intros r. cbn beta. apply t_ret. intros σ _ _ ->. reflexivity.
Qed.

Lemma t_splice (P : store -> Prop) path k cs : ST P ->
  (forall p, T (fun σ => P σ /\ present (gen_at σ k) SFile p) (path p) (fun r _ => r = true)) ->
  (forall σ, P σ -> forall c, In c cs -> lookup (gen_at σ k) SFile (hash KBlob c) = Some (Bytes c)) ->
  T P (splice path k (map (hash KBlob) cs)) (fun r _ => r = Some (concat_bytes cs)).
Proof.
  intros SP HP HC. unfold splice.
  eapply (triple_seq C shared); [stab|apply t_attempt; stab| ].
  intros r. cbn beta. apply triple_pure. intros ->.
  eapply triple_pre; [apply (t_splice_parts P); auto|]. intros σ _ P0. split; [exact P0|auto].
Qed.

Lemma t_LocalTrySplice (B : Prop) (P : store -> Prop) k ls d : ST P -> large_slot ls = true ->
  k < N -> (forall σ, P σ -> sz σ) ->
  (forall σ, Inv C σ -> P σ -> B -> present (gen_at σ k) ls d) ->
  T P (LocalTrySplice C k ls d) (fun r σ =>
    match r with Some b => held ls σ k d b | None => True end /\ (B -> r <> None)).
Proof.
  intros SP LS Hk SZ HB. unfold LocalTrySplice.
  pose proof (st_held ls k d) as SH.
  eapply (triple_seq C shared); [stab|apply (t_entry B); auto| ].
  - intros [ps|]; cbn beta.
    + pre (fun σ => exists b, (P σ /\ (chunks_at C (gen_at σ k) b /\ held ls σ k d b)) /\ ps = map (hash KBlob) (chunker b)).
      2:{ intros σ _ (P0 & (b & E & _ & H) & _). exists b. auto. }
      apply triple_ex. intros b. apply triple_pure. intros ->.
      specialize (SH b).
      assert (TS : T (fun σ => P σ /\ chunks_at C (gen_at σ k) b)
        (splice (fun p => LocalBlobPath C k p false) k (map (hash KBlob) (chunker b)))
        (fun r _ => r = Some (concat_bytes (chunker b)))).
      { apply t_splice.
        - stab.
        - intros p. eapply t_post; [apply (t_LocalBlobPath True); auto| ].
          + stab.
          + intros σ (( P0 & _) & _). auto.
          + intros σ _ (_ & H) _. left. exact H.
          + intros r σ _ _ [_ H]. auto.
        - intros σ (P0 & HC). exact HC. }
      refine (triple_conseq C shared _ _ _ _ _ (triple_frame C shared (fun σ => held ls σ k d b) _ _ _ SH TS) _ _).
      * cbn beta. intros σ _ _ (P0 & HC & H). auto.
      * cbn beta. intros r σ _ _ (H & ->). rewrite chunker_concat. split; [exact H|discriminate].
    + apply t_ret. intros σ _ _ (_ & _ & H). split; [exact Logic.I|]. intros B0. now destruct (H B0).
Qed.

(** ** Uplinking *)

(** What is needed in the youngest generation for the entry of a large tree. *)
Definition tree_ready (ls : slot) (d : id) (σ : store) : Prop :=
  ls = SLargeTree -> exists b es, hash KTree b = d /\ In (KTree, b) (log σ) /\ parse_tree b = Some es /\
    entries_avail (gen_at σ 0) es.
Lemma st_tree_ready : forall ls d, ST (tree_ready ls d).
Proof. intros. unfold tree_ready. stab. Qed.
Hint Resolve st_tree_ready : core.

Lemma chunks_transfer : forall σ k b, limits C (log σ) -> Inv C σ ->
  chunks_at C (gen_at σ k) b ->
  (forall x, In x (map (hash KBlob) (chunker b)) -> present (gen_at σ 0) SFile x) ->
  chunks_at C (gen_at σ 0) b.
Proof.
  intros σ k b [NC _] [_ I0] HC HP c Hc.
  pose proof (HP (hash KBlob c) (in_map _ _ _ Hc)) as P0.
  destruct (ok_blob C _ _ false _ (I0 0) P0) as (c' & L & H1 & H2). cbn in L.
  destruct (I0 k _ _ _ (HC c Hc)) as (c2 & E & H3 & H4). injection E as <-.
  destruct (NC _ _ _ _ H2 H4 H1) as [_ ->]. exact L.
Qed.

Lemma large_transfer : forall σ k ls d f b, limits C (log σ) -> Inv C σ -> large_slot ls = true ->
  lookup (gen_at σ k) ls d = Some f ->
  chunks_at C (gen_at σ k) b -> held ls σ k d b -> tree_ready ls d σ ->
  (forall x, In x (map (hash KBlob) (chunker b)) -> present (gen_at σ 0) SFile x) ->
  entry_ok C (log σ) (gen_at σ 0) ls d f.
Proof.
  intros σ k ls d f b Li I0 LS E HC (H1 & H2 & _ & H3) TR HP.
  pose proof (chunks_transfer σ k b Li I0 HC HP) as HC0.
  destruct Li as [NC _]. pose proof (proj2 I0 k _ _ _ E) as OK.
  destruct ls; try discriminate LS; cbn in OK, H1, H2 |- *.
  - destruct OK as (b' & (B1 & B2) & (L1 & L2 & L3)).
    assert (b' = b) as -> by (apply (NC KBlob b' KBlob b B2 H2); congruence).
    exists b. split; [now split|]. now repeat split.
  - destruct OK as (b' & ((B1 & B2 & B3) & _) & (L1 & L2 & L3)).
    assert (b' = b) as -> by (apply (NC KTree b' KTree b B2 H2); congruence).
    destruct (TR eq_refl) as (b2 & es & T1 & T2 & T3 & T4).
    assert (b2 = b) as -> by (apply (NC KTree b2 KTree b T2 H2); congruence).
    exists b. split; [|now repeat split]. split; [now repeat split|]. eauto.
Qed.

Lemma t_LocalUplinkLarge (B : Prop) (P : store -> Prop) up k ls d : ST P -> large_slot ls = true ->
  k < N -> (forall σ, P σ -> sz σ) ->
  (forall σ, P σ -> tree_ready ls d σ) ->
  (forall σ, Inv C σ -> P σ -> B -> present (gen_at σ k) ls d) ->
  (forall p, T (fun σ => P σ /\ present (gen_at σ k) SFile p) (up p)
     (fun r σ => r = true /\ present (gen_at σ 0) SFile p)) ->
  T P (LocalUplinkLarge up k ls d) (fun r σ => B -> r = true /\ present (gen_at σ 0) ls d).
Proof.
  intros SP LS Hk SZ TR HB HU. unfold LocalUplinkLarge.
  pose proof (st_held ls k d) as SH.
  eapply (triple_seq C shared); [stab|apply (t_is_file False); [stab|tauto]| ].
  intros [|]; cbn beta.
  { apply t_ret. intros σ _ _ (_ & H & _) _. auto. }
  pre P; [|intros σ _ [P0 _]; exact P0].
  eapply (triple_seq C shared); [stab|apply (t_entry B); auto| ].
  intros [ps|]; cbn beta.
  2:{ apply t_ret. intros σ _ _ (_ & _ & H) B0. now destruct (H B0). }
  pre (fun σ => exists b, (P σ /\ (chunks_at C (gen_at σ k) b /\ held ls σ k d b)) /\
        (ps = map (hash KBlob) (chunker b) /\ 2 <= length (chunker b))).
  2:{ intros σ _ (P0 & (b & E & E2 & H) & _). exists b. auto. }
  apply triple_ex. intros b. apply triple_pure. intros [-> L2]. specialize (SH b).
  (* all parts get uplinked *)
  eapply (triple_seq C shared); [stab|
    apply (triple_all_of C shared _ up _ (fun p σ => present (gen_at σ 0) SFile p) True); [stab|intros; stab|]
    | ].
  { intros p Hp. eapply t_post; [eapply triple_pre; [apply HU|]| ].
    - intros σ _ (P0 & HC & _). split; [exact P0|].
      apply in_map_iff in Hp. destruct Hp as (c & <- & Hc). unfold present. rewrite (HC c Hc). discriminate.
    - intros r σ _ _ (-> & H). auto. }
  intros ok. cbn beta.
  pre (fun σ => ((P σ /\ chunks_at C (gen_at σ k) b /\ held ls σ k d b) /\
        (forall x, In x (map (hash KBlob) (chunker b)) -> present (gen_at σ 0) SFile x)) /\ ok = true).
  2:{ intros σ _ (H & H1 & H2). auto. }
  apply triple_pure. intros ->. cbn beta iota.
  destruct (Nat.eq_dec k 0) as [->|Hk0].
  - (* nothing to do: the entry is there *)
    eapply (triple_seq C shared); [stab|apply t_look; stab| ].
    intros [f|]; cbn beta.
    + pre (fun σ => P σ /\ present (gen_at σ 0) ls d).
      2:{ intros σ _ (((P0 & _ & _ & _ & H & _) & _) & _). auto. }
      eapply t_post; [apply t_add; auto; try (intros; congruence)| ].
      * stab.
      * intros σ (P0 & _). auto.
      * intros σ _ _ (P0 & H) [E|E]; [|discriminate E]. now destruct H.
      * intros r σ _ _ [-> H] _. auto.
    + apply t_ret. intros σ _ _ (((P0 & _ & _ & _ & H & _) & _) & E). now destruct H.
  - eapply (triple_seq C shared); [stab|apply t_look; stab| ].
    intros [f|]; cbn beta.
    + eapply t_post; [apply t_add; auto; try (intros; congruence); [stab|..]| ].
      * intros σ (((P0 & _) & _) & _). auto.
      * intros σ Li I0 (((P0 & HC & HH) & HP) & E) _.
        apply (large_transfer σ k ls d f b); auto.
      * intros r σ _ _ [-> H] _. auto.
    + apply t_ret. intros σ _ _ (((P0 & _ & _ & _ & H & _) & _) & E). now destruct H.
Qed.

(** A part that is a file. *)
Lemma t_uplink_part (P : store -> Prop) n k p : ST P -> 1 <= n -> k < N -> (forall σ, P σ -> sz σ) ->
  T (fun σ => P σ /\ present (gen_at σ k) SFile p) (LocalUplinkBlob C n k p false true false)
    (fun r σ => r = true /\ present (gen_at σ 0) SFile p).
Proof.
  intros SP Hn Hk SZ. destruct n as [|n]; [lia|]. cbn [LocalUplinkBlob blob_slot].
  eapply (triple_seq C shared); [stab|apply (t_is_file False); [stab|tauto]| ].
  intros [|]; cbn beta iota.
  { apply t_ret. intros σ _ _ (_ & H & _). auto. }
  eapply (triple_seq C shared); [stab|apply (t_is_file True); [stab|tauto]| ].
  intros r. cbn beta. pre (fun σ => (P σ /\ present (gen_at σ k) SFile p) /\ r = true); [|intros; tauto].
  apply triple_pure. intros ->. cbn iota.
  eapply (triple_seq C shared); [stab|apply (t_read True); [stab|reflexivity|tauto]| ].
  intros [b|]; cbn beta.
  - pre (fun σ => P σ /\ hash KBlob b = p); [|intros; cbn in *; tauto].
    apply triple_pure. intros <-.
    eapply (triple_seq C shared); [stab|apply (t_LocalStore _ 0 false); auto; intros; try lia; congruence| ].
    intros r. apply t_ret. intros σ _ _ (_ & -> & H). auto.
  - apply t_ret. intros σ _ _ (_ & _ & H). now destruct (H Logic.I).
Qed.

Lemma t_LocalUplinkBlob (B : Prop) (P : store -> Prop) n k d x sk sr : ST P -> 2 <= n -> k < N ->
  (forall σ, P σ -> sz σ) ->
  (forall σ, Inv C σ -> P σ -> B ->
     present (gen_at σ k) (blob_slot x) d \/ present (gen_at σ k) SLargeFile d \/
     (sk = false /\ avail_blob (gen_at σ k) d)) ->
  T P (LocalUplinkBlob C n k d x sk sr) (fun r σ =>
    (r = true -> avail_blob (gen_at σ 0) d /\ (sr = true -> present (gen_at σ 0) (blob_slot x) d)) /\
    (B -> r = true)).
Proof.
  intros SP Hn Hk SZ HB. destruct n as [|n]; [lia|]. cbn [LocalUplinkBlob].
  assert (SB : forall g, present g (blob_slot x) d -> avail_blob g d)
    by (intros g H; destruct x; [right; left|left]; exact H).
  eapply (triple_seq C shared); [stab|apply (t_is_file False); [stab|tauto]| ].
  intros [|]; cbn beta iota.
  { apply t_ret. intros σ _ _ (_ & H & _). auto. }
  pre P; [|tauto].
  (* the file, if present *)
  eapply (triple_bind C shared) with (Q1 := fun (r : bool) σ =>
     P σ /\ (r = true -> present (gen_at σ k) (blob_slot x) d) /\
     (r = false -> B -> present (gen_at σ k) SLargeFile d)).
  { destruct sk.
    - eapply t_post; [apply (triple_is_file C shared P); exact SP| ].
      intros r σ _ I0 (P0 & E). split; [exact P0|]. split; [apply E|].
      intros -> B0. destruct (HB σ I0 P0 B0) as [H|[H|[H _]]]; [apply E in H| |]; congruence.
    - (* by cases whether some file is there *)
      apply (triple_case (fun σ => present (gen_at σ k) SFile d \/ present (gen_at σ k) SExec d)).
      { intros σ. destruct (present_dec (gen_at σ k) SFile d) as [H|H]; [now left; left|].
        destruct (present_dec (gen_at σ k) SExec d) as [H'|H']; [now left; right|].
        right. intros [|]; auto. }
      + eapply t_post with (Q' := fun (r : bool) σ => (P σ /\ (present (gen_at σ k) SFile d \/ present (gen_at σ k) SExec d)) /\
          (r = true -> present (gen_at σ k) (blob_slot x) d) /\ (True -> r = true)); [| ].
        * apply t_keep; [stab|]. apply (t_LocalBlobPath True); auto; [stab|intuition|tauto].
        * intros r σ _ _ ((P0 & _) & H1 & H2). split; [exact P0|]. split; [exact H1|].
          intros ->. discriminate (H2 Logic.I).
      + pre (fun σ => P σ /\ (B -> present (gen_at σ k) SLargeFile d)).
        2:{ intros σ I0 (P0 & NF). split; [exact P0|]. intros B0.
            destruct (HB σ I0 P0 B0) as [H|[H|[_ [H|[H|H]]]]]; auto; destruct NF; auto.
            destruct x; auto. }
        eapply t_post with (Q' := fun (r : bool) σ => (P σ /\ (B -> present (gen_at σ k) SLargeFile d)) /\
          (r = true -> present (gen_at σ k) (blob_slot x) d) /\ (False -> r = true)); [| ].
        * apply t_keep; [stab|]. apply (t_LocalBlobPath False); auto; [stab|intuition|tauto].
        * intros r σ _ _ ((P0 & H0) & H1 & _). auto. }
  intros [|]; cbn beta iota.
  - (* uplink the file *)
    pre (fun σ => P σ /\ present (gen_at σ k) (blob_slot x) d); [|intros; tauto].
    eapply (triple_seq C shared); [stab|apply (t_read True); [stab|now destruct x|tauto]| ].
    intros [b|]; cbn beta.
    + pre (fun σ => P σ /\ hash KBlob b = d).
      2:{ intros σ _ ((P0 & _) & (_ & H & _) & _). split; [exact P0|]. now destruct x. }
      apply triple_pure. intros <-.
      eapply (triple_seq C shared); [stab|apply (t_LocalStore _ 0 x); auto; intros; try lia; congruence| ].
      intros r. apply t_ret. intros σ _ _ (_ & -> & H). auto.
    + apply t_ret. intros σ _ _ (_ & _ & H). now destruct (H Logic.I).
  - (* large object *)
    pre (fun σ => P σ /\ (B -> present (gen_at σ k) SLargeFile d)); [|intros; tauto].
    eapply (triple_seq C shared); [stab|apply (t_LocalTrySplice B); auto; [stab|intuition|tauto]| ].
    intros [b|]; cbn beta.
    2:{ apply t_ret. intros σ _ _ (_ & _ & H). split; [discriminate|]. intros B0. now destruct (H B0). }
    pre (fun σ => (P σ /\ present (gen_at σ k) SLargeFile d) /\ hash KBlob b = d).
    2:{ intros σ _ ((P0 & _) & (H & _ & H' & _) & _). auto. }
    apply triple_pure. intros Hd.
    eapply (triple_seq C shared); [stab|apply (t_LocalUplinkLarge True); auto| ].
    + stab.
    + intuition.
    + intros σ _ E. discriminate E.
    + tauto.
    + intros p. apply t_uplink_part; auto; [stab|lia|intuition].
    + intros r0. cbn beta.
      pre (fun σ => P σ /\ present (gen_at σ 0) SLargeFile d).
      2:{ intros σ _ ((P0 & _) & H). destruct (H Logic.I). auto. }
      destruct sr.
      * eapply (triple_seq C shared); [stab|apply (t_LocalStore _ 0 x); [stab|lia|intuition|intros; congruence]| ].
        intros r. apply t_ret. rewrite Hd. intros σ _ _ (_ & -> & H). auto.
      * apply t_ret. intros σ _ _ (P0 & H). split; [|auto]. intros _. split; [|discriminate].
        right; right; exact H.
Qed.

Lemma triple_fuel {A} (P : store -> Prop) (m : M A) (Q : A -> store -> Prop) :
  (2 <= fuel -> T P m Q) -> T P m Q.
Proof.
  intros H σ L0. apply H; [destruct L0; lia|exact L0].
Qed.

Lemma t_uplink_ref (B : Prop) (P : store -> Prop) tr k t d : ST P -> k < N -> (forall σ, P σ -> sz σ) ->
  (forall σ, P σ -> avail (gen_at σ k) t d) ->
  (IsTreeObject t = true ->
   T P (tr d) (fun r σ => (r = true -> avail_tree (gen_at σ 0) d) /\ (B -> r = true))) ->
  T P (uplink_ref C tr k t d) (fun r σ => (r = true -> avail (gen_at σ 0) t d) /\ (B -> r = true)).
Proof.
  intros SP Hk SZ HA HT. unfold uplink_ref, avail. destruct (IsTreeObject t) eqn:E; [auto|].
  apply triple_fuel. intros F.
  eapply t_post; [apply (t_LocalUplinkBlob True); auto| ].
  - intros σ _ P0 _. right; right. split; [reflexivity|]. specialize (HA σ P0). unfold avail in HA.
    now rewrite E in HA.
  - intros r σ _ _ [H1 H2]. split; [intros Hr; now apply H1|auto].
Qed.

Lemma read_tree_data : forall b d es, hash KTree b = d -> parse_tree b = Some es ->
  ReadTreeData C b d = Some es.
Proof. intros b d es H E. unfold ReadTreeData. rewrite <- H, String.eqb_refl. exact E. Qed.

(** All types an entry is listed with are of the same sort. *)
Lemma entries_from_first : forall σ k es, limits C (log σ) -> Inv C σ ->
  entries_avail (gen_at σ k) es ->
  (forall e, In e es -> avail (gen_at σ 0) (fst (snd e)) (fst e)) ->
  entries_avail (gen_at σ 0) es.
Proof.
  intros σ k es [NC _] [_ I0] HA HF i t0 ts t Hin Ht.
  assert (E : IsTreeObject t0 = IsTreeObject t).
  { apply (avail_type C (log σ) (gen_at σ k) i); auto; eapply HA; eauto. now left. }
  apply (same_kind_avail _ _ t0); [exact E|]. exact (HF _ Hin).
Qed.

Lemma t_LocalUplinkGitTree : forall n (B : Prop) (P : store -> Prop) k d sr, ST P -> k < N ->
  (forall σ, P σ -> sz σ) ->
  (forall σ, Inv C σ -> P σ -> B -> avail_tree (gen_at σ k) d /\
     exists b, hash KTree b = d /\ In (KTree, b) (log σ) /\ ranked C (log σ) n b) ->
  T P (LocalUplinkGitTree C n k d sr) (fun r σ =>
    (r = true -> avail_tree (gen_at σ 0) d /\ (sr = true -> present (gen_at σ 0) STree d)) /\
    (B -> r = true)).
Proof.
  induction n as [|n IH]; intros B P k d sr SP Hk SZ HB; cbn [LocalUplinkGitTree].
  { apply t_ret. intros σ _ I0 P0. split; [discriminate|]. intros B0.
    destruct (HB σ I0 P0 B0) as (_ & b & _ & _ & []). }
  apply triple_fuel. intros F.
  eapply (triple_seq C shared); [stab|apply (t_is_file False); [stab|tauto]| ].
  intros [|]; cbn beta iota.
  { apply t_ret. intros σ _ _ (_ & H & _). split; [|auto]. intros _. split; [left|]; auto. }
  pre P; [|tauto].
  (* the content *)
  eapply (triple_bind C shared) with (Q1 := fun c σ => P σ /\
     match c with
     | Some b => tree_ok C (log σ) (gen_at σ k) d b
     | None => B -> present (gen_at σ k) SLargeTree d
     end).
  { eapply t_post; [apply (triple_read_file C shared P); exact SP| ].
    intros [b|] σ _ I0 (P0 & E); (split; [exact P0|]).
    - pose proof (proj1 (E b) eq_refl) as L. destruct (proj2 I0 k _ _ _ L) as (b' & Eb & TO).
      injection Eb as <-. exact TO.
    - intros B0. destruct (HB σ I0 P0 B0) as [[H|H] _]; [|exact H]. exfalso.
      apply present_some in H. destruct H as [dd L]. destruct (proj2 I0 k _ _ _ L) as (b' & -> & _).
      apply E in L. discriminate L. }
  intros c. cbn beta.
  eapply (triple_bind C shared) with (Q1 := fun sp σ => P σ /\
     match (match c with Some b => Some b | None => sp end) with
     | Some b => tree_ok C (log σ) (gen_at σ k) d b /\ (sp <> None -> present (gen_at σ k) SLargeTree d)
     | None => ~ B
     end).
  { destruct c as [b|].
    - apply t_ret. intros σ _ _ [P0 TO]. split; [exact P0|]. split; [exact TO|congruence].
    - eapply t_post with (Q' := fun sp σ => (P σ /\ (B -> present (gen_at σ k) SLargeTree d)) /\ _); [apply t_keep; [stab|]| ].
      + apply (t_LocalTrySplice B); auto; [stab|intuition|tauto].
      + intros [b|] σ _ _ ((P0 & _) & H & NB); (split; [exact P0|]).
        * destruct H as (_ & _ & H1 & H2). split; [auto|]. intros _. exact H1.
        * intros B0. now destruct (NB B0). }
  intros sp. cbn beta.
  destruct (match c with Some b => Some b | None => sp end) as [b|].
  2:{ apply t_ret. intros σ _ _ [_ NB]. split; [discriminate|]. intros B0. contradiction. }
  pre (fun σ => exists es, ((P σ /\ (sp <> None -> present (gen_at σ k) SLargeTree d)) /\
        (tree_in C (log σ) d b /\ entries_avail (gen_at σ k) es)) /\ (parse_tree b = Some es /\ hash KTree b = d)).
  2:{ intros σ _ (P0 & ((H1 & H2 & H3) & es & PT & EA) & HS). exists es. split; [|auto].
      split; [auto|]. split; [|exact EA]. repeat split; auto. }
  apply triple_ex. intros es. apply triple_pure. intros [PT Hd].
  rewrite (read_tree_data b d es Hd PT).
  (* the entries *)
  eapply (triple_seq C shared) with (Q1 := fun ok σ =>
     (ok = true -> forall e, In e es -> avail (gen_at σ 0) (fst (snd e)) (fst e)) /\ (B -> ok = true));
    [stab| | ].
  { apply (triple_all_of C shared es _ _ (fun e σ => avail (gen_at σ 0) (fst (snd e)) (fst e)) B);
      [stab|intros; stab|].
    intros [i [t0 ts]] Hin. cbn [fst snd].
    apply (t_uplink_ref B); auto; [stab|intuition| |].
    - intros σ (_ & _ & EA). eapply EA; [exact Hin|now left].
    - intros It. eapply t_post.
      + apply (triple_lim (fun σ => (P σ /\ (sp <> None -> present (gen_at σ k) SLargeTree d)) /\
           tree_in C (log σ) d b /\ entries_avail (gen_at σ k) es)
           (fun σ => B -> exists c0, hash KTree c0 = i /\ In (KTree, c0) (log σ) /\ ranked C (log σ) n c0)).
        * intros σ [NC _] I0 ((P0 & _) & (H1 & H2 & _) & _) B0.
          destruct (HB σ I0 P0 B0) as (_ & b' & B1 & B2 & B3).
          assert (b' = b) as -> by (apply (NC KTree b' KTree b B2 H2); congruence).
          apply (B3 es i t0 ts t0 PT Hin); [now left|exact It].
        * apply (IH B); auto; [stab|intuition|].
          intros σ _ ((_ & _ & EA) & HX) B0. split; [|auto].
          pose proof (EA i t0 ts t0 Hin (or_introl eq_refl)) as A. unfold avail in A. now rewrite It in A.
      + intros r σ _ _ [H1 H2]. split; [intros Hr; now apply H1|exact H2]. }
  intros [|]; cbn beta iota.
  2:{ apply t_ret. intros σ _ _ (_ & _ & NB). split; [discriminate|exact NB]. }
  apply (triple_lim _ (fun σ => entries_avail (gen_at σ 0) es)).
  { intros σ Li I0 ((_ & _ & EA) & HF & _). apply (entries_from_first σ k); auto. }
  pre (fun σ => (P σ /\ entries_avail (gen_at σ 0) es) /\ ((sp <> None -> present (gen_at σ k) SLargeTree d) /\ In (KTree, b) (log σ))).
  2:{ intros σ _ ((((P0 & HS) & (_ & HI & _) & _) & _) & EA). auto. }
  assert (TST : forall P', ST P' -> (forall σ, P' σ -> sz σ /\ entries_avail (gen_at σ 0) es) ->
     T P' (r <- LocalStore C 0 STree b ;; ret (is_some r))
       (fun r σ => (r = true -> avail_tree (gen_at σ 0) d /\ (sr = true -> present (gen_at σ 0) STree d)) /\ (B -> r = true))).
  { intros P' SP' HP'. eapply (triple_seq C shared); [stab|eapply t_LocalStore_tree; eauto; [intros σ H; now apply HP'|intros σ H; now apply HP']| ].
    intros r. cbn beta. apply t_ret. rewrite Hd. intros σ _ _ (_ & -> & H). split; [|auto].
    intros _. split; [now left|auto]. }
  destruct sp as [b0|]; cbn [is_some].
  - eapply (triple_seq C shared); [stab|apply (t_LocalUplinkLarge True); auto| ].
    + stab.
    + intuition.
    + intros σ ((P0 & EA) & HS & HI) _. exists b, es. auto.
    + intros σ _ (_ & HS & _) _. apply HS. discriminate.
    + intros p. apply t_uplink_part; auto; [stab|lia|intuition].
    + intros r0. cbn beta.
      pre (fun σ => (P σ /\ entries_avail (gen_at σ 0) es) /\ present (gen_at σ 0) SLargeTree d).
      2:{ intros σ _ ((H & _) & H'). destruct (H' Logic.I). auto. }
      destruct sr.
      * apply TST; [stab|]. intros σ ((P0 & EA) & _). auto.
      * apply t_ret. intros σ _ _ (_ & H). split; [|auto]. intros _. split; [now right|discriminate].
  - apply TST; [stab|]. intros σ ((P0 & EA) & _). auto.
Qed.

Lemma fuel_rank : forall σ k i, limits C (log σ) -> Inv C σ -> avail_tree (gen_at σ k) i ->
  exists b, hash KTree b = i /\ In (KTree, b) (log σ) /\ ranked C (log σ) fuel b.
Proof.
  intros σ k i [_ F] [_ I0] A. destruct (ok_avail_tree C _ _ _ (I0 k) A) as (b & (H1 & H2 & H3) & _).
  exists b. split; [exact H1|]. split; [exact H2|]. eapply ranked_mono; [|(idtac)|exact H3]; auto. lia.
Qed.

Lemma t_uplink_tree (B : Prop) (P : store -> Prop) k d sr : ST P -> k < N -> (forall σ, P σ -> sz σ) ->
  (forall σ, Inv C σ -> P σ -> B -> avail_tree (gen_at σ k) d) ->
  T P (LocalUplinkGitTree C fuel k d sr) (fun r σ =>
    (r = true -> avail_tree (gen_at σ 0) d /\ (sr = true -> present (gen_at σ 0) STree d)) /\ (B -> r = true)).
Proof.
  intros SP Hk SZ HB.
  apply (triple_lim _ (fun σ => B -> exists b, hash KTree b = d /\ In (KTree, b) (log σ) /\ ranked C (log σ) fuel b)).
  - intros σ Li I0 P0 B0. apply (fuel_rank σ k); auto.
  - apply t_LocalUplinkGitTree; auto; [stab|intuition|]. intros σ I0 (P0 & H) B0. split; auto.
Qed.

Lemma t_uplink_ref_full (P : store -> Prop) k t d : ST P -> k < N -> (forall σ, P σ -> sz σ) ->
  (forall σ, P σ -> avail (gen_at σ k) t d) ->
  T P (uplink_ref C (fun i => LocalUplinkGitTree C fuel k i false) k t d)
    (fun r σ => r = true /\ avail (gen_at σ 0) t d).
Proof.
  intros SP Hk SZ HA.
  eapply t_post; [apply (t_uplink_ref True); auto| ].
  - intros It. eapply t_post; [apply (t_uplink_tree True); auto| ].
    + intros σ _ P0 _. specialize (HA σ P0). unfold avail in HA. now rewrite It in HA.
    + intros r σ _ _ [H1 H2]. split; [intros Hr; now apply H1|exact H2].
  - intros r σ _ _ [H1 H2]. specialize (H2 Logic.I). auto.
Qed.

(** ** All generations *)

Definition large_of (s : slot) : slot := match s with STree => SLargeTree | _ => SLargeFile end.

Lemma t_callback (B : Prop) k0 (P : store -> Prop) s d : ST P -> object_slot s = true -> k0 < N ->
  (forall σ, P σ -> sz σ) ->
  (forall σ, Inv C σ -> P σ -> B -> present (gen_at σ k0) s d \/ present (gen_at σ k0) (large_of s) d) ->
  T P (exists_callback C s d) (fun r σ => (r = true -> present (gen_at σ 0) s d) /\ (B -> r = true)).
Proof.
  intros SP O Hk0 SZ HB. apply triple_fuel. intros F.
  assert (BL : forall x, s = blob_slot x -> T P (UplinkBlob C d x)
     (fun r σ => (r = true -> present (gen_at σ 0) s d) /\ (B -> r = true))).
  { intros x ->. unfold UplinkBlob.
    eapply t_post; [apply (triple_generations C shared _ P (fun σ => present (gen_at σ 0) (blob_slot x) d)
       (fun k => B /\ k = k0) N); auto| ].
    - intros k Hk. eapply t_post; [apply (t_LocalUplinkBlob (B /\ k = k0)); auto| ].
      + intros σ I0 P0 [B0 ->]. destruct (HB σ I0 P0 B0) as [H|H]; [now left|]. right; left. now destruct x.
      + intros r σ _ _ [H1 H2]. split; [intros Hr; now apply H1|exact H2].
    - intros r σ _ _ [H1 H2]. split; [exact H1|]. intros B0. apply H2. eauto. }
  destruct s; try discriminate O; cbn [exists_callback].
  - apply (BL false eq_refl).
  - apply (BL true eq_refl).
  - unfold UplinkTree.
    eapply t_post; [apply (triple_generations C shared _ P (fun σ => present (gen_at σ 0) STree d)
       (fun k => B /\ k = k0) N); auto| ].
    + intros k Hk. eapply t_post; [apply (t_uplink_tree (B /\ k = k0)); auto| ].
      * intros σ I0 P0 [B0 ->]. destruct (HB σ I0 P0 B0) as [H|H]; [now left|now right].
      * intros r σ _ _ [H1 H2]. split; [intros Hr; now apply H1|exact H2].
    + intros r σ _ _ [H1 H2]. split; [exact H1|]. intros B0. apply H2. eauto.
Qed.

Lemma exact_blob : forall σ k x b, limits C (log σ) -> Inv C σ -> In (KBlob, b) (log σ) ->
  present (gen_at σ k) (blob_slot x) (hash KBlob b) ->
  lookup (gen_at σ k) (blob_slot x) (hash KBlob b) = Some (Bytes b).
Proof.
  intros σ k x b [NC _] [_ I0] Hin H. destruct (ok_blob C _ _ x _ (I0 k) H) as (b' & L & H1 & H2).
  destruct (NC _ _ _ _ H2 Hin H1) as [_ ->]. exact L.
Qed.

Lemma t_Store_blob (P : store -> Prop) x b : ST P -> (forall σ, P σ -> sz σ) ->
  T P (Store C (blob_slot x) b) (fun r σ => r = Some (hash KBlob b) /\
    lookup (gen_at σ 0) (blob_slot x) (hash KBlob b) = Some (Bytes b)).
Proof.
  intros SP SZ. unfold Store.
  assert (KB : kind_of (blob_slot x) = KBlob) by now destruct x. rewrite KB.
  eapply (triple_seq C shared); [stab|apply t_note; stab| ]. intros u. cbn beta.
  eapply (triple_seq C shared); [stab|apply (t_callback False 0); [stab|now destruct x|lia|intuition|tauto]| ].
  intros [|]; cbn beta iota.
  - apply t_ret. intros σ Li I0 ((_ & Hin) & H & _). split; [reflexivity|]. apply exact_blob; auto.
  - eapply (triple_seq C shared); [stab|apply t_add; [stab|lia|intuition|auto| |intros; congruence]| ].
    + intros σ _ _ ((_ & Hin) & _) _. destruct x; cbn; exists b; split; auto; split; auto.
    + intros r. apply t_ret. intros σ Li I0 (((_ & Hin) & _) & -> & H). split; [reflexivity|]. apply exact_blob; auto.
Qed.

Lemma t_Store_tree (P : store -> Prop) b es : ST P -> (forall σ, P σ -> sz σ) ->
  parse_tree b = Some es -> (forall σ, P σ -> entries_avail (gen_at σ 0) es) ->
  T P (Store C STree b) (fun r σ => r = Some (hash KTree b) /\ present (gen_at σ 0) STree (hash KTree b) /\
     In (KTree, b) (log σ)).
Proof.
  intros SP SZ PT EA. unfold Store. cbn [kind_of].
  eapply (triple_seq C shared); [stab|eapply t_note_tree; eauto| ]. intros u. cbn beta.
  eapply (triple_seq C shared); [stab|apply (t_callback False 0); [stab|reflexivity|lia|intuition|tauto]| ].
  intros [|]; cbn beta iota.
  - apply t_ret. intros σ Li I0 ((_ & _ & Hin & _) & H & _). auto.
  - eapply (triple_seq C shared); [stab|apply t_add; [stab|lia|intuition|auto| |intros; congruence]| ].
    + intros σ _ _ ((H & TI) & _) _. cbn. exists b. split; auto. split; [exact TI|]. eauto.
    + intros r. apply t_ret. intros σ Li I0 (((_ & _ & Hin & _) & _) & -> & H). auto.
Qed.

Lemma t_BlobPath (B : Prop) k0 (P : store -> Prop) d x : ST P -> k0 < N -> (forall σ, P σ -> sz σ) ->
  (forall σ, Inv C σ -> P σ -> B -> avail_blob (gen_at σ k0) d) ->
  T P (BlobPath C d x) (fun r σ => (r = true -> present (gen_at σ 0) (blob_slot x) d) /\ (B -> r = true)).
Proof.
  intros SP Hk SZ HB. unfold BlobPath, BlobPathNoSync.
  assert (O : forall y, object_slot (blob_slot y) = true) by now intros [].
  assert (LO : forall y, large_of (blob_slot y) = SLargeFile) by now intros [].
  apply (triple_case (fun σ => present (gen_at σ k0) (blob_slot x) d \/ present (gen_at σ k0) SLargeFile d)).
  { intros σ. destruct (present_dec (gen_at σ k0) (blob_slot x) d) as [H|H]; [now left; left|].
    destruct (present_dec (gen_at σ k0) SLargeFile d) as [H'|H']; [now left; right|].
    right. intros [|]; auto. }
  - eapply (triple_seq C shared); [stab|apply (t_callback True k0); [stab|apply O|exact Hk|intuition|]| ].
    { intros σ _ (_ & H) _. rewrite LO. exact H. }
    intros r. cbn beta.
    pre (fun σ => present (gen_at σ 0) (blob_slot x) d /\ r = true); [|intros; tauto].
    apply triple_pure. intros ->. apply t_ret. auto.
  - pre (fun σ => P σ /\ (B -> present (gen_at σ k0) (blob_slot (negb x)) d)).
    2:{ intros σ I0 (P0 & ND). split; [exact P0|]. intros B0.
        destruct x; cbn in *; destruct (HB σ I0 P0 B0) as [H|[H|H]]; auto; destruct ND; auto. }
    eapply (triple_seq C shared); [stab|apply (t_callback False 0); [stab|apply O|lia|intuition|tauto]| ].
    intros [|]; cbn beta iota.
    { apply t_ret. intros σ _ _ (_ & H & _). auto. }
    pre (fun σ => P σ /\ (B -> present (gen_at σ k0) (blob_slot (negb x)) d)); [|tauto].
    eapply (triple_seq C shared); [stab|apply (t_callback B k0); [stab|apply O|exact Hk|intuition|intuition]| ].
    intros [|]; cbn beta iota.
    2:{ apply t_ret. intros σ _ _ (_ & _ & H). split; [discriminate|exact H]. }
    pre (fun σ => P σ /\ present (gen_at σ 0) (blob_slot (negb x)) d); [|tauto].
    eapply (triple_seq C shared); [stab|apply (t_read True); [stab|apply O|tauto]| ].
    intros [b|]; cbn beta.
    2:{ apply t_ret. intros σ _ _ (_ & _ & H). now destruct (H Logic.I). }
    pre (fun σ => P σ /\ hash KBlob b = d).
    2:{ intros σ _ ((P0 & _) & (_ & H & _) & _). split; [exact P0|]. now destruct x. }
    apply triple_pure. intros <-. unfold StoreBlob.
    eapply (triple_seq C shared); [stab|apply t_Store_blob; auto| ].
    intros r. cbn beta.
    pre (fun σ => (P σ /\ present (gen_at σ 0) (blob_slot x) (hash KBlob b)) /\ r = Some (hash KBlob b)).
    2:{ intros σ _ (P0 & E & L). split; [split; [exact P0|unfold present; congruence]|exact E]. }
    apply triple_pure. intros ->. cbn [is_some].
    eapply t_post; [apply (t_callback True 0); [stab|apply O|lia|intuition|tauto]| ].
    intros r σ _ _ [H1 H2]. split; [exact H1|]. intros _. now apply H2.
Qed.

Lemma t_ReadBlob (B : Prop) k0 (P : store -> Prop) d x : ST P -> k0 < N -> (forall σ, P σ -> sz σ) ->
  (forall σ, Inv C σ -> P σ -> B -> avail_blob (gen_at σ k0) d) ->
  T P (ReadBlob C d x) (fun r σ =>
    match r with
    | Some b => lookup (gen_at σ 0) (blob_slot x) d = Some (Bytes b) /\ blob_ok C (log σ) d b
    | None => True
    end /\ (B -> r <> None)).
Proof.
  intros SP Hk SZ HB. unfold ReadBlob.
  eapply (triple_seq C shared); [stab|apply (t_BlobPath B k0); auto| ].
  intros [|]; cbn beta iota.
  - eapply t_post; [apply (t_read True); [stab|now destruct x|tauto]| ].
    intros [b|] σ _ _ [H1 H2].
    + split; [|discriminate]. destruct H1 as (L & H3 & H4). split; [exact L|]. destruct x; now split.
    + now destruct (H2 Logic.I).
  - apply t_ret. intros σ _ _ (_ & _ & H). split; [exact Logic.I|]. intros B0. discriminate (H B0).
Qed.

Lemma t_ReadTree (B : Prop) k0 (P : store -> Prop) d : ST P -> k0 < N -> (forall σ, P σ -> sz σ) ->
  (forall σ, Inv C σ -> P σ -> B -> avail_tree (gen_at σ k0) d) ->
  T P (ReadTree C d) (fun r σ =>
    match r with
    | Some b => lookup (gen_at σ 0) STree d = Some (Bytes b) /\ tree_ok C (log σ) (gen_at σ 0) d b
    | None => True
    end /\ (B -> r <> None)).
Proof.
  intros SP Hk SZ HB. unfold ReadTree, TreePath.
  eapply (triple_seq C shared); [stab|apply (t_callback B k0); auto| ].
  intros [|]; cbn beta iota.
  - eapply t_post; [apply (t_read True); [stab|reflexivity|tauto]| ].
    intros [b|] σ _ I0 [H1 H2].
    + split; [|discriminate]. destruct H1 as (L & H3 & H4). split; [exact L|].
      destruct (proj2 I0 0 _ _ _ L) as (b' & Eb & TO). injection Eb as <-. exact TO.
    + now destruct (H2 Logic.I).
  - apply t_ret. intros σ _ _ (_ & _ & H). split; [exact Logic.I|]. intros B0. discriminate (H B0).
Qed.

(** ** Large objects *)
Lemma t_GetEntryPath (P : store -> Prop) ls d : ST P -> (forall σ, P σ -> sz σ) ->
  T P (GetEntryPath C None ls d) (fun r σ => r = true -> present (gen_at σ 0) ls d).
Proof.
  intros SP SZ. apply triple_fuel. intros F. unfold GetEntryPath. cbn [place].
  eapply (triple_seq C shared); [stab|apply (t_is_file False); [stab|tauto]| ].
  intros [|]; cbn beta iota.
  { apply t_ret. intros σ _ _ (_ & H & _). exact H. }
  pre P; [|tauto].
  eapply (triple_seq C shared) with (Q1 := fun _ _ => True); [stab| | ].
  - unfold UplinkLargeBlob.
    eapply t_post; [apply (triple_generations C shared _ P (fun _ => True) (fun _ => False) N); auto| ].
    + intros k Hk. eapply t_post; [apply (t_LocalUplinkLarge False); auto| ].
      * intros σ _ E. discriminate E.
      * tauto.
      * intros p. apply t_uplink_part; auto. lia.
      * intros r σ _ _ _. tauto.
    + auto.
  - intros [|]; cbn beta iota.
    + eapply t_post; [apply (t_is_file False); [stab|tauto]| ]. intros r σ _ _ [H _]. exact H.
    + apply t_ret. discriminate.
Qed.

Lemma t_ReadEntry (P : store -> Prop) ls d : ST P -> large_slot ls = true -> (forall σ, P σ -> sz σ) ->
  T P (ReadEntry C None ls d) (fun r σ =>
    match r with
    | Some ps => exists b, ps = map (hash KBlob) (chunker b) /\ 2 <= length (chunker b) /\
        chunks_at C (gen_at σ 0) b /\ held ls σ 0 d b
    | None => True
    end).
Proof.
  intros SP LS SZ. unfold ReadEntry. cbn [place].
  eapply (triple_seq C shared); [stab|apply t_GetEntryPath; auto| ].
  intros [|]; cbn beta iota.
  - pre P; [|tauto]. eapply t_post; [apply (t_entry False); auto; tauto| ].
    intros r σ _ _ [H _]. exact H.
  - apply t_ret. auto.
Qed.

Definition source_slots (ls : slot) : list slot :=
  match ls with SLargeTree => [STree] | _ => [SFile; SExec] end.

Lemma source_object : forall ls s, In s (source_slots ls) -> object_slot s = true.
Proof. intros [] s; cbn; intuition; subst; reflexivity. Qed.

(** The object belonging to a large entry is available. *)
Definition large_avail (ls : slot) (g : gen) (d : id) : Prop :=
  match ls with SLargeTree => avail_tree g d | _ => avail_blob g d end.
Lemma st_large_avail : forall ls k d, ST (fun σ => large_avail ls (gen_at σ k) d).
Proof. intros [] k d; cbn [large_avail]; stab. Qed.

Lemma t_split_source (B : Prop) k0 (P : store -> Prop) ls d : ST P -> large_slot ls = true -> k0 < N ->
  (forall σ, P σ -> sz σ) ->
  (forall σ, Inv C σ -> P σ -> B -> large_avail ls (gen_at σ k0) d) ->
  T P (split_source C None ls d) (fun r σ =>
    match r with
    | Some b => exists s, In s (source_slots ls) /\ lookup (gen_at σ 0) s d = Some (Bytes b)
    | None => ~ B
    end).
Proof.
  intros SP LS Hk SZ HB. unfold split_source. cbn [place cas_path].
  assert (RD : forall s (P' : store -> Prop), ST P' -> object_slot s = true ->
     (forall σ, P' σ -> present (gen_at σ 0) s d) -> T P' (read_file 0 s d) (fun r σ =>
     match r with Some b => lookup (gen_at σ 0) s d = Some (Bytes b) | None => False end)).
  { intros s P' SP' O HP. eapply t_post; [apply (t_read True); [exact SP'|exact O|auto]| ].
    intros [b|] σ _ _ [H H']; [apply H|now apply H']. }
  destruct ls; try discriminate LS; cbn [source_slots large_avail] in *.
  - apply (triple_case (fun σ => present (gen_at σ k0) SFile d \/ present (gen_at σ k0) SLargeFile d)).
    { intros σ. destruct (present_dec (gen_at σ k0) SFile d) as [H|H]; [now left; left|].
      destruct (present_dec (gen_at σ k0) SLargeFile d) as [H'|H']; [now left; right|].
      right. intros [|]; auto. }
    + eapply (triple_seq C shared); [stab|apply (t_callback True k0); [stab|reflexivity|exact Hk|intuition|cbn; tauto]| ].
      intros [|]; cbn beta iota.
      * eapply t_post; [apply RD; [stab|reflexivity|tauto]| ]. intros [b|] σ _ _ H; [|contradiction].
        exists SFile. cbn. auto.
      * pre (fun σ => P σ /\ False); [|intros σ _ (_ & _ & H); discriminate (H Logic.I)].
        apply triple_pure. contradiction.
    + pre (fun σ => P σ /\ (B -> present (gen_at σ k0) SExec d)).
      2:{ intros σ I0 (P0 & ND). split; [exact P0|]. intros B0. destruct (HB σ I0 P0 B0) as [H|[H|H]]; tauto. }
      eapply (triple_seq C shared); [stab|apply (t_callback False 0); [stab|reflexivity|lia|intuition|tauto]| ].
      intros [|]; cbn beta iota.
      * eapply t_post; [apply RD; [stab|reflexivity|tauto]| ]. intros [b|] σ _ _ H; [|contradiction].
        exists SFile. cbn. auto.
      * pre (fun σ => P σ /\ (B -> present (gen_at σ k0) SExec d)); [|tauto].
        eapply (triple_seq C shared); [stab|apply (t_callback B k0); [stab|reflexivity|exact Hk|intuition|cbn; tauto]| ].
        intros [|]; cbn beta iota.
        2:{ apply t_ret. intros σ _ _ (_ & _ & H) B0. discriminate (H B0). }
        eapply t_post; [apply RD; [stab|reflexivity|tauto]| ]. intros [b|] σ _ _ H; [|contradiction].
        exists SExec. cbn. auto.
  - eapply (triple_seq C shared); [stab|apply (t_callback B k0); [stab|reflexivity|exact Hk|exact SZ|exact HB]| ].
    intros [|]; cbn beta iota.
    2:{ apply t_ret. intros σ _ _ (_ & _ & H) B0. discriminate (H B0). }
    eapply t_post; [apply RD; [stab|reflexivity|tauto]| ]. intros [b|] σ _ _ H; [|contradiction].
    exists STree. cbn. auto.
Qed.

Lemma t_store_chunks (P : store -> Prop) cs : ST P -> (forall σ, P σ -> sz σ) ->
  T P (store_chunks C None cs) (fun r σ => r = Some (map (hash KBlob) cs) /\
    forall c, In c cs -> lookup (gen_at σ 0) SFile (hash KBlob c) = Some (Bytes c)).
Proof.
  intros SP SZ. induction cs as [|c cs IH]; cbn [store_chunks map].
  - apply t_ret. intros σ _ _ _. split; [reflexivity|intros c []].
  - cbn [cas_store].
    eapply (triple_seq C shared); [stab|apply (t_Store_blob P false); auto| ].
    intros r. cbn beta.
    pre (fun σ => (P σ /\ lookup (gen_at σ 0) SFile (hash KBlob c) = Some (Bytes c)) /\ r = Some (hash KBlob c)); [|intros; tauto].
    apply triple_pure. intros ->.
    eapply (triple_seq C shared); [stab|eapply triple_pre; [exact IH|tauto]| ].
    intros r. apply t_ret. intros σ _ _ ((_ & H) & -> & H'). split; [reflexivity|].
    intros c' [<-|Hc]; auto.
Qed.

(** The contents a source of the large object ensures. *)
Lemma source_entry : forall σ ls d b s, Inv C σ -> large_slot ls = true -> In s (source_slots ls) ->
  lookup (gen_at σ 0) s d = Some (Bytes b) ->
  hash (kind_of ls) b = d /\ In (kind_of ls, b) (log σ) /\
  (2 <= length (chunker b) -> chunks_at C (gen_at σ 0) b ->
   entry_ok C (log σ) (gen_at σ 0) ls d (Parts (map (hash KBlob) (chunker b)))).
Proof.
  intros σ ls d b s [_ I0] LS HS L. pose proof (I0 0 _ _ _ L) as OK.
  destruct ls; try discriminate LS; cbn in HS |- *.
  - assert (X : blob_ok C (log σ) d b).
    { destruct HS as [<-|[<-|[]]]; destruct OK as (b' & E & H); injection E as <-; exact H. }
    destruct X as [H1 H2]. split; [exact H1|]. split; [exact H2|]. intros L2 HC. exists b. now repeat split.
  - destruct HS as [<-|[]]. destruct OK as (b' & E & TO). injection E as <-.
    destruct TO as [(H1 & H2 & H3) H4]. split; [exact H1|]. split; [exact H2|]. intros L2 HC.
    exists b. split; [|now repeat split]. split; [now repeat split|exact H4].
Qed.

Lemma t_Split (B : Prop) k0 (P : store -> Prop) ls d : ST P -> large_slot ls = true -> k0 < N ->
  (forall σ, P σ -> sz σ) ->
  (forall σ, Inv C σ -> P σ -> B -> large_avail ls (gen_at σ k0) d) ->
  T P (Split C None ls d) (fun r σ =>
    match r with
    | Some ps => exists b, hash (kind_of ls) b = d /\ In (kind_of ls, b) (log σ) /\
        ps = map (hash KBlob) (chunker b) /\ chunks_at C (gen_at σ 0) b /\
        large_avail ls (gen_at σ 0) d
    | None => ~ B
    end).
Proof.
  intros SP LS Hk SZ HB. unfold Split.
  eapply (triple_seq C shared); [stab|apply t_ReadEntry; auto| ].
  intros [ps|]; cbn beta.
  { apply t_ret. intros σ _ _ (_ & b & E & _ & HC & H1 & H2 & H3 & _). exists b.
    repeat (split; [assumption|]). destruct ls; try discriminate LS; cbn; [right; right|right]; exact H3. }
  pre P; [|tauto].
  eapply (triple_seq C shared); [stab|apply (t_split_source B k0); auto| ].
  intros [b|]; cbn beta; [|apply t_ret; tauto].
  pre (fun σ => exists s, (P σ /\ lookup (gen_at σ 0) s d = Some (Bytes b)) /\ In s (source_slots ls)).
  2:{ intros σ _ (P0 & s & H1 & H2). exists s. auto. }
  apply triple_ex. intros s. apply triple_pure. intros HS.
  assert (SL : ST (fun σ => lookup (gen_at σ 0) s d = Some (Bytes b)))
    by (apply st_lookup; eapply source_object; eauto).
  eapply (triple_seq C shared); [stab|apply t_attempt; stab| ].
  intros r. cbn beta. apply triple_pure. intros ->. cbn iota.
  eapply (triple_seq C shared); [stab|apply t_store_chunks; [stab|intuition]| ].
  intros r. cbn beta.
  pre (fun σ => ((P σ /\ lookup (gen_at σ 0) s d = Some (Bytes b)) /\ chunks_at C (gen_at σ 0) b) /\
    r = Some (map (hash KBlob) (chunker b))); [|intros; tauto].
  apply triple_pure. intros ->.
  eapply (triple_seq C shared); [stab|apply t_attempt; stab| ].
  intros r. cbn beta. apply triple_pure. intros ->. cbn iota.
  eapply (triple_seq C shared) with (Q1 := fun _ _ => True); [stab| | ].
  - unfold WriteEntry. cbn [place].
    eapply (triple_seq C shared); [stab|apply t_GetEntryPath; [stab|intuition]| ].
    intros [|]; cbn beta iota; [apply t_ret; auto|].
    rewrite map_length. destruct (length (chunker b) <? 2) eqn:E; [apply t_ret; auto|].
    apply Nat.ltb_ge in E.
    eapply t_post; [apply t_add; [stab|lia|intuition|right; split; [reflexivity|now destruct ls]| |intros; congruence]|auto].
    intros σ _ I0 (((P0 & L) & HC) & _) _.
    destruct (source_entry σ ls d b s I0 LS HS L) as (_ & _ & H). auto.
  - intros r. apply t_ret. intros σ _ I0 (((P0 & L) & HC) & _). exists b.
    destruct (source_entry σ ls d b s I0 LS HS L) as (H1 & H2 & _).
    repeat (split; [auto; fail|]). assert (PR : present (gen_at σ 0) s d) by (unfold present; congruence).
    destruct ls; try discriminate LS; cbn in HS |- *.
    + destruct HS as [<-|[<-|[]]]; [left|right; left]; exact PR.
    + destruct HS as [<-|[]]. left. exact PR.
Qed.

(** ** Checked trees *)
Lemma t_check_item (B : Prop) k0 (P : store -> Prop) j t : ST P -> k0 < N -> (forall σ, P σ -> sz σ) ->
  (forall σ, Inv C σ -> P σ -> B -> avail (gen_at σ k0) t j) ->
  T P (check_item C j t) (fun r σ => (r = true -> avail (gen_at σ 0) t j) /\ (B -> r = true)).
Proof.
  intros SP Hk SZ HB. unfold check_item, avail in *. destruct (IsTreeObject t).
  - eapply (triple_seq C shared); [stab|apply t_GetEntryPath; auto| ].
    intros [|]; cbn beta iota.
    + apply t_ret. intros σ _ _ (_ & H). split; [|auto]. intros _. right; auto.
    + pre P; [|tauto]. eapply t_post; [apply (t_callback B k0); [stab|reflexivity|exact Hk|exact SZ|exact HB]| ].
      intros r σ _ _ [H H']. split; [|exact H']. intros E. left; auto.
  - eapply (triple_seq C shared); [stab|apply t_GetEntryPath; auto| ].
    intros [|]; cbn beta iota.
    + apply t_ret. intros σ _ _ (_ & H). split; [|auto]. intros _. right; right; auto.
    + pre P; [|tauto]. eapply t_post; [apply (t_BlobPath B k0); auto| ].
      intros r σ _ _ [H H']. split; [|exact H']. intros E. specialize (H E).
      destruct (IsExecutableObject t); [right; left|left]; exact H.
Qed.

Lemma t_CheckTreeInvariant (B : Prop) k0 (P : store -> Prop) d b : ST P -> k0 < N -> (forall σ, P σ -> sz σ) ->
  (forall σ, Inv C σ -> P σ -> B -> hash KTree b = d /\
     exists es, parse_tree b = Some es /\ entries_avail (gen_at σ k0) es) ->
  T P (CheckTreeInvariant C d b) (fun r σ => (r = true ->
    hash KTree b = d /\ exists es, parse_tree b = Some es /\ entries_avail (gen_at σ 0) es) /\ (B -> r = true)).
Proof.
  intros SP Hk SZ HB. unfold CheckTreeInvariant, ReadTreeData.
  destruct (String.eqb_spec (hash KTree b) d) as [E|].
  2:{ apply t_ret. intros σ _ I0 P0. split; [discriminate|]. intros B0. destruct (HB σ I0 P0 B0). contradiction. }
  destruct (parse_tree b) as [es|] eqn:PT.
  2:{ apply t_ret. intros σ _ I0 P0. split; [discriminate|]. intros B0.
      destruct (HB σ I0 P0 B0) as (_ & es & X & _). discriminate X. }
  eapply t_post; [apply (triple_all_of C shared es _ P
    (fun e σ => forall t, In t (fst (snd e) :: snd (snd e)) -> avail (gen_at σ 0) t (fst e)) B); auto| ].
  - intros; stab.
  - intros e He. eapply t_post; [apply (triple_all_of C shared _ _ P
      (fun t σ => avail (gen_at σ 0) t (fst e)) B); auto| ].
    + intros; stab.
    + intros t Ht. apply (t_check_item B k0); auto. intros σ I0 P0 B0.
      destruct (HB σ I0 P0 B0) as (_ & es' & X & EA). injection X as <-.
      destruct e as [i [t0 ts]]. exact (EA i t0 ts t He Ht).
    + auto.
  - intros r σ _ _ [H H']. split; [|exact H']. intros Er. split; [exact E|]. exists es. split; [reflexivity|].
    intros i t0 ts t Hin Ht. exact (H Er _ Hin t Ht).
Qed.

(** Splicing given parts. *)
Definition parts_at (k0 : nat) (cs : list bytes) (σ : store) : Prop :=
  forall c, In c cs -> avail_blob (gen_at σ k0) (hash KBlob c) /\ In (KBlob, c) (log σ).

Lemma t_splice_any (B : Prop) k0 cs (P : store -> Prop) parts : ST P -> k0 < N -> (forall σ, P σ -> sz σ) ->
  (forall σ, Inv C σ -> P σ -> B -> parts = map (hash KBlob) cs /\ parts_at k0 cs σ) ->
  T P (splice (fun q => BlobPath C q false) 0 parts) (fun r _ => B -> r = Some (concat_bytes cs)).
Proof.
  intros SP Hk SZ HB. unfold splice.
  eapply (triple_seq C shared); [stab|apply t_attempt; stab| ].
  intros r. cbn beta. apply triple_pure. intros ->.
  revert cs HB. induction parts as [|p parts IH]; intros cs HB; cbn [splice_parts].
  { apply t_ret. intros σ _ I0 P0 B0. destruct (HB σ I0 P0 B0) as [E _]. now destruct cs. }
  eapply (triple_seq C shared); [stab|apply (t_BlobPath B k0); auto| ].
  { intros σ I0 P0 B0. destruct (HB σ I0 P0 B0) as [E H]. destruct cs as [|c cs]; [discriminate E|].
    injection E as -> _. apply (H c). now left. }
  intros [|]; cbn beta iota.
  2:{ apply t_ret. intros σ _ _ (_ & _ & H) B0. discriminate (H B0). }
  eapply (triple_seq C shared); [stab|apply (t_read True); [stab|reflexivity|cbn; tauto]| ].
  intros [b|]; cbn beta.
  2:{ pre (fun σ => P σ /\ False); [|intros σ _ (_ & _ & H); now destruct (H Logic.I)].
      apply triple_pure. contradiction. }
  apply (triple_lim _ (fun _ => B -> exists cs', cs = b :: cs')).
  { intros σ [NC _] I0 ((P0 & _) & (L & Hh & Hi) & _) B0. destruct (HB σ I0 P0 B0) as [E H].
    destruct cs as [|c cs]; [discriminate E|]. injection E as Ep _. exists cs. f_equal.
    destruct (H c (or_introl eq_refl)) as [_ Hc]. cbn [kind_of] in *.
    destruct (NC _ _ _ _ Hc Hi) as [_ X]; [congruence|exact X]. }
  pre (fun σ => P σ /\ (B -> exists cs', cs = b :: cs')); [|intros; tauto].
  apply triple_pure. intros HC.
  eapply (triple_seq C shared); [stab|apply (IH (tl cs))| ].
  { intros σ I0 P0 B0. destruct (HB σ I0 P0 B0) as [E H]. destruct (HC B0) as [cs' ->]. cbn.
    injection E as _ E. split; [exact E|]. intros c Hc. apply H. now right. }
  intros r. apply t_ret. intros σ _ _ (_ & H) B0. rewrite (H B0). destruct (HC B0) as [cs' ->]. reflexivity.
Qed.

Lemma t_Splice (B : Prop) k0 cs (P : store -> Prop) s d parts : ST P -> object_slot s = true -> k0 < N ->
  (forall σ, P σ -> sz σ) ->
  (forall σ, Inv C σ -> P σ -> B -> parts = map (hash KBlob) cs /\ parts_at k0 cs σ /\
     hash (kind_of s) (concat_bytes cs) = d /\
     (s = STree -> exists es, parse_tree (concat_bytes cs) = Some es /\ entries_avail (gen_at σ k0) es)) ->
  T P (Splice C s d parts) (fun r σ => match r with
    | Some i => i = d /\ present (gen_at σ 0) s d
    | None => ~ B end).
Proof.
  intros SP O Hk SZ HB. unfold Splice.
  eapply (triple_seq C shared) with (Q1 := fun p σ => p = true -> present (gen_at σ 0) s d);
    [stab| | ].
  { destruct s; try discriminate O.
    - eapply t_post; [apply (t_BlobPath False 0); auto; intros; contradiction| ]. intros r σ _ _ [H _]. exact H.
    - eapply t_post; [apply (t_BlobPath False 0); auto; intros; contradiction| ]. intros r σ _ _ [H _]. exact H.
    - eapply t_post; [apply (t_callback False 0); auto; intros; contradiction| ]. intros r σ _ _ [H _]. exact H. }
  intros [|]; cbn beta iota.
  { apply t_ret. intros σ _ _ (_ & H). auto. }
  pre P; [|tauto].
  eapply (triple_seq C shared); [stab|apply (t_splice_any B k0 cs); auto| ].
  { intros σ I0 P0 B0. destruct (HB σ I0 P0 B0) as (H1 & H2 & _). auto. }
  intros [b|]; cbn beta.
  2:{ apply t_ret. intros σ _ _ (_ & H) B0. discriminate (H B0). }
  pre (fun σ => P σ /\ (B -> b = concat_bytes cs)).
  2:{ intros σ _ (P0 & H). split; [exact P0|]. intros B0. specialize (H B0). congruence. }
  apply triple_pure. intros Eb.
  destruct (String.eqb_spec (hash (kind_of s) b) d) as [E|NE].
  2:{ apply t_ret. intros σ _ I0 P0 B0. destruct (HB σ I0 P0 B0) as (_ & _ & H & _).
      rewrite <- (Eb B0) in H. contradiction. }
  assert (BL : forall x, s = blob_slot x -> T P (ok <- ret true ;; if (ok : bool) then Store C s b else ret None)
     (fun r σ => match r with Some i => i = d /\ present (gen_at σ 0) s d | None => ~ B end)).
  { intros x ->. assert (Hd : hash KBlob b = d) by now destruct x.
    eapply (triple_seq C shared) with (Q1 := fun r _ => r = true); [stab|apply t_ret; auto| ].
    intros r. cbn beta. apply triple_pure. intros ->. cbn iota.
    eapply t_post; [apply t_Store_blob; auto| ].
    intros [i|] σ _ _ [H L]; [|discriminate H]. injection H as ->. split; [exact Hd|].
    unfold present. rewrite <- Hd, L. discriminate. }
  destruct s; try discriminate O.
  - exact (BL false eq_refl).
  - exact (BL true eq_refl).
  - cbn [kind_of] in E.
    eapply (triple_seq C shared); [stab|apply (t_CheckTreeInvariant B k0); auto| ].
    { intros σ I0 P0 B0. destruct (HB σ I0 P0 B0) as (_ & _ & _ & H). split; [exact E|].
      rewrite (Eb B0). auto. }
    intros [|]; cbn beta iota.
    2:{ apply t_ret. intros σ _ _ (_ & _ & H) B0. discriminate (H B0). }
    pre (fun σ => exists es, (P σ /\ entries_avail (gen_at σ 0) es) /\ parse_tree b = Some es).
    2:{ intros σ _ (P0 & H & _). destruct (H eq_refl) as (_ & es & PT & EA). exists es. auto. }
    apply triple_ex. intros es. apply triple_pure. intros PT.
    eapply t_post; [eapply t_Store_tree; [stab|intuition|exact PT|intuition]| ].
    intros [i|] σ _ _ (H & H' & _); [|discriminate H]. injection H as ->. split; [exact E|]. now rewrite <- E.
Qed.

Lemma t_AddTree (B : Prop) k0 (P : store -> Prop) d b : ST P -> k0 < N -> (forall σ, P σ -> sz σ) ->
  (forall σ, Inv C σ -> P σ -> B -> hash KTree b = d /\
     exists es, parse_tree b = Some es /\ entries_avail (gen_at σ k0) es) ->
  T P (AddTree C d b) (fun r σ =>
    (r = true -> present (gen_at σ 0) STree d /\ tree_ok C (log σ) (gen_at σ 0) d b) /\ (B -> r = true)).
Proof.
  intros SP Hk SZ HB. unfold AddTree.
  eapply (triple_seq C shared); [stab|apply (t_CheckTreeInvariant B k0); auto| ].
  intros [|]; cbn beta iota.
  2:{ apply t_ret. intros σ _ _ (_ & _ & H). split; [discriminate|exact H]. }
  pre (fun σ => exists es, (P σ /\ entries_avail (gen_at σ 0) es) /\ (parse_tree b = Some es /\ hash KTree b = d)).
  2:{ intros σ _ (P0 & H & _). destruct (H eq_refl) as (Hd & es & PT & EA). exists es. auto. }
  apply triple_ex. intros es. apply triple_pure. intros [PT <-].
  eapply (triple_seq C shared); [stab|eapply t_Store_tree; [stab|intuition|exact PT|intuition]| ].
  intros r. apply t_ret. intros σ Li I0 (_ & -> & H & Hin). rewrite String.eqb_refl. split; [|reflexivity].
  intros _. split; [exact H|].
  apply present_some in H. destruct H as [dd L]. destruct (proj2 I0 0 _ _ _ L) as (b' & -> & TO).
  destruct TO as [(H1 & H2 & H3) H4].
  assert (b' = b) as -> by (apply (proj1 Li KTree b' KTree b H2 Hin H1)). split; [now repeat split|exact H4].
Qed.

(** ** Caches *)
Lemma t_key (B : Prop) (P : store -> Prop) k s a key : ST P -> (s = SAction \/ s = STarget) ->
  (forall σ, Inv C σ -> P σ -> B -> lookup (gen_at σ k) s a = Some (Key key)) ->
  T P (look k s a) (fun e σ => (e = None \/ exists key', e = Some (Key key') /\
        entry_ok C (log σ) (gen_at σ k) s a (Key key') /\ present (gen_at σ k) s a /\
        (k <> 0 -> lookup (gen_at σ k) s a = Some (Key key'))) /\
     (B -> e = Some (Key key))).
Proof.
  intros SP HS HB. eapply t_post; [apply (triple_look C shared P); exact SP| ].
  intros e σ _ I0 (P0 & E). split.
  - destruct e as [d|]; [right|now left]. pose proof (proj2 I0 k _ _ _ E) as OK.
    assert (exists key', d = Key key') as [key' ->].
    { destruct HS as [-> | ->]; [destruct OK as (x & y & z & -> & _)|destruct OK as (x & y & z & u & -> & _)]; eauto. }
    exists key'. repeat split; auto. unfold present. congruence.
  - intros B0. rewrite <- E. auto.
Qed.

(** The common part: making the value of a cache entry available. *)
Lemma t_uplink_refs (P : store -> Prop) k refs : ST P -> k < N -> (forall σ, P σ -> sz σ) ->
  (forall σ, P σ -> refs_avail (gen_at σ k) refs) ->
  T P (all_of refs (fun r => uplink_ref C (fun i => LocalUplinkGitTree C fuel k i false) k (fst r) (snd r)))
    (fun r σ => r = true /\ refs_avail (gen_at σ 0) refs).
Proof.
  intros SP Hk SZ HA.
  eapply t_post; [apply (triple_all_of C shared refs _ P (fun r σ => avail (gen_at σ 0) (fst r) (snd r)) True); auto| ].
  - intros; stab.
  - intros [t i] Hin. eapply t_post; [apply t_uplink_ref_full; auto| ].
    + intros σ P0. apply (HA σ P0). exact Hin.
    + cbn. intros r σ _ _ [-> H]. auto.
  - intros r σ _ _ [H1 H2]. specialize (H2 Logic.I). split; [exact H2|].
    intros t i Hin. exact (H1 H2 _ Hin).
Qed.

Lemma t_uplink_key (P : store -> Prop) k key : ST P -> k < N -> (forall σ, P σ -> sz σ) ->
  (forall σ, P σ -> avail_blob (gen_at σ k) key) ->
  T P (LocalUplinkBlob C fuel k key false false false) (fun r σ => r = true /\ avail_blob (gen_at σ 0) key).
Proof.
  intros SP Hk SZ HA. apply triple_fuel. intros F.
  eapply t_post; [apply (t_LocalUplinkBlob True); auto| ].
  intros r σ _ _ [H1 H2]. specialize (H2 Logic.I). split; [exact H2|]. now apply H1.
Qed.

Lemma t_LocalUplinkAction (B : Prop) (P : store -> Prop) k a key : ST P -> k < N -> (forall σ, P σ -> sz σ) ->
  (forall σ, Inv C σ -> P σ -> B -> (k = 0 /\ present (gen_at σ 0) SAction a) \/
     (k <> 0 /\ lookup (gen_at σ k) SAction a = Some (Key key) /\
      (present (gen_at σ k) SFile key \/ present (gen_at σ k) SExec key))) ->
  T P (LocalUplinkAction C k a) (fun r σ => (r = true -> present (gen_at σ 0) SAction a) /\ (B -> r = true)).
Proof.
  intros SP Hk SZ HB. unfold LocalUplinkAction.
  eapply (triple_bind C shared); [apply (triple_is_file C shared P); exact SP| ].
  intros [|]; cbn beta iota.
  { apply t_ret. intros σ _ _ (_ & H). split; [intros _; now apply H|auto]. }
  pre (fun σ => P σ /\ (B -> k <> 0)).
  2:{ intros σ I0 (P0 & E). split; [exact P0|]. intros B0.
      destruct (HB σ I0 P0 B0) as [[_ H]|[H _]]; [apply E in H; discriminate H|exact H]. }
  eapply (triple_seq C shared);
    [stab|apply (t_key B) with (key := key); [stab|now left|]| ].
  { intros σ I0 (P0 & NZ) B0. specialize (NZ B0). destruct (HB σ I0 P0 B0) as [[H _]|(_ & H & _)]; [lia|exact H]. }
  intros e. cbn beta.
  destruct e as [[b|l|key']|];
    try (apply t_ret; intros σ _ _ (_ & _ & H); split; [discriminate|intros B0; discriminate (H B0)]).
  pre (fun σ => exists b refs, ((P σ /\ (blob_ok C (log σ) key' b /\ avail_blob (gen_at σ k) key' /\ refs_avail (gen_at σ k) refs /\
       present (gen_at σ k) SAction a /\ (k <> 0 -> lookup (gen_at σ k) SAction a = Some (Key key'))))) /\
       (parse_action b = Some refs /\ (B -> k <> 0 /\ key' = key))).
  2:{ intros σ _ ((P0 & NZ) & [H|(key2 & E & (k2 & b & refs & Ek & BO & PA & AV & RA) & HP & HL)] & HK); [discriminate H|].
      injection E as <-. injection Ek as <-. exists b, refs. split; [tauto|]. split; [exact PA|].
      intros B0. split; [auto|]. specialize (HK B0). congruence. }
  apply triple_ex. intros b. apply triple_ex. intros refs. apply triple_pure. intros [PA HK].
  assert (S1 : ST (fun σ => k <> 0 -> lookup (gen_at σ k) SAction a = Some (Key key'))).
  { destruct (Nat.eq_dec k 0) as [E|E].
    - intros σ σ' _ _ _ _ _ H. contradiction.
    - apply st_imp. apply st_lookup_old. exact E. }
  eapply (triple_seq C shared); [stab|apply (t_LocalBlobPath B); [stab|exact Hk|intuition|]| ].
  { intros σ I0 (P0 & _) B0. destruct (HK B0) as [NZ ->].
    destruct (HB σ I0 P0 B0) as [[H _]|(_ & _ & H)]; [lia|exact H]. }
  intros [|]; cbn beta iota.
  2:{ apply t_ret. intros σ _ _ (_ & _ & H). split; [discriminate|exact H]. }
  eapply (triple_seq C shared); [stab|apply (t_read True); [stab|reflexivity|cbn; tauto]| ].
  intros c. cbn beta.
  set (F := fun σ => P σ /\ blob_ok C (log σ) key' b /\ avail_blob (gen_at σ k) key' /\ refs_avail (gen_at σ k) refs /\
       present (gen_at σ k) SAction a /\ (k <> 0 -> lookup (gen_at σ k) SAction a = Some (Key key'))).
  assert (SF : ST F) by (unfold F; stab).
  assert (SZF : forall σ, F σ -> sz σ) by (unfold F; intuition).
  apply (triple_lim _ (fun _ => c = Some b)).
  { intros σ [NC _] I0 (((_ & (H1 & H2) & _) & _) & H3 & H4). destruct c as [c|]; [|now destruct (H4 Logic.I)].
    destruct H3 as (_ & H5 & H6). cbn in H5, H6.
    assert (c = b) as -> by (apply (NC KBlob c KBlob b H6 H2); congruence). reflexivity. }
  apply triple_pure. intros ->. rewrite PA.
  pre F; [|unfold F; tauto].
  eapply (triple_seq C shared); [exact SF|apply t_uplink_refs; auto; unfold F; tauto| ].
  intros r. cbn beta.
  pre (fun σ => (F σ /\ refs_avail (gen_at σ 0) refs) /\ r = true); [|tauto].
  apply triple_pure. intros ->. cbn iota.
  eapply (triple_seq C shared); [stab|apply t_uplink_key; auto; [stab|intuition|unfold F; tauto]| ].
  intros r. cbn beta.
  pre (fun σ => ((F σ /\ refs_avail (gen_at σ 0) refs) /\ avail_blob (gen_at σ 0) key') /\ r = true); [|tauto].
  apply triple_pure. intros ->. cbn iota.
  assert (FIN : forall x P', ST P' -> (forall σ, P' σ -> sz σ) ->
     (forall σ, limits C (log σ) -> Inv C σ -> P' σ -> lookup (gen_at σ 0) SAction a = None -> entry_ok C (log σ) (gen_at σ 0) SAction a x) ->
     T P' (add FirstWins 0 SAction a x) (fun r σ => (r = true -> present (gen_at σ 0) SAction a) /\ (B -> r = true))).
  { intros x P' SP' SZ' OK. eapply t_post; [apply t_add; auto; try (intros; congruence)| ].
    - intros σ Li I0 H [E|E]; [auto|discriminate E].
    - intros r σ _ _ [-> H]. auto. }
  eapply (triple_seq C shared); [stab|apply t_look; stab| ].
  intros [x|]; cbn beta.
  2:{ apply t_ret. intros σ _ _ (((HF & _) & _) & E). unfold F in HF. unfold present in HF. tauto. }
  destruct (Nat.eq_dec k 0) as [->|NZ].
  - pre (fun σ => sz σ /\ present (gen_at σ 0) SAction a).
    2:{ intros σ _ (((HF & _) & _) & _). unfold F in HF. split; [apply SZ|]; tauto. }
    apply FIN; [stab; auto|tauto|]. intros σ _ _ (_ & H) E. now destruct H.
  - pre (fun σ => ((F σ /\ refs_avail (gen_at σ 0) refs) /\ avail_blob (gen_at σ 0) key') /\ x = Key key').
    2:{ intros σ _ (H & E). split; [exact H|]. destruct H as [[HF _] _].
        assert (lookup (gen_at σ k) SAction a = Some (Key key')) by (unfold F in HF; tauto). congruence. }
    apply triple_pure. intros ->. apply FIN; [stab|intuition|].
    intros σ _ _ (((_ & BO & _) & RA) & AV) _. cbn. exists key', b, refs. auto.
Qed.

Lemma t_StoreResult (P : store -> Prop) a b refs : ST P -> (forall σ, P σ -> sz σ) ->
  parse_action b = Some refs -> (forall σ, P σ -> refs_avail (gen_at σ 0) refs) ->
  T P (StoreResult C a b) (fun r σ => r = true /\ present (gen_at σ 0) SAction a).
Proof.
  intros SP SZ PA RA. unfold StoreResult, StoreBlob.
  eapply (triple_seq C shared); [stab|apply (t_Store_blob P false); auto| ].
  intros r. cbn beta.
  pre (fun σ => (P σ /\ lookup (gen_at σ 0) SFile (hash KBlob b) = Some (Bytes b)) /\ r = Some (hash KBlob b)); [|cbn; tauto].
  apply triple_pure. intros ->.
  apply t_add; [stab|lia|intuition|auto| |intros; congruence].
  intros σ _ I0 (P0 & L) _. cbn. exists (hash KBlob b), b, refs.
  destruct (proj2 I0 0 _ _ _ L) as (b' & E & BO). injection E as <-.
  split; [reflexivity|]. split; [exact BO|]. split; [exact PA|]. split; [|auto].
  left. unfold present. congruence.
Qed.

Lemma t_CachedResult (B : Prop) k0 (P : store -> Prop) a key : ST P -> k0 < N -> (forall σ, P σ -> sz σ) ->
  (forall σ, Inv C σ -> P σ -> B -> (k0 = 0 /\ present (gen_at σ 0) SAction a) \/
     (k0 <> 0 /\ lookup (gen_at σ k0) SAction a = Some (Key key) /\
      (present (gen_at σ k0) SFile key \/ present (gen_at σ k0) SExec key))) ->
  T P (CachedResult C a) (fun r σ =>
    match r with Some refs => refs_avail (gen_at σ 0) refs | None => True end /\ (B -> r <> None)).
Proof.
  intros SP Hk SZ HB. unfold CachedResult.
  eapply (triple_seq C shared) with (Q1 := fun _ σ => B -> present (gen_at σ 0) SAction a); [stab| | ].
  { eapply t_post; [apply (triple_generations C shared _ P (fun σ => present (gen_at σ 0) SAction a)
       (fun k => B /\ k = k0) N); auto| ].
    - intros k Hk'. eapply t_post; [apply (t_LocalUplinkAction (B /\ k = k0) P k a key); auto| ].
      + intros σ I0 P0 [B0 ->]. auto.
      + auto.
    - intros r σ _ _ [H1 H2] B0. apply H1, H2. eauto. }
  intros u. cbn beta.
  eapply (triple_bind C shared) with (Q1 := fun e σ => (P σ /\ (B -> e <> None)) /\
     (e = None \/ exists key', e = Some (Key key') /\ entry_ok C (log σ) (gen_at σ 0) SAction a (Key key'))).
  { eapply t_post; [apply (triple_look C shared); stab| ].
    intros e σ _ I0 ((P0 & HP) & E). split.
    - split; [exact P0|]. intros B0. specialize (HP B0). unfold present in HP. congruence.
    - destruct e as [d|]; [right|now left]. pose proof (proj2 I0 0 _ _ _ E) as OK.
      pose proof OK as (k2 & b & refs & -> & _). eauto. }
  intros e. cbn beta.
  destruct e as [[b|l|key']|];
    try (apply t_ret; intros σ _ _ ((_ & H) & _); split; [exact Logic.I|]; intros B0; exfalso; now destruct (H B0)).
  1,2: apply t_ret; intros σ _ _ (_ & [H|(k2 & H & _)]); discriminate H.
  pre (fun σ => exists b refs, (P σ /\ (blob_ok C (log σ) key' b /\ avail_blob (gen_at σ 0) key' /\ refs_avail (gen_at σ 0) refs)) /\
     parse_action b = Some refs).
  2:{ intros σ _ ((P0 & _) & [H|(k2 & E & (k3 & b & refs & Ek & BO & PA & AV & RA))]); [discriminate H|].
      injection E as <-. injection Ek as <-. exists b, refs. auto. }
  apply triple_ex. intros b. apply triple_ex. intros refs. apply triple_pure. intros PA.
  eapply (triple_seq C shared); [stab|apply (t_ReadBlob True 0); [stab|lia|intuition|tauto]| ].
  intros c. cbn beta. apply t_ret.
  intros σ [NC _] _ ((_ & (H1 & H2) & _ & RA) & H3 & H4).
  destruct c as [c|]; [|now destruct (H4 Logic.I)]. destruct H3 as (_ & H5 & H6).
  assert (c = b) as -> by (apply (NC KBlob c KBlob b H6 H2); congruence).
  rewrite PA. split; [exact RA|discriminate].
Qed.

Lemma t_LocalUplinkTarget : forall n (P : store -> Prop) k a, ST P -> k < N -> (forall σ, P σ -> sz σ) ->
  T P (LocalUplinkTarget C n k a) (fun r σ => r = true -> present (gen_at σ 0) STarget a).
Proof.
  induction n as [|n IH]; intros P k a SP Hk SZ; cbn [LocalUplinkTarget].
  { apply t_ret. discriminate. }
  eapply (triple_seq C shared); [stab|apply (t_is_file False); [stab|tauto]| ].
  intros [|]; cbn beta iota.
  { apply t_ret. intros σ _ _ (_ & H & _). exact H. }
  pre P; [|tauto].
  eapply (triple_seq C shared);
    [stab|apply (t_key False) with (key := a); [stab|now right|tauto]| ].
  intros e. cbn beta.
  destruct e as [[b|l|key']|]; try (apply t_ret; discriminate).
  pre (fun σ => exists b imp refs, ((P σ /\ (blob_ok C (log σ) key' b /\ avail_blob (gen_at σ k) key' /\ refs_avail (gen_at σ k) refs /\
       present (gen_at σ k) STarget a /\ (k <> 0 -> lookup (gen_at σ k) STarget a = Some (Key key'))))) /\
       parse_target b = Some (imp, refs)).
  2:{ intros σ _ (P0 & [H|(key2 & E & (k2 & b & imp & refs & Ek & BO & PA & AV & RA & _) & HP & HL)] & HK); [discriminate H|].
      injection E as <-. injection Ek as <-. exists b, imp, refs. split; [tauto|]. exact PA. }
  apply triple_ex. intros b. apply triple_ex. intros imp. apply triple_ex. intros refs. apply triple_pure. intros PA.
  assert (S1 : ST (fun σ => k <> 0 -> lookup (gen_at σ k) STarget a = Some (Key key'))).
  { destruct (Nat.eq_dec k 0) as [E|E].
    - intros σ σ' _ _ _ _ _ H. contradiction.
    - apply st_imp. apply st_lookup_old. exact E. }
  eapply (triple_seq C shared); [stab|apply (t_LocalBlobPath False); [stab|exact Hk|intuition|tauto]| ].
  intros [|]; cbn beta iota; [|apply t_ret; discriminate].
  eapply (triple_seq C shared); [stab|apply (t_read True); [stab|reflexivity|cbn; tauto]| ].
  intros c. cbn beta.
  set (F := fun σ => P σ /\ blob_ok C (log σ) key' b /\ avail_blob (gen_at σ k) key' /\ refs_avail (gen_at σ k) refs /\
       present (gen_at σ k) STarget a /\ (k <> 0 -> lookup (gen_at σ k) STarget a = Some (Key key'))).
  assert (SF : ST F) by (unfold F; stab).
  assert (SZF : forall σ, F σ -> sz σ) by (unfold F; intuition).
  apply (triple_lim _ (fun _ => c = Some b)).
  { intros σ [NC _] I0 (((_ & (H1 & H2) & _) & _) & H3 & H4). destruct c as [c|]; [|now destruct (H4 Logic.I)].
    destruct H3 as (_ & H5 & H6). cbn in H5, H6.
    assert (c = b) as -> by (apply (NC KBlob c KBlob b H6 H2); congruence). reflexivity. }
  apply triple_pure. intros ->. rewrite PA.
  pre F; [|unfold F; tauto].
  eapply (triple_seq C shared) with (Q1 := fun ok σ => ok = true -> forall j, In j imp -> j = a \/ present (gen_at σ 0) STarget j);
    [exact SF| | ].
  { eapply t_post; [apply (triple_all_of C shared imp _ F (fun j σ => j = a \/ present (gen_at σ 0) STarget j) False); auto| ].
    - intros; stab.
    - intros j Hj. destruct (String.eqb_spec j a) as [->|].
      + apply t_ret. intros σ _ _ _. split; [now left|reflexivity].
      + eapply t_post; [apply IH; auto| ]. intros r σ _ _ H. split; [intros Er; right; auto|contradiction].
    - intros r σ _ _ [H _]. exact H. }
  intros [|]; cbn beta iota; [|apply t_ret; discriminate].
  pre (fun σ => F σ /\ forall j, In j imp -> j = a \/ present (gen_at σ 0) STarget j); [|intuition].
  eapply (triple_seq C shared); [stab|apply t_uplink_refs; auto; [stab|intuition|unfold F; tauto]| ].
  intros r. cbn beta.
  pre (fun σ => ((F σ /\ forall j, In j imp -> j = a \/ present (gen_at σ 0) STarget j) /\ refs_avail (gen_at σ 0) refs) /\ r = true); [|tauto].
  apply triple_pure. intros ->. cbn iota.
  eapply (triple_seq C shared); [stab|apply t_uplink_key; auto; [stab|intuition|unfold F; tauto]| ].
  intros r. cbn beta.
  pre (fun σ => (((F σ /\ forall j, In j imp -> j = a \/ present (gen_at σ 0) STarget j) /\ refs_avail (gen_at σ 0) refs) /\ avail_blob (gen_at σ 0) key') /\ r = true); [|tauto].
  apply triple_pure. intros ->. cbn iota.
  assert (FIN : forall x P', ST P' -> (forall σ, P' σ -> sz σ) ->
     (forall σ, limits C (log σ) -> Inv C σ -> P' σ -> lookup (gen_at σ 0) STarget a = None -> entry_ok C (log σ) (gen_at σ 0) STarget a x) ->
     T P' (add FirstWins 0 STarget a x) (fun r σ => r = true -> present (gen_at σ 0) STarget a)).
  { intros x P' SP' SZ' OK. eapply t_post; [apply t_add; auto; try (intros; congruence)| ].
    - intros σ Li I0 H [E|E]; [auto|discriminate E].
    - intros r σ _ _ [-> H]. auto. }
  eapply (triple_seq C shared); [stab|apply t_look; stab| ].
  intros [x|]; cbn beta; [|apply t_ret; discriminate].
  destruct (Nat.eq_dec k 0) as [->|NZ].
  - pre (fun σ => sz σ /\ present (gen_at σ 0) STarget a).
    2:{ intros σ _ ((((HF & _) & _) & _) & _). unfold F in HF. split; [apply SZ|]; tauto. }
    apply FIN; [stab; auto|tauto|]. intros σ _ _ (_ & H) E. now destruct H.
  - pre (fun σ => (((F σ /\ forall j, In j imp -> j = a \/ present (gen_at σ 0) STarget j) /\ refs_avail (gen_at σ 0) refs) /\ avail_blob (gen_at σ 0) key') /\ x = Key key').
    2:{ intros σ _ (H & E). split; [exact H|]. destruct H as [[[HF _] _] _].
        assert (lookup (gen_at σ k) STarget a = Some (Key key')) by (unfold F in HF; tauto). congruence. }
    apply triple_pure. intros ->. apply FIN; [stab|intuition|].
    intros σ _ _ ((((_ & BO & _) & IM) & RA) & AV) _. cbn. exists key', b, imp, refs. auto 10.
Qed.

Lemma t_StoreTarget (P : store -> Prop) a b imp refs : ST P -> (forall σ, P σ -> sz σ) ->
  parse_target b = Some (imp, refs) -> (forall σ, P σ -> refs_avail (gen_at σ 0) refs) ->
  (forall σ j, P σ -> In j imp -> j = a \/ present (gen_at σ 0) STarget j) ->
  T P (StoreTarget C a b) (fun r σ => r = true /\ present (gen_at σ 0) STarget a).
Proof.
  intros SP SZ PA RA IM. unfold StoreTarget, StoreBlob.
  eapply (triple_seq C shared); [stab|apply (t_Store_blob P false); auto| ].
  intros r. cbn beta.
  pre (fun σ => (P σ /\ lookup (gen_at σ 0) SFile (hash KBlob b) = Some (Bytes b)) /\ r = Some (hash KBlob b)); [|cbn; tauto].
  apply triple_pure. intros ->.
  apply t_add; [stab|lia|intuition|auto| |intros; congruence].
  intros σ _ I0 (P0 & L) _. cbn. exists (hash KBlob b), b, imp, refs.
  destruct (proj2 I0 0 _ _ _ L) as (b' & E & BO). injection E as <-.
  split; [reflexivity|]. split; [exact BO|]. split; [exact PA|]. split; [|auto].
  left. unfold present. congruence.
Qed.

Lemma t_ReadTarget (B : Prop) (P : store -> Prop) a : ST P -> (forall σ, P σ -> sz σ) ->
  (forall σ, P σ -> B -> present (gen_at σ 0) STarget a) ->
  T P (ReadTarget C a) (fun r σ => match r with
    | Some (imp, refs) => refs_avail (gen_at σ 0) refs /\ (forall j, In j imp -> j = a \/ present (gen_at σ 0) STarget j) /\
        present (gen_at σ 0) STarget a
    | None => True end /\ (B -> r <> None)).
Proof.
  intros SP SZ HB. unfold ReadTarget.
  eapply (triple_seq C shared) with (Q1 := fun _ _ => True); [stab| | ].
  { eapply t_post; [apply (triple_generations C shared _ P (fun _ => True) (fun k => False) N); auto| ].
    - intros k Hk'. eapply t_post; [apply (t_LocalUplinkTarget fuel P k a); auto| ]. intros r σ _ _ _. tauto.
    - auto. }
  intros u. cbn beta. pre P; [|tauto].
  eapply (triple_bind C shared) with (Q1 := fun e σ => (P σ /\ (B -> e <> None)) /\
     (e = None \/ exists key', e = Some (Key key') /\ present (gen_at σ 0) STarget a /\ entry_ok C (log σ) (gen_at σ 0) STarget a (Key key'))).
  { eapply t_post; [apply (triple_look C shared); stab| ].
    intros e σ _ I0 (P0 & E). split.
    - split; [exact P0|]. intros B0. specialize (HB σ P0 B0). unfold present in HB. congruence.
    - destruct e as [d|]; [right|now left]. pose proof (proj2 I0 0 _ _ _ E) as OK.
      pose proof OK as (k2 & b & imp & refs & -> & _). exists k2. split; [reflexivity|]. split; [unfold present; congruence|exact OK]. }
  intros e. cbn beta.
  destruct e as [[b|l|key']|];
    try (apply t_ret; intros σ _ _ ((_ & H) & _); split; [exact Logic.I|]; intros B0; exfalso; now destruct (H B0)).
  1,2: apply t_ret; intros σ _ _ (_ & [H|(k2 & H & _)]); discriminate H.
  pre (fun σ => exists b imp refs, (P σ /\ (blob_ok C (log σ) key' b /\ avail_blob (gen_at σ 0) key' /\ refs_avail (gen_at σ 0) refs /\
     (forall j, In j imp -> j = a \/ present (gen_at σ 0) STarget j) /\ present (gen_at σ 0) STarget a)) /\
     parse_target b = Some (imp, refs)).
  2:{ intros σ _ ((P0 & _) & [H|(k2 & E & PR & (k3 & b & imp & refs & Ek & BO & PA & AV & RA & IM))]); [discriminate H|].
      injection E as <-. injection Ek as <-. exists b, imp, refs. auto 10. }
  apply triple_ex. intros b. apply triple_ex. intros imp. apply triple_ex. intros refs. apply triple_pure. intros PA.
  eapply (triple_seq C shared); [stab|apply (t_ReadBlob True 0); [stab|lia|intuition|tauto]| ].
  intros c. cbn beta. apply t_ret.
  intros σ [NC _] _ ((_ & (H1 & H2) & _ & RA & IM & PR) & H3 & H4).
  destruct c as [c|]; [|now destruct (H4 Logic.I)]. destruct H3 as (_ & H5 & H6).
  assert (c = b) as -> by (apply (NC KBlob c KBlob b H6 H2); congruence).
  rewrite PA. split; [auto|discriminate].
Qed.

End Shared.
