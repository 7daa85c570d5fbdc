(** Executions of the whole system. *)
From Coq Require Import String List Bool Arith Lia.
From Verif Require Import GitTree.Model Storage.Model Storage.Spec Storage.Addr Storage.Inv Storage.Hoare
  Storage.Uplink Storage.Gc.
Import ListNotations.

Section Run.

Variable C : config.
Local Notation hash := (cfg_hash C).
Local Notation chunker := (cfg_chunker C).
Local Notation parse_tree := (cfg_parse_tree C).
Local Notation T := (triple C shared).
Local Notation ST := (stable C shared).
Variable N : nat.
Hypothesis Npos : 0 < N.
Hypothesis chunker_concat : forall b, concat_bytes (chunker b) = b.
Hypothesis rechunk : forall b c, In c (chunker b) -> chunker c = [c].
Hypothesis names_valid : forall k b, cfg_valid_name C (hash k b) = true.
Local Notation sz := (sz N).
Local Notation parts_at := (parts_at C).

(** ** What an operation started in [σ0] ensures *)
Definition ensures (σ0 : store) (o : op) (r : answer) (σ : store) : Prop :=
  let g := gen_at σ 0 in
  match o with
  | OStoreBlob b x => r = AId (Some (hash KBlob b)) /\ lookup g (blob_slot x) (hash KBlob b) = Some (Bytes b) /\
      blob_ok C (log σ) (hash KBlob b) b
  | OStoreTree b => r = AId (Some (hash KTree b)) /\ present g STree (hash KTree b) /\ In (KTree, b) (log σ)
  | OAddTree d b => exists ok, r = ADone ok /\
      (ok = true -> present g STree d /\ tree_ok C (log σ) g d b) /\
      forall k es, k < N -> hash KTree b = d -> parse_tree b = Some es -> entries_avail (gen_at σ0 k) es -> ok = true
  | OReadBlob d x => exists v, r = ABytes v /\
      match v with
      | Some b => lookup g (blob_slot x) d = Some (Bytes b) /\ blob_ok C (log σ) d b
      | None => forall k, k < N -> ~ avail_blob (gen_at σ0 k) d
      end
  | OReadTree d => exists v, r = ABytes v /\
      match v with
      | Some b => lookup g STree d = Some (Bytes b) /\ tree_ok C (log σ) g d b
      | None => forall k, k < N -> ~ avail_tree (gen_at σ0 k) d
      end
  | OSplitBlob d => exists v, r = AParts v /\
      match v with
      | Some ps => exists b, hash KBlob b = d /\ In (KBlob, b) (log σ) /\ ps = map (hash KBlob) (chunker b) /\
          chunks_at C g b /\ avail_blob g d
      | None => forall k, k < N -> ~ avail_blob (gen_at σ0 k) d
      end
  | OSplitTree d => exists v, r = AParts v /\
      match v with
      | Some ps => exists b, hash KTree b = d /\ In (KTree, b) (log σ) /\ ps = map (hash KBlob) (chunker b) /\
          chunks_at C g b /\ avail_tree g d
      | None => forall k, k < N -> ~ avail_tree (gen_at σ0 k) d
      end
  | OSpliceBlob d parts x => exists v, r = AId v /\
      match v with
      | Some i => i = d /\ present g (blob_slot x) d
      | None => forall k cs, k < N -> parts = map (hash KBlob) cs -> parts_at k cs σ0 ->
          hash KBlob (concat_bytes cs) <> d
      end
  | OSpliceTree d parts => exists v, r = AId v /\
      match v with
      | Some i => i = d /\ present g STree d
      | None => forall k cs es, k < N -> parts = map (hash KBlob) cs -> parts_at k cs σ0 ->
          parse_tree (concat_bytes cs) = Some es -> entries_avail (gen_at σ0 k) es ->
          hash KTree (concat_bytes cs) <> d
      end
  | OStoreResult a b => r = ADone true /\ present g SAction a
  | OCachedResult a => exists v, r = ARefs v /\
      match v with
      | Some refs => refs_avail g refs
      | None => ~ present (gen_at σ0 0) SAction a /\
          forall k key, k < N -> k <> 0 -> lookup (gen_at σ0 k) SAction a = Some (Key key) ->
            ~ present (gen_at σ0 k) SFile key /\ ~ present (gen_at σ0 k) SExec key
      end
  | OStoreTarget a b => r = ADone true /\ present g STarget a
  | OReadTarget a => exists v, r = ATarget v /\
      match v with
      | Some (imp, refs) => refs_avail g refs /\ (forall j, In j imp -> j = a \/ present g STarget j) /\
          present g STarget a
      | None => ~ present (gen_at σ0 0) STarget a
      end
  end.

Ltac stab :=
  repeat first
    [ assumption | apply st_pure | apply st_and | apply st_or | apply st_present | apply st_avail_blob
    | apply st_avail_tree | apply st_avail | apply st_entries | apply st_refs
    | apply st_lookup; reflexivity | apply st_lookup_old; assumption | apply st_chunks
    | apply st_in | apply st_blob_ok | apply st_tree_in | apply st_tree_ok
    | apply st_full_rank | apply st_ranked | apply st_len | apply st_sz
    | apply st_imp | apply st_ex; intro | apply st_all; intro
    | match goal with |- stable _ _ (fun _ => match ?x with _ => _ end) => destruct x end ].

Lemma st_ensures : forall σ0 o r, ST (ensures σ0 o r).
Proof.
  intros σ0 o r. destruct o; unfold ensures; cbv zeta; try (stab; fail).
  - apply st_and; [stab|]. apply st_and; [|stab]. apply st_lookup. now destruct x.
  - apply st_ex. intros v. apply st_and; [stab|]. destruct v; [|stab].
    apply st_and; [|stab]. apply st_lookup. now destruct x.
Qed.

(** Several postconditions at once. *)
Lemma safe_all {A X} (x0 : X) (Q : X -> A -> store -> Prop) (m : M A) : forall σ,
  (forall x, safe C shared (Q x) m σ) -> safe C shared (fun a σ => forall x, Q x a σ) m σ.
Proof.
  induction m as [a|Y act k IH]; intros σ H; cbn [safe] in *; [exact H|].
  intros σ1 R1 I1 L1 L2. destruct (H x0 σ1 R1 I1 L1 L2) as (A1 & A2 & _).
  split; [exact A1|]. split; [exact A2|]. apply IH. intros x. apply (H x σ1 R1 I1 L1 L2).
Qed.

Lemma st_from : forall σ0, ST (ext σ0).
Proof. intros σ0 σ σ' X _ _ _ H. eapply ext_trans; eauto. Qed.

Lemma from_sz : forall σ0, sz σ0 -> forall σ, ext σ0 σ -> sz σ.
Proof. intros σ0 S0 σ (E & _). unfold Uplink.sz in *. congruence. Qed.

Lemma t_map {A B} (P : store -> Prop) (m : M A) (f : A -> B) (Q : A -> store -> Prop) (Q' : B -> store -> Prop) :
  T P m Q -> (forall a σ, Q a σ -> Q' (f a) σ) -> T P (a <- m ;; ret (f a)) Q'.
Proof.
  intros H HQ. eapply (triple_bind C shared); [exact H|]. intros a. apply triple_ret. auto.
Qed.

Section Op.
Variable σ0 : store.
Hypothesis L0 : limits C (log σ0).
Hypothesis I0 : Inv C σ0.
Hypothesis S0 : sz σ0.
Let P := ext σ0.
Let SP : ST P := st_from σ0.
Let SZ : forall σ, P σ -> sz σ := from_sz σ0 S0.

Lemma from_avail_blob : forall σ k d, P σ -> avail_blob (gen_at σ0 k) d -> avail_blob (gen_at σ k) d.
Proof. intros σ k d (_ & _ & X & _). eapply gext_avail_blob; eauto. Qed.
Lemma from_avail_tree : forall σ k d, P σ -> avail_tree (gen_at σ0 k) d -> avail_tree (gen_at σ k) d.
Proof. intros σ k d (_ & _ & X & _). eapply gext_avail_tree; eauto. Qed.
Lemma from_entries : forall σ k es, P σ -> entries_avail (gen_at σ0 k) es -> entries_avail (gen_at σ k) es.
Proof. intros σ k d (_ & _ & X & _). eapply gext_entries; eauto. Qed.
Lemma from_refs : forall σ k es, P σ -> refs_avail (gen_at σ0 k) es -> refs_avail (gen_at σ k) es.
Proof. intros σ k d (_ & _ & X & _). eapply gext_refs; eauto. Qed.
Lemma from_present : forall σ k s i, P σ -> present (gen_at σ0 k) s i -> present (gen_at σ k) s i.
Proof. intros σ k s i (_ & _ & X & _). eapply gext_present; eauto. Qed.
Lemma from_parts : forall σ k cs, P σ -> parts_at k cs σ0 -> parts_at k cs σ.
Proof.
  intros σ k cs X H c Hc. destruct (H c Hc) as [A B]. split; [now apply from_avail_blob|].
  destruct X as (_ & X & _). eapply suffix_in; eauto.
Qed.

(** To prove a postcondition it suffices to do so for each [k] below [N]. *)
Lemma each_k {A} (m : M A) (Q : nat -> A -> store -> Prop) (Q' : A -> store -> Prop) :
  (forall k, k < N -> T P m (Q k)) ->
  (forall a σ, (forall k, k < N -> Q k a σ) -> Q' a σ) -> safe C shared Q' m σ0.
Proof.
  intros H HQ. eapply safe_conseq with (Q' := fun a σ => forall k : {k | k < N}, Q (proj1_sig k) a σ); auto.
  - intros a σ _ _ X. apply HQ. intros k Hk. exact (X (exist _ k Hk)).
  - apply (safe_all (exist _ 0 Npos)). intros [k Hk]. apply (H k Hk); auto. apply ext_refl.
Qed.

Lemma one {A} (m : M A) (Q : A -> store -> Prop) : T P m Q -> safe C shared Q m σ0.
Proof. intros H. apply H; auto. apply ext_refl. Qed.

Lemma program_safe : forall o, contract C σ0 o -> safe C shared (ensures σ0 o) (program C o) σ0.
Proof.
  intros o CT. destruct o; cbn [program contract] in *.
  - apply one. eapply (t_map _ (StoreBlob C b x)).
    + eapply t_post; [apply (t_Store_blob C N Npos chunker_concat P x b SP SZ)|]. intros a σ _ I1 H.
      exact (conj H (proj2 I1 0)).
    + intros a σ [[-> L] G]. cbn. split; [reflexivity|]. split; [exact L|].
      pose proof (G _ _ _ L) as EO. destruct x; destruct EO as (b' & E & H); injection E as <-; exact H.
  - apply one. destruct CT as (es & PT & EA).
    eapply (t_map _ (StoreTree C b)); [eapply (t_Store_tree C N Npos chunker_concat P b es SP SZ PT)|].
    + intros σ H. eapply from_entries; eauto.
    + intros a σ [-> H]. cbn. auto.
  - eapply each_k with (Q := fun k r σ => exists ok, r = ADone ok /\
      (ok = true -> present (gen_at σ 0) STree d /\ tree_ok C (log σ) (gen_at σ 0) d b) /\
      ((hash KTree b = d /\ exists es, parse_tree b = Some es /\ entries_avail (gen_at σ0 k) es) -> ok = true)).
    + intros k Hk. eapply (t_map _ (AddTree C d b)).
      * apply (t_AddTree C N Npos chunker_concat
          (hash KTree b = d /\ exists es, parse_tree b = Some es /\ entries_avail (gen_at σ0 k) es) k P d b SP Hk SZ).
        intros σ _ P0 (Hd & es & PT & EA). split; [exact Hd|]. exists es. split; [exact PT|].
        eapply from_entries; eauto.
      * cbn beta. intros a σ [H1 H2]. eauto.
    + cbn beta. intros r σ H. destruct (H 0 Npos) as (ok & -> & H1 & _). cbn. exists ok.
      split; [reflexivity|]. split; [exact H1|]. intros k es Hk Hd PT EA.
      destruct (H k Hk) as (ok' & E & _ & H2). injection E as <-. apply H2. eauto.
  - eapply each_k with (Q := fun k r σ => exists v, r = ABytes v /\
      match v with
      | Some b => lookup (gen_at σ 0) (blob_slot x) d = Some (Bytes b) /\ blob_ok C (log σ) d b
      | None => True
      end /\ (avail_blob (gen_at σ0 k) d -> v <> None)).
    + intros k Hk. eapply (t_map _ (ReadBlob C d x)).
      * apply (t_ReadBlob C N Npos chunker_concat (avail_blob (gen_at σ0 k) d) k P d x SP Hk SZ).
        intros σ _ P0 A. eapply from_avail_blob; eauto.
      * cbn beta. intros a σ H. eauto.
    + cbn beta. intros r σ H. destruct (H 0 Npos) as (v & -> & H1 & _). exists v. split; [reflexivity|].
      destruct v as [b|]; [exact H1|]. intros k Hk A. destruct (H k Hk) as (v' & E & _ & H2).
      injection E as <-. now apply H2.
  - eapply each_k with (Q := fun k r σ => exists v, r = ABytes v /\
      match v with
      | Some b => lookup (gen_at σ 0) STree d = Some (Bytes b) /\ tree_ok C (log σ) (gen_at σ 0) d b
      | None => True
      end /\ (avail_tree (gen_at σ0 k) d -> v <> None)).
    + intros k Hk. eapply (t_map _ (ReadTree C d)).
      * apply (t_ReadTree C N Npos chunker_concat (avail_tree (gen_at σ0 k) d) k P d SP Hk SZ).
        intros σ _ P0 A. eapply from_avail_tree; eauto.
      * cbn beta. intros a σ H. eauto.
    + cbn beta. intros r σ H. destruct (H 0 Npos) as (v & -> & H1 & _). exists v. split; [reflexivity|].
      destruct v as [b|]; [exact H1|]. intros k Hk A. destruct (H k Hk) as (v' & E & _ & H2).
      injection E as <-. now apply H2.
  - eapply each_k with (Q := fun k r σ => exists v, r = AParts v /\
      match v with
      | Some ps => exists b, hash KBlob b = d /\ In (KBlob, b) (log σ) /\ ps = map (hash KBlob) (chunker b) /\
          chunks_at C (gen_at σ 0) b /\ avail_blob (gen_at σ 0) d
      | None => ~ avail_blob (gen_at σ0 k) d
      end).
    + intros k Hk. eapply (t_map _ (Split C None SLargeFile d)).
      * apply (t_Split C N Npos chunker_concat (avail_blob (gen_at σ0 k) d) k P SLargeFile d SP eq_refl Hk SZ).
        intros σ _ P0 A. eapply from_avail_blob; eauto.
      * cbn beta. intros a σ H. eauto.
    + cbn beta. intros r σ H. destruct (H 0 Npos) as (v & -> & H1). exists v. split; [reflexivity|].
      destruct v as [ps|]; [exact H1|]. intros k Hk A. destruct (H k Hk) as (v' & E & H2).
      injection E as <-. now apply H2.
  - eapply each_k with (Q := fun k r σ => exists v, r = AParts v /\
      match v with
      | Some ps => exists b, hash KTree b = d /\ In (KTree, b) (log σ) /\ ps = map (hash KBlob) (chunker b) /\
          chunks_at C (gen_at σ 0) b /\ avail_tree (gen_at σ 0) d
      | None => ~ avail_tree (gen_at σ0 k) d
      end).
    + intros k Hk. eapply (t_map _ (Split C None SLargeTree d)).
      * apply (t_Split C N Npos chunker_concat (avail_tree (gen_at σ0 k) d) k P SLargeTree d SP eq_refl Hk SZ).
        intros σ _ P0 A. eapply from_avail_tree; eauto.
      * cbn beta. intros a σ H. eauto.
    + cbn beta. intros r σ H. destruct (H 0 Npos) as (v & -> & H1). exists v. split; [reflexivity|].
      destruct v as [ps|]; [exact H1|]. intros k Hk A. destruct (H k Hk) as (v' & E & H2).
      injection E as <-. now apply H2.
  - assert (O : object_slot (blob_slot x) = true) by now destruct x.
    assert (KB : kind_of (blob_slot x) = KBlob) by now destruct x.
    eapply safe_conseq with (Q' := fun r σ => forall p : {k | k < N} * list bytes, exists v, r = AId v /\
      match v with
      | Some i => i = d /\ present (gen_at σ 0) (blob_slot x) d
      | None => ~ (parts = map (hash KBlob) (snd p) /\ parts_at (proj1_sig (fst p)) (snd p) σ0 /\
                   hash KBlob (concat_bytes (snd p)) = d)
      end); auto.
    + intros r σ _ _ H. destruct (H (exist _ 0 Npos, [])) as (v & -> & H1). exists v. split; [reflexivity|].
      destruct v as [i|]; [exact H1|]. intros k cs Hk Ep Pa Hd.
      destruct (H (exist _ k Hk, cs)) as (v' & E & H2). injection E as <-. apply H2. auto.
    + apply (safe_all ((exist _ 0 Npos, []))). intros [[k Hk] cs]. cbn [fst snd proj1_sig].
      apply one. eapply (t_map _ (Splice C (blob_slot x) d parts)).
      * apply (t_Splice C N Npos chunker_concat (parts = map (hash KBlob) cs /\ parts_at k cs σ0 /\
                 hash KBlob (concat_bytes cs) = d) k cs P (blob_slot x) d parts SP O Hk SZ).
        intros σ _ P0 (E1 & E2 & E3). split; [exact E1|]. split; [eapply from_parts; eauto|].
        rewrite KB. split; [exact E3|]. intros X. destruct x; discriminate X.
      * cbn beta. intros a σ H. exists a. auto.
  - eapply safe_conseq with (Q' := fun r σ => forall p : {k | k < N} * list bytes, exists v, r = AId v /\
      match v with
      | Some i => i = d /\ present (gen_at σ 0) STree d
      | None => ~ (parts = map (hash KBlob) (snd p) /\ parts_at (proj1_sig (fst p)) (snd p) σ0 /\
                   hash KTree (concat_bytes (snd p)) = d /\
                   exists es, parse_tree (concat_bytes (snd p)) = Some es /\
                     entries_avail (gen_at σ0 (proj1_sig (fst p))) es)
      end); auto.
    + intros r σ _ _ H. destruct (H (exist _ 0 Npos, [])) as (v & -> & H1). exists v. split; [reflexivity|].
      destruct v as [i|]; [exact H1|]. intros k cs es Hk Ep Pa PT EA Hd.
      destruct (H (exist _ k Hk, cs)) as (v' & E & H2). injection E as <-. apply H2. cbn. eauto 7.
    + apply (safe_all ((exist _ 0 Npos, []))). intros [[k Hk] cs]. cbn [fst snd proj1_sig].
      apply one. eapply (t_map _ (Splice C STree d parts)).
      * apply (t_Splice C N Npos chunker_concat (parts = map (hash KBlob) cs /\ parts_at k cs σ0 /\
                 hash KTree (concat_bytes cs) = d /\
                 exists es, parse_tree (concat_bytes cs) = Some es /\ entries_avail (gen_at σ0 k) es)
                 k cs P STree d parts SP eq_refl Hk SZ).
        intros σ _ P0 (E1 & E2 & E3 & es & E4 & E5). split; [exact E1|]. split; [eapply from_parts; eauto|].
        split; [exact E3|]. intros _. exists es. split; [exact E4|]. eapply from_entries; eauto.
      * cbn beta. intros a σ H. exists a. auto.
  - apply one. destruct CT as (refs & PA & RA).
    eapply (t_map _ (StoreResult C a b)); [eapply (t_StoreResult C N Npos chunker_concat P a b refs SP SZ PA)|].
    + intros σ H. eapply from_refs; eauto.
    + intros r σ [-> H]. cbn. auto.
  - set (B := fun p : {k | k < N} * id => let k := proj1_sig (fst p) in
      (k = 0 /\ present (gen_at σ0 0) SAction a) \/
      (k <> 0 /\ lookup (gen_at σ0 k) SAction a = Some (Key (snd p)) /\
       (present (gen_at σ0 k) SFile (snd p) \/ present (gen_at σ0 k) SExec (snd p)))).
    eapply safe_conseq with (Q' := fun r σ => forall p, exists v, r = ARefs v /\
      match v with Some refs => refs_avail (gen_at σ 0) refs | None => True end /\ (B p -> v <> None)); auto.
    + intros r σ _ _ H. destruct (H (exist _ 0 Npos, a)) as (v & -> & H1 & H2). exists v. split; [reflexivity|].
      destruct v as [refs|]; [exact H1|]. split.
      * intros A. apply H2; [|reflexivity]. left. auto.
      * intros k key Hk Kn L. destruct (H (exist _ k Hk, key)) as (v' & E & _ & H3). injection E as <-.
        split; intros A; (apply H3; [|reflexivity]); right; auto.
    + apply (safe_all ((exist _ 0 Npos, a))). intros [[k Hk] key].
      apply one. eapply (t_map _ (CachedResult C a)).
      * apply (t_CachedResult C N Npos chunker_concat (B (exist _ k Hk, key)) k P a key SP Hk SZ).
        intros σ _ P0 [[E A]|(E & A & A')]; cbn [fst snd proj1_sig] in *.
        -- left. split; [exact E|]. eapply from_present; eauto.
        -- right. split; [exact E|]. split.
           ++ destruct P0 as (_ & _ & X & _). destruct (X k _ _ _ A) as (d' & L' & Y). rewrite L'.
              rewrite Y; [reflexivity|]. right. now apply negb_true_iff, Nat.eqb_neq.
           ++ destruct A'; [left|right]; eapply from_present; eauto.
      * cbn beta. intros v σ H. eauto.
  - apply one. destruct CT as (imp & refs & PA & RA & IM).
    eapply (t_map _ (StoreTarget C a b)); [eapply (t_StoreTarget C N Npos chunker_concat P a b imp refs SP SZ PA)|].
    + intros σ H. eapply from_refs; eauto.
    + intros σ j H Hj. destruct (IM j Hj) as [E|E]; [now left|right]. eapply from_present; eauto.
    + intros r σ [-> H]. cbn. auto.
  - apply one. eapply (t_map _ (ReadTarget C a)); [apply (t_ReadTarget C N Npos chunker_concat (present (gen_at σ0 0) STarget a) P a SP SZ)|].
    + intros σ H A. eapply from_present; eauto.
    + intros v σ [H1 H2]. cbn. exists v. split; [reflexivity|]. destruct v as [[imp refs]|]; [exact H1|]. intros A. now apply H2.
Qed.

End Op.

End Run.
