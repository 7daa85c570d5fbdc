(** The invariant of the storage and how it is kept. *)
From Coq Require Import String List Bool Arith Lia.
From Verif Require Import GitTree.Model Storage.Model Storage.Spec Storage.Addr.
Import ListNotations.

Definition suffix {A} (l l' : list A) : Prop := exists p, l' = p ++ l.

Lemma suffix_refl {A} (l : list A) : suffix l l.
Proof. now exists []. Qed.
Lemma suffix_trans {A} (a b c : list A) : suffix a b -> suffix b c -> suffix a c.
Proof. intros [p ->] [q ->]. exists (q ++ p). now rewrite app_assoc. Qed.
Lemma suffix_in {A} (a b : list A) x : suffix a b -> In x a -> In x b.
Proof. intros [p ->] H. apply in_or_app. now right. Qed.
Lemma suffix_length {A} (a b : list A) : suffix a b -> length a <= length b.
Proof. intros [p ->]. rewrite app_length. lia. Qed.

Definition concat_bytes (l : list bytes) : bytes := fold_right String.append EmptyString l.

Section Inv.

Variable C : config.
Local Notation hash := (cfg_hash C).
Local Notation chunker := (cfg_chunker C).
Local Notation parse_tree := (cfg_parse_tree C).
Local Notation parse_action := (cfg_parse_action C).
Local Notation parse_target := (cfg_parse_target C).

(** Assumptions on the log at the end. *)
Definition limits (L : list (kind * bytes)) : Prop :=
  no_collision hash L /\ length L + 2 <= cfg_fuel C.

Lemma limits_suffix : forall L L', suffix L L' -> limits L' -> limits L.
Proof.
  intros L L' S0 [N F]. split.
  - intros k a k' b Ha Hb. apply N; eapply suffix_in; eauto.
  - apply suffix_length in S0. lia.
Qed.

(** How deep a tree is, for the termination of uplinking. *)
Fixpoint ranked (L : list (kind * bytes)) (n : nat) (b : bytes) : Prop :=
  match n with
  | O => False
  | S m => forall es i t0 ts t, parse_tree b = Some es -> In (i, (t0, ts)) es -> In t (t0 :: ts) ->
      IsTreeObject t = true ->
      exists c, hash KTree c = i /\ In (KTree, c) L /\ ranked L m c
  end.

Lemma ranked_mono : forall n L L' n' b,
  (forall x, In x L -> In x L') -> n <= n' -> ranked L n b -> ranked L' n' b.
Proof.
  induction n as [|n IH]; intros L L' n' b HL Hn H; [destruct H|].
  destruct n' as [|n']; [lia|]. cbn in *. intros es i t0 ts t E Hin Ht It.
  destruct (H es i t0 ts t E Hin Ht It) as (c & A & B & D).
  exists c. split; [exact A|]. split; [auto|]. eapply IH; eauto. lia.
Qed.

Definition chunks_at (g : gen) (b : bytes) : Prop :=
  forall c, In c (chunker b) -> lookup g SFile (hash KBlob c) = Some (Bytes c).
Definition blob_ok (L : list (kind * bytes)) (i : id) (b : bytes) : Prop :=
  hash KBlob b = i /\ In (KBlob, b) L.
Definition tree_in (L : list (kind * bytes)) (i : id) (b : bytes) : Prop :=
  hash KTree b = i /\ In (KTree, b) L /\ ranked L (length L) b.
Definition tree_ok (L : list (kind * bytes)) (g : gen) (i : id) (b : bytes) : Prop :=
  tree_in L i b /\ exists es, parse_tree b = Some es /\ entries_avail g es.
Definition large_ok (g : gen) (d : data) (b : bytes) : Prop :=
  d = Parts (map (hash KBlob) (chunker b)) /\ 2 <= length (chunker b) /\ chunks_at g b.

Definition entry_ok (L : list (kind * bytes)) (g : gen) (s : slot) (i : id) (d : data) : Prop :=
  match s with
  | SFile | SExec => exists b, d = Bytes b /\ blob_ok L i b
  | STree => exists b, d = Bytes b /\ tree_ok L g i b
  | SLargeFile => exists b, blob_ok L i b /\ large_ok g d b
  | SLargeTree => exists b, tree_ok L g i b /\ large_ok g d b
  | SAction => exists key b refs, d = Key key /\ blob_ok L key b /\ parse_action b = Some refs /\
      avail_blob g key /\ refs_avail g refs
  | STarget => exists key b imp refs, d = Key key /\ blob_ok L key b /\
      parse_target b = Some (imp, refs) /\ avail_blob g key /\ refs_avail g refs /\
      forall j, In j imp -> j = i \/ present g STarget j
  end.

Definition gen_ok (L : list (kind * bytes)) (g : gen) : Prop :=
  forall s i d, lookup g s i = Some d -> entry_ok L g s i d.

Definition Inv (σ : store) : Prop :=
  0 < length (gens σ) /\ forall k, gen_ok (log σ) (gen_at σ k).

(** ** Extension of a generation and of a store *)

(** Nothing is lost; objects keep their content ([all]: everything does). *)
Definition gext (all : bool) (g g' : gen) : Prop := forall s i d, lookup g s i = Some d ->
  exists d', lookup g' s i = Some d' /\ (object_slot s = true \/ all = true -> d' = d).

(** A file is there, or, for a blob, its other form is. *)
Definition had (g : gen) (s : slot) (i : id) : Prop :=
  present g s i \/ exists x y, s = blob_slot x /\ present g (blob_slot y) i.

(** Older generations get nothing new. *)
Definition ext (σ σ' : store) : Prop :=
  length (gens σ') = length (gens σ) /\ suffix (log σ) (log σ') /\
  (forall k, gext (negb (k =? 0)) (gen_at σ k) (gen_at σ' k)) /\
  (forall k s i, k <> 0 -> present (gen_at σ' k) s i -> had (gen_at σ k) s i).

Lemma gext_refl : forall a g, gext a g g.
Proof. intros a g s i d L. exists d. auto. Qed.
Lemma gext_trans : forall a g g' g'', gext a g g' -> gext a g' g'' -> gext a g g''.
Proof.
  intros a g g' g'' H1 H2 s i d L. destruct (H1 s i d L) as (d1 & L1 & E1).
  destruct (H2 s i d1 L1) as (d2 & L2 & E2). exists d2. split; [exact L2|].
  intros X. rewrite E2, E1; auto.
Qed.

Lemma ext_refl : forall σ, ext σ σ.
Proof. intros σ. split; [reflexivity|]. split; [apply suffix_refl|]. split; [intros k; apply gext_refl|].
  intros k s i _ H. now left. Qed.
Lemma ext_trans : forall a b c, ext a b -> ext b c -> ext a c.
Proof.
  intros a b c (A1 & A2 & A3 & A4) (B1 & B2 & B3 & B4). split; [congruence|].
  split; [eapply suffix_trans; eauto|]. split; [intros k; eapply gext_trans; eauto|].
  intros k s i Hk H. destruct (B4 k s i Hk H) as [H'|(x & y & -> & H')]; [auto|].
  right. destruct (A4 k _ i Hk H') as [H2|(x' & y' & _ & H2)]; eauto.
Qed.

Lemma gext_present : forall a g g' s i, gext a g g' -> present g s i -> present g' s i.
Proof.
  intros a g g' s i X P0. unfold present in *. destruct (lookup g s i) as [d|] eqn:E; [|congruence].
  destruct (X s i d E) as (d' & -> & _). congruence.
Qed.
Lemma gext_avail_blob : forall a g g' i, gext a g g' -> avail_blob g i -> avail_blob g' i.
Proof. intros a g g' i X [H|[H|H]]; [left|right; left|right; right]; eapply gext_present; eauto. Qed.
Lemma gext_avail_tree : forall a g g' i, gext a g g' -> avail_tree g i -> avail_tree g' i.
Proof. intros a g g' i X [H|H]; [left|right]; eapply gext_present; eauto. Qed.
Lemma gext_avail : forall a g g' t i, gext a g g' -> avail g t i -> avail g' t i.
Proof.
  intros a g g' t i X. unfold avail. destruct (IsTreeObject t).
  - eapply gext_avail_tree; eauto.
  - eapply gext_avail_blob; eauto.
Qed.
Lemma gext_refs : forall a g g' r, gext a g g' -> refs_avail g r -> refs_avail g' r.
Proof. intros a g g' r X H t i Hin. eapply gext_avail; eauto. Qed.
Lemma gext_entries : forall a g g' r, gext a g g' -> entries_avail g r -> entries_avail g' r.
Proof. intros a g g' r X H i t0 ts t Hin Ht. eapply gext_avail; eauto. Qed.
Lemma gext_chunks : forall a g g' b, gext a g g' -> chunks_at g b -> chunks_at g' b.
Proof.
  intros a g g' b X H c Hc. destruct (X _ _ _ (H c Hc)) as (d' & L & E).
  rewrite L. now rewrite E by auto.
Qed.

Lemma blob_ok_mono : forall L L' i b, (forall x, In x L -> In x L') -> blob_ok L i b -> blob_ok L' i b.
Proof. intros L L' i b H [A B]. split; auto. Qed.
Lemma tree_in_mono : forall L L' i b, (forall x, In x L -> In x L') -> length L <= length L' ->
  tree_in L i b -> tree_in L' i b.
Proof. intros L L' i b H H' (A & B & D). split; [auto|]. split; [auto|]. eapply ranked_mono; eauto. Qed.

Lemma entry_ok_mono : forall a L L' g g' s i d,
  suffix L L' -> gext a g g' -> entry_ok L g s i d -> entry_ok L' g' s i d.
Proof.
  intros a L L' g g' s i d SL X.
  assert (HL : forall x, In x L -> In x L') by (intros; eapply suffix_in; eauto).
  assert (HN := suffix_length _ _ SL).
  assert (TO : forall b, tree_ok L g i b -> tree_ok L' g' i b).
  { intros b (T & es & P0 & E). split; [eapply tree_in_mono; eauto|].
    exists es. split; [exact P0|]. eapply gext_entries; eauto. }
  assert (LO : forall b, large_ok g d b -> large_ok g' d b).
  { intros b (E1 & E2 & E3). split; [exact E1|]. split; [exact E2|]. eapply gext_chunks; eauto. }
  destruct s; cbn [entry_ok].
  - intros (b & E & B). exists b. split; [exact E|]. eapply blob_ok_mono; eauto.
  - intros (b & E & B). exists b. split; [exact E|]. eapply blob_ok_mono; eauto.
  - intros (b & E & B). exists b. auto.
  - intros (b & B & LL). exists b. split; [eapply blob_ok_mono; eauto|auto].
  - intros (b & B & LL). exists b. auto.
  - intros (key & b & refs & E & B & PA & AV & RA). exists key, b, refs.
    split; [exact E|]. split; [eapply blob_ok_mono; eauto|]. split; [exact PA|].
    split; [eapply gext_avail_blob; eauto|eapply gext_refs; eauto].
  - intros (key & b & imp & refs & E & B & PA & AV & RA & IM). exists key, b, imp, refs.
    split; [exact E|]. split; [eapply blob_ok_mono; eauto|]. split; [exact PA|].
    split; [eapply gext_avail_blob; eauto|]. split; [eapply gext_refs; eauto|].
    intros j Hj. destruct (IM j Hj) as [H|H]; [now left|right; eapply gext_present; eauto].
Qed.

Lemma gen_ok_log : forall L L' g, suffix L L' -> gen_ok L g -> gen_ok L' g.
Proof.
  intros L L' g H G s i d E. eapply entry_ok_mono; [exact H|apply gext_refl with (a := true)|auto].
Qed.

Lemma gext_insert : forall g s i d a,
  (forall d', lookup g s i = Some d' -> object_slot s = true \/ a = true -> d = d') ->
  gext a g (insert g s i d).
Proof.
  intros g s i d a H s' i' d' L. rewrite lookup_insert.
  destruct (at_path s' i' (s, i)) eqn:E.
  - apply at_path_eq in E. destruct E as [-> ->]. exists d. split; [reflexivity|]. intros X. auto.
  - exists d'. auto.
Qed.

Lemma gen_ok_insert : forall a L g s i d, gext a g (insert g s i d) ->
  gen_ok L g -> entry_ok L g s i d -> gen_ok L (insert g s i d).
Proof.
  intros a L g s i d X G E s' i' d' Lk. rewrite lookup_insert in Lk.
  destruct (at_path s' i' (s, i)) eqn:Q.
  - apply at_path_eq in Q. destruct Q as [-> ->]. injection Lk as <-.
    eapply entry_ok_mono; [apply suffix_refl|exact X|exact E].
  - eapply entry_ok_mono; [apply suffix_refl|exact X|auto].
Qed.

(** ** Consequences *)

Lemma present_some : forall g s i, present g s i <-> exists d, lookup g s i = Some d.
Proof.
  intros. unfold present. destruct (lookup g s i) as [d|]; split; intros H.
  - now exists d.
  - congruence.
  - congruence.
  - destruct H as [d H]. congruence.
Qed.

Lemma ok_blob : forall L g x i, gen_ok L g -> present g (blob_slot x) i ->
  exists b, lookup g (blob_slot x) i = Some (Bytes b) /\ blob_ok L i b.
Proof.
  intros L g x i G P0. apply present_some in P0. destruct P0 as [d E].
  pose proof (G _ _ _ E) as H. destruct x; cbn in *; destruct H as (b & -> & B); eauto.
Qed.

Lemma ok_avail_blob : forall L g i, gen_ok L g -> avail_blob g i -> exists b, blob_ok L i b.
Proof.
  intros L g i G [H|[H|H]].
  - destruct (ok_blob L g false i G H) as (b & _ & B). eauto.
  - destruct (ok_blob L g true i G H) as (b & _ & B). eauto.
  - apply present_some in H. destruct H as [d E]. destruct (G _ _ _ E) as (b & B & _). eauto.
Qed.

Lemma ok_avail_tree : forall L g i, gen_ok L g -> avail_tree g i -> exists b, tree_ok L g i b.
Proof.
  intros L g i G [H|H]; apply present_some in H; destruct H as [d E].
  - destruct (G _ _ _ E) as (b & _ & B). eauto.
  - destruct (G _ _ _ E) as (b & B & _). eauto.
Qed.

Lemma no_both : forall L g i, no_collision hash L -> gen_ok L g ->
  avail_blob g i -> avail_tree g i -> False.
Proof.
  intros L g i N G A B. destruct (ok_avail_blob L g i G A) as (b & B1 & B2).
  destruct (ok_avail_tree L g i G B) as (c & (C1 & C2 & _) & _).
  destruct (N KBlob b KTree c B2 C2) as [E _]; congruence.
Qed.

Lemma avail_type : forall L g i t t', no_collision hash L -> gen_ok L g ->
  avail g t i -> avail g t' i -> IsTreeObject t = IsTreeObject t'.
Proof.
  intros L g i t t' N G A B. unfold avail in *.
  destruct (IsTreeObject t), (IsTreeObject t'); auto; exfalso; eapply no_both; eauto.
Qed.

Lemma same_kind_avail : forall g i t t', IsTreeObject t = IsTreeObject t' -> avail g t i -> avail g t' i.
Proof. intros g i t t' E. unfold avail. now rewrite E. Qed.

(** A tree whose entries are available has a rank. *)
Lemma entries_ranked : forall L g b es, gen_ok L g -> parse_tree b = Some es -> entries_avail g es ->
  ranked L (S (length L)) b.
Proof.
  intros L g b es G E A. cbn. intros es' i t0 ts t E' Hin Ht It.
  rewrite E in E'. injection E' as <-. specialize (A i t0 ts t Hin Ht).
  unfold avail in A. rewrite It in A.
  destruct (ok_avail_tree L g i G A) as (c & (C1 & C2 & C3) & _). eauto.
Qed.

End Inv.
