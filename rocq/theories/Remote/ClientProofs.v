(** Lemmas about the client of a remote storage. *)
From Coq Require Import String Ascii NArith List Bool Arith Lia.
From Verif Require Import Describe.Model Remote.Names Remote.NamesSpec Remote.NamesProofs Remote.Stream
  Remote.StreamSpec Remote.StreamProofs Remote.Client Remote.ClientSpec.
Import ListNotations.
Local Open Scope string_scope.
Local Open Scope list_scope.
Local Open Scope nat_scope.

Lemma same_wire_iff : forall a b, same_wire a b = true <-> w_hash a = w_hash b.
Proof. intros a b. apply String.eqb_eq. Qed.

Lemma same_digest_iff : forall a b, same_digest a b = true <-> same_object a b.
Proof.
  intros a b. unfold same_digest, same_object. rewrite andb_true_iff, String.eqb_eq, eqb_true_iff. tauto.
Qed.

Lemma same_blob_iff : forall a b, same_blob a b = true <-> same_object (b_digest a) (b_digest b) /\ b_exec a = b_exec b.
Proof. intros a b. unfold same_blob. now rewrite andb_true_iff, same_digest_iff, eqb_true_iff. Qed.

Lemma wire_inj : forall t d d', wellformed t d -> wellformed t d' ->
  (w_hash (ToBazel t d) = w_hash (ToBazel t d') <-> same_object d d').
Proof.
  intros t d d' [V _] [V' _]. unfold ToBazel, same_object. cbn [w_hash]. unfold valid_input in V, V'. destruct t; cbn [IsNative].
  - unfold Prefix, kTreeTag, kBlobTag. destruct (d_tree d), (d_tree d'); cbn; split; intros H; try (injection H as ->; auto);
      try discriminate H; try (destruct H as [-> H]; congruence).
  - cbn in V, V'. rewrite !andb_true_iff in V, V'. destruct V as [[V _] _], V' as [[V' _] _].
    destruct (d_tree d), (d_tree d'); try discriminate V; try discriminate V'. tauto.
Qed.

(** ** Sets and back maps *)
Lemma in_insert {A} (same : A -> A -> bool) : forall x y l, In y (insert same x l) -> y = x \/ In y l.
Proof. intros x y l H. unfold insert in H. destruct (existsb (same x) l); [auto|]. apply in_app_or in H. cbn in H. intuition. Qed.
Lemma insert_keeps {A} (same : A -> A -> bool) : forall x y l, In y l -> In y (insert same x l).
Proof. intros x y l H. unfold insert. destruct (existsb (same x) l); [auto|]. apply in_or_app. auto. Qed.
Lemma insert_has {A} (same : A -> A -> bool) : forall x l, (forall y, same y y = true) ->
  exists y, In y (insert same x l) /\ same x y = true.
Proof.
  intros x l Rf. unfold insert. destruct (existsb (same x) l) eqn:E.
  - apply existsb_exists in E. exact E.
  - exists x. split; [apply in_or_app; right; now left|apply Rf].
Qed.

Lemma same_wire_refl : forall d, same_wire d d = true.
Proof. intros d. now apply same_wire_iff. Qed.
Lemma same_digest_refl : forall d, same_digest d d = true.
Proof. intros d. apply same_digest_iff. now split. Qed.
Lemma same_blob_refl : forall d, same_blob d d = true.
Proof. intros d. apply same_blob_iff. now repeat split. Qed.

Section Maps.
Context {K V : Type} (same : K -> K -> bool) (conv : V -> K).
Definition add_value (m : back_map K V) (v : V) : back_map K V :=
  if existsb (fun p => same (conv v) (fst p)) m then m else m ++ [(conv v, v)].

Lemma make_go : forall values m,
  (forall k v, In (k, v) (fold_left add_value values m) -> In (k, v) m \/ (In v values /\ k = conv v)) /\
  (forall p, In p m -> In p (fold_left add_value values m)).
Proof.
  induction values as [|v r IH]; intros m; cbn [fold_left]; [auto|].
  destruct (IH (add_value m v)) as [A B]. split.
  - intros k v' H. apply A in H. destruct H as [H|[H E]]; [|right; split; [now right|exact E]].
    unfold add_value in H. destruct (existsb (fun p => same (conv v) (fst p)) m); [auto|].
    apply in_app_or in H. destruct H as [H|[H|[]]]; [auto|]. injection H as <- <-. right. split; [now left|reflexivity].
  - intros p H. apply B. unfold add_value. destruct (existsb (fun p0 => same (conv v) (fst p0)) m); [auto|].
    apply in_or_app. auto.
Qed.

Lemma make_in : forall values k v, In (k, v) (Make same conv values) -> In v values /\ k = conv v.
Proof. intros values k v H. apply make_go in H. destruct H as [[]|H]. exact H. Qed.

Lemma make_has : forall values v, (forall k, same k k = true) -> In v values ->
  exists p, In p (Make same conv values) /\ same (conv v) (fst p) = true.
Proof.
  intros values v Rf H. unfold Make. apply in_split in H. destruct H as (a & b & ->). rewrite fold_left_app. cbn [fold_left].
  set (m := fold_left _ a []). fold (add_value m v). destruct (make_go b (add_value m v)) as [_ B].
  assert (X : exists p, In p (add_value m v) /\ same (conv v) (fst p) = true).
  { unfold add_value. destruct (existsb (fun p => same (conv v) (fst p)) m) eqn:E.
    - apply existsb_exists in E. exact E.
    - exists (conv v, v). split; [apply in_or_app; right; now left|apply Rf]. }
  destruct X as (p & X & Y). exists p. split; [apply B, X|exact Y].
Qed.

Lemma ref_in : forall (m : back_map K V) k v, GetReference same m k = Some v ->
  exists k', In (k', v) m /\ same k k' = true.
Proof.
  intros m k v H. unfold GetReference in H. destruct (find (fun p => same k (fst p)) m) as [p|] eqn:F; [|discriminate H].
  injection H as <-. apply find_some in F. destruct F as [F G]. exists (fst p). split; [now destruct p|exact G].
Qed.

Lemma ref_has : forall (m : back_map K V) k p, In p m -> same k (fst p) = true -> exists v, GetReference same m k = Some v.
Proof.
  intros m k p H E. unfold GetReference. destruct (find (fun p0 => same k (fst p0)) m) as [q|] eqn:F; [eauto|].
  exfalso. apply (find_none _ _ F) in H. cbn in H. congruence.
Qed.
End Maps.

Lemma filter_few {A} : forall (f : A -> bool) l, length (filter f l) <= length l.
Proof. intros f l. induction l as [|x l IH]; cbn [filter length]; [lia|]. destruct (f x); cbn [length]; lia. Qed.

(** ** Requests *)
Section Requests.
Variable W : Type.
Variable C : setup.

Lemma init_request {A} : forall create content lim (items : list A) sent size req rest,
  InitRequest C create content lim items sent size = (req, rest) ->
  exists taken es, items = taken ++ rest /\ req = sent ++ es /\ Forall2 (fun x e => create x = Some e) taken es.
Proof.
  induction items as [|x r IH]; intros sent size req rest E; cbn [InitRequest] in E.
  - injection E as <- <-. exists [], []. repeat split; [now rewrite app_nil_r|constructor].
  - assert (STOP : (sent, x :: r) = (req, rest) -> exists taken es, x :: r = taken ++ rest /\ req = sent ++ es /\
      Forall2 (fun y e => create y = Some e) taken es).
    { intros Z. injection Z as <- <-. exists [], []. repeat split; [now rewrite app_nil_r|constructor]. }
    destruct (create x) as [e|] eqn:CX; [|auto].
    destruct (Nat.ltb (max_grpc C) (request_size C sent + request_size C [e])); [auto|].
    destruct (match lim with Some l => Nat.ltb l (size + content x) | None => false end); [auto|].
    apply IH in E. destruct E as (taken & es & -> & -> & F). exists (x :: taken), (e :: es).
    split; [reflexivity|]. split; [now rewrite <- app_assoc|]. now constructor.
Qed.

Lemma retry_some {A} (P : W -> W -> Prop) (f : W -> (A + bool) * W) :
  (forall w, P w w) -> (forall a b c, P a b -> P b c -> P a c) -> (forall w, P w (snd (f w))) ->
  forall n w r w', WithRetry W n f w = (r, w') -> P w w' /\
    (forall a, r = Some a -> exists w0, P w w0 /\ f w0 = (inl a, w')).
Proof.
  intros Rf T S. induction n as [|n IH]; intros w r w' E; cbn [WithRetry] in E.
  - injection E as <- <-. split; [apply Rf|discriminate].
  - assert (SW := S w). destruct (f w) as [[a|b] w1] eqn:F; cbn [snd] in SW.
    + injection E as <- <-. split; [exact SW|]. intros a' X. injection X as <-. exists w. auto.
    + destruct b.
      * injection E as <- <-. split; [exact SW|discriminate].
      * apply IH in E. destruct E as [E1 E2]. split; [eapply T; eauto|]. intros a X. destruct (E2 a X) as (w0 & Y & Z).
        exists w0. split; [eapply T; eauto|exact Z].
Qed.

Lemma process_ok {A B} (status : A -> code) (get : A -> list B) : forall l out,
  ProcessBatchResponse status get l = inl out -> out = flat_map get l /\ forall x, In x l -> status x = OK.
Proof.
  induction l as [|x r IH]; intros out E; cbn [ProcessBatchResponse] in E.
  - injection E as <-. split; [reflexivity|]. intros x [].
  - destruct (status x) eqn:S; try discriminate E.
    destruct (ProcessBatchResponse status get r) as [o|b]; [|discriminate E]. injection E as <-.
    destruct (IH o eq_refl) as [-> H]. split; [reflexivity|]. intros y [<-|Hy]; [exact S|now apply H].
Qed.

Lemma process_all {A B} (status : A -> code) (get : A -> list B) : forall l,
  (forall x, In x l -> status x = OK) -> ProcessBatchResponse status get l = inl (flat_map get l).
Proof.
  induction l as [|x r IH]; intros H; cbn [ProcessBatchResponse]; [reflexivity|].
  rewrite (H x (or_introl eq_refl)), IH by (intros y Hy; apply H; now right). reflexivity.
Qed.
End Requests.

Section Truthful.
Variable W : Type.
Variable C : setup.
Variable R : remote W.
Variable stored : W -> string -> Prop.
Hypothesis T : truthful W R stored (hashing C).
Notation keeps := (keeps W stored).

Lemma keeps_refl : forall w, keeps w w.
Proof. intros w h H. exact H. Qed.
Lemma keeps_trans : forall a b c, keeps a b -> keeps b c -> keeps a c.
Proof. intros a b c X Y h H. now apply Y, X. Qed.

(** ** Missing objects *)
Lemma grpc_keeps : forall q w, keeps w (snd (grpc_call W (find_missing R q) w)).
Proof.
  intros q w. assert (K := keeps_find _ _ _ _ T q w). unfold grpc_call.
  destruct (find_missing R q w) as [[a|c] w']; exact K.
Qed.

Lemma find_request : forall q w r w', WithRetry W (attempts C) (grpc_call W (find_missing R q)) w = (r, w') ->
  keeps w w' /\ forall missing, r = Some missing -> exists w0, find_missing R q w0 = (inl missing, w').
Proof.
  intros q w r w' E.
  destruct (retry_some W keeps _ keeps_refl keeps_trans (grpc_keeps q) _ _ _ _ E) as [K S]. split; [exact K|].
  intros missing X. destruct (S missing X) as (w0 & _ & Y). exists w0. unfold grpc_call in Y.
  destruct (find_missing R q w0) as [[a|c] w1]; congruence.
Qed.

Definition reported (m : back_map wire_digest digest) (k : wire_digest) (res : list digest) : Prop :=
  exists v, GetReference same_wire m k = Some v /\ exists d, In d res /\ same_digest v d = true.

Lemma add_known_spec : forall m ds res,
  (forall d, In d res -> In d (add_known m ds res)) /\
  (forall d, In d (add_known m ds res) -> In d res \/ exists k, In k ds /\ GetReference same_wire m k = Some d) /\
  (forall k, In k ds -> (exists v, GetReference same_wire m k = Some v) -> reported m k (add_known m ds res)).
Proof.
  intros m. induction ds as [|k ds IH]; intros res; unfold add_known; cbn [fold_left].
  - repeat split; auto. intros k [].
  - set (res1 := match GetReference same_wire m k with Some v => insert same_digest v res | None => res end).
    fold (add_known m ds res1). destruct (IH res1) as (A & B & D). repeat split.
    + intros d H. apply A. unfold res1. destruct (GetReference same_wire m k); [now apply insert_keeps|exact H].
    + intros d H. apply B in H. destruct H as [H|(k' & H & G)]; [|right; exists k'; split; [now right|exact G]].
      unfold res1 in H. destruct (GetReference same_wire m k) as [v|] eqn:G; [|now left].
      apply in_insert in H. destruct H as [->|H]; [|now left]. right. exists k. split; [now left|exact G].
    + intros k' [<-|H] G; [|now apply D]. destruct G as (v & G). exists v. split; [exact G|].
      unfold res1 in *. rewrite G in *. destruct (insert_has same_digest v res same_digest_refl) as (y & Y & Z).
      exists y. split; [now apply A|exact Z].
Qed.

Lemma find_loop_spec : forall m fuel keys res w res' w',
  find_loop W C R fuel m keys res w = (res', w') -> length keys <= fuel ->
  (forall k, In k keys -> exists v, GetReference same_wire m k = Some v) ->
  keeps w w' /\ (forall d, In d res -> In d res') /\
  (forall d, In d res' -> In d res \/ exists k, GetReference same_wire m k = Some d) /\
  (forall k, In k keys -> stored w' (w_hash k) \/ reported m k res').
Proof.
  intros m. induction fuel as [|f IH]; intros keys res w res' w' E L HK.
  - destruct keys; [|cbn in L; lia]. cbn in E. injection E as <- <-.
    split; [apply keeps_refl|]. split; [auto|]. split; [auto|]. intros k [].
  - destruct keys as [|k r].
    { cbn in E. injection E as <- <-. split; [apply keeps_refl|]. split; [auto|]. split; [auto|]. intros k []. }
    cbn [find_loop] in E.
    destruct (InitRequest C (fun d => Some (d, "")) (fun _ => 0) None (k :: r) [] 0) as [req rest] eqn:Q.
    apply init_request in Q. destruct Q as (taken & es & QA & QB & QC). cbn [app] in QB. subst req.
    assert (QD : map fst es = taken).
    { clear - QC. induction QC as [|x e xs es H _ IH]; [reflexivity|]. cbn. rewrite IH. injection H as <-. reflexivity. }
    assert (REP : forall ds res0, (forall d, In d res0 -> In d res') ->
      (forall k0, In k0 ds -> reported m k0 res0) -> forall k0, In k0 ds -> reported m k0 res').
    { intros ds res0 X Y k0 H. destruct (Y k0 H) as (v & V1 & d & D1 & D2). exists v. split; [exact V1|]. exists d. auto. }
    destruct es as [|e es].
    + clear QA QC QD.
      destruct (add_known_spec m [k] res) as (A & B & D).
      apply IH in E; [|cbn in L; lia|intros k0 H; apply HK; now right].
      destruct E as (E1 & E2 & E3 & E4). split; [exact E1|]. split; [auto|]. split.
      * intros d H. apply E3 in H. destruct H as [H|H]; [|now right]. apply B in H.
        destruct H as [H|(k0 & _ & H)]; [now left|right; eauto].
      * intros k0 [<-|H]; [|now apply E4]. right. apply (REP [k] _ E2); [|now left].
        intros k0 H. apply D; [exact H|]. destruct H as [<-|[]]. apply HK. now left.
    + assert (LR : length rest <= f).
      { apply (f_equal (@length _)) in QA. rewrite app_length in QA. destruct taken; [inversion QC|].
        cbn [length] in QA, L. lia. }
      rewrite QD in E.
      destruct (WithRetry W (attempts C) (grpc_call W (find_missing R taken)) w) as [[missing|] w1] eqn:F;
        apply find_request in F; destruct F as [F1 F2]; (apply IH in E; [|exact LR|]).
      2,4: intros k0 H; apply HK; rewrite QA; apply in_or_app; now right.
      all: destruct E as (E1 & E2 & E3 & E4).
      * destruct (F2 missing eq_refl) as (w0 & G).
        destruct (add_known_spec m missing res) as (A & B & D).
        split; [eapply keeps_trans; eauto|]. split; [auto|]. split.
        -- intros d H. apply E3 in H. destruct H as [H|H]; [|now right]. apply B in H.
           destruct H as [H|(k0 & _ & H)]; [now left|right; eauto].
        -- intros k0 H. assert (H' := H). rewrite QA in H. apply in_app_or in H. destruct H as [H|H]; [|now apply E4].
           destruct (in_dec string_dec (w_hash k0) (map w_hash missing)) as [I|I].
           ++ right. apply in_map_iff in I. destruct I as (k1 & I1 & I2).
              destruct (HK k0 H') as (v & V).
              assert (V1 : GetReference same_wire m k1 = Some v).
              { rewrite <- V. unfold GetReference, same_wire. now rewrite I1. }
              destruct (D k1 I2 (ex_intro _ v V1)) as (v' & V2 & d & D1 & D2). exists v. split; [exact V|].
              exists d. split; [now apply E2|]. congruence.
           ++ left. apply E1. eapply says_missing; eauto.
      * destruct (add_known_spec m taken res) as (A & B & D).
        split; [eapply keeps_trans; eauto|]. split; [auto|]. split.
        -- intros d H. apply E3 in H. destruct H as [H|H]; [|now right]. apply B in H.
           destruct H as [H|(k0 & _ & H)]; [now left|right; eauto].
        -- intros k0 H. assert (H' := H). rewrite QA in H. apply in_app_or in H. destruct H as [H|H]; [|now apply E4].
           right. apply (REP taken _ E2); [|exact H]. intros k1 H1. apply D; [exact H1|]. apply HK. rewrite QA. apply in_or_app. now left.
Qed.

Lemma find_missing_spec : forall digests w missing w',
  (forall d, In d digests -> wellformed (hashing C) d) ->
  FindMissingBlobs W C R digests w = (missing, w') ->
  keeps w w' /\ (forall d, In d missing -> In d digests) /\
  (forall d, In d digests -> stored w' (w_hash (ToBazel (hashing C) d)) \/ exists d', In d' missing /\ same_object d d').
Proof.
  intros digests w missing w' WF E. unfold FindMissingBlobs in E. set (m := Make same_wire (wire C) digests) in *.
  apply find_loop_spec in E; [|lia|].
  - destruct E as (E1 & _ & E3 & E4). split; [exact E1|]. split.
    + intros d H. apply E3 in H. destruct H as [[]|(k & H)]. apply ref_in in H. destruct H as (k' & H & _).
      now apply make_in in H.
    + intros d H. destruct (make_has same_wire (wire C) digests d same_wire_refl H) as ([k v] & P & Q). cbn [fst] in Q.
      apply same_wire_iff in Q. unfold wire in Q.
      destruct (E4 k) as [S|S]; [unfold GetKeys; change k with (fst (k, v)); now apply in_map| |].
      * left. now rewrite Q.
      * right. destruct S as (v' & G & d' & D1 & D2). exists d'. split; [exact D1|].
        apply ref_in in G. destruct G as (k' & G & S). apply make_in in G. destruct G as [G ->].
        apply same_wire_iff in S. apply same_digest_iff in D2. unfold wire in S. rewrite S in Q.
        apply wire_inj in Q; [|now apply WF..]. destruct Q, D2. split; congruence.
  - intros k H. unfold GetKeys in H. apply in_map_iff in H. destruct H as (p & <- & H).
    apply (ref_has same_wire m (fst p) p H (same_wire_refl _)).
Qed.

(** ** Uploads *)
Variable instance uuid : string.
Hypothesis HINST : instance_name instance.
Hypothesis HUUID : plain uuid.
Variable readable : blob -> bool.
Notation wf b := (wellformed (hashing C) (b_digest b)).
Notation key b := (w_hash (ToBazel (hashing C) (b_digest b))).

Lemma update_single : forall b w ok w', wf b ->
  UpdateSingleBlob W C R instance uuid b w = (ok, w') -> keeps w w' /\ (ok = true -> stored w' (key b)).
Proof.
  intros b w ok w' WB E. unfold UpdateSingleBlob in E.
  assert (KO := keeps_open _ _ _ _ T (wire C (b_digest b)) w).
  destruct (stream_open R (wire C (b_digest b)) w) as [conn w1]. cbn [snd] in KO.
  destruct (write_from _ _ _ _ _ _ _ _ _) as [ms fine] eqn:WR. destruct fine.
  - assert (KW := keeps_write _ _ _ _ T (wire C (b_digest b)) ms w1).
    destruct (stream_write R (wire C (b_digest b)) ms w1) as [[st committed] w2] eqn:SW. cbn [snd] in KW.
    injection E as <- <-. split; [eapply keeps_trans; eauto|]. intros H. apply andb_true_iff in H. destruct H as [H1 H2].
    destruct st; try discriminate H1. apply N.eqb_eq in H2. subst committed. eapply (says_written _ _ _ _ T); [exact HINST|exact HUUID|exact WB|exact (write_names _ _ _ _ _ _ _ _ _ _ _ WR)|].
    unfold GetContentSize in SW. rewrite N2Nat.id in SW. exact SW.
  - injection E as <- <-. split; [exact KO|discriminate].
Qed.

Lemma update_each_spec : forall blobs w n w', (forall b, In b blobs -> wf b) -> update_each W C R instance uuid blobs w = (n, w') ->
  keeps w w' /\ n <= length blobs /\ (n = length blobs -> forall b, In b blobs -> stored w' (key b)).
Proof.
  induction blobs as [|b r IH]; intros w n w' WB E; cbn [update_each] in E.
  - injection E as <- <-. split; [apply keeps_refl|]. split; [reflexivity|]. intros _ b [].
  - destruct (UpdateSingleBlob W C R instance uuid b w) as [ok w1] eqn:U. apply update_single in U; [|apply WB; now left]. destruct U as [U1 U2].
    destruct (update_each W C R instance uuid r w1) as [n1 w2] eqn:F. apply IH in F; [|intros x Hx; apply WB; now right]. destruct F as (F1 & F2 & F3).
    injection E as <- <-. split; [eapply keeps_trans; eauto|]. cbn [length]. split; [destruct ok; lia|].
    intros H b' [<-|Hb].
    + destruct ok; [|lia]. apply F1. now apply U2.
    + destruct ok; [|lia]. apply F3; [lia|exact Hb].
Qed.

Lemma batch_keeps : forall q w,
  keeps w (snd (batch_call W (batch_update R q) (fun x : wire_digest * code => snd x) (fun x => [fst x]) w)).
Proof.
  intros q w. assert (K := keeps_update _ _ _ _ T q w). unfold batch_call.
  destruct (batch_update R q w) as [[a|c] w']; exact K.
Qed.

Definition news (updated' updated : list wire_digest) (hs : list string) : Prop :=
  forall u, In u updated' -> In u updated \/ In (w_hash u) hs.

Lemma insert_nodup : forall d acc, NoDup (map w_hash acc) -> NoDup (map w_hash (insert same_wire d acc)).
Proof.
  intros d acc H. unfold insert. destruct (existsb (same_wire d) acc) eqn:E; [exact H|].
  rewrite map_app. cbn [map].
  apply (proj2 (NoDup_count_occ string_dec _)). intros x. rewrite count_occ_app. cbn [count_occ].
  assert (X := proj1 (NoDup_count_occ string_dec _) H x). destruct (string_dec (w_hash d) x) as [<-|N]; [|lia].
  assert (Y : count_occ string_dec (map w_hash acc) (w_hash d) = 0); [|lia].
  apply count_occ_not_In. intros I. apply in_map_iff in I. destruct I as (y & Y1 & Y2).
  assert (Z : existsb (same_wire d) acc = true); [|congruence].
  apply existsb_exists. exists y. split; [exact Y2|]. now apply same_wire_iff.
Qed.

Lemma insert_all : forall ds acc,
  (NoDup (map w_hash acc) -> NoDup (map w_hash (fold_left (fun a d => insert same_wire d a) ds acc))) /\
  (forall u, In u acc -> In u (fold_left (fun a d => insert same_wire d a) ds acc)) /\
  (forall u, In u (fold_left (fun a d => insert same_wire d a) ds acc) -> In u acc \/ In u ds) /\
  (forall d, In d ds -> exists u, In u (fold_left (fun a d => insert same_wire d a) ds acc) /\ w_hash d = w_hash u).
Proof.
  induction ds as [|d ds IH]; intros acc; cbn [fold_left].
  - repeat split; auto. intros d [].
  - destruct (IH (insert same_wire d acc)) as (A & B & D & F). repeat split.
    + intros H. apply A. now apply insert_nodup.
    + intros u H. apply B. now apply insert_keeps.
    + intros u H. apply D in H. destruct H as [H|H]; [|right; now right]. apply in_insert in H.
      destruct H as [->|H]; [right; now left|now left].
    + intros d' [<-|H]; [|now apply F].
      destruct (insert_has same_wire d acc same_wire_refl) as (y & Y & Z). exists y. split; [now apply B|].
      now apply same_wire_iff.
Qed.

Lemma update_loop_spec : forall fuel blobs updated w updated' w',
  update_loop W C R readable fuel blobs updated w = (updated', w') ->
  (forall u, In u updated -> stored w (w_hash u)) -> NoDup (map w_hash updated) ->
  keeps w w' /\ (forall u, In u updated' -> stored w' (w_hash u)) /\ NoDup (map w_hash updated') /\
  (answers_what_was_asked W R -> news updated' updated (map (fun b => key b) blobs)).
Proof.
  induction fuel as [|f IH]; intros blobs updated w updated' w' E HS HN.
  - cbn in E. injection E as <- <-. split; [apply keeps_refl|]. split; [exact HS|]. split; [exact HN|].
    intros _ u H. now left.
  - destruct blobs as [|b r].
    { cbn in E. injection E as <- <-. split; [apply keeps_refl|]. split; [exact HS|]. split; [exact HN|].
      intros _ u H. now left. }
    cbn [update_loop] in E.
    destruct (InitRequest C (update_entry C readable) GetContentSize (Some (max_batch C)) (b :: r) [] 0) as [req rest] eqn:Q.
    apply init_request in Q. destruct Q as (taken & es & QA & QB & QC). cbn [app] in QB. subst req.
    assert (QD : map (fun e => w_hash (fst e)) es = map (fun x => key x) taken).
    { clear - QC. induction QC as [|x e xs es H _ IH]; [reflexivity|]. cbn [map]. rewrite IH. f_equal.
      unfold update_entry in H. destruct (readable x); [|discriminate H]. injection H as <-. reflexivity. }
    assert (STEP : forall blobs0 updated0 w0, update_loop W C R readable f blobs0 updated0 w0 = (updated', w') ->
      keeps w w0 -> (forall u, In u updated0 -> stored w0 (w_hash u)) -> NoDup (map w_hash updated0) ->
      (forall x, In x blobs0 -> In x (b :: r)) ->
      (answers_what_was_asked W R -> news updated0 updated (map (fun b => key b) (b :: r))) ->
      keeps w w' /\ (forall u, In u updated' -> stored w' (w_hash u)) /\ NoDup (map w_hash updated') /\
      (answers_what_was_asked W R -> news updated' updated (map (fun b => key b) (b :: r)))).
    { intros blobs0 updated0 w0 E0 K0 S0 N0 I0 A0. apply IH in E0; [|exact S0|exact N0].
      destruct E0 as (E1 & E2 & E3 & E4). split; [eapply keeps_trans; eauto|]. split; [exact E2|]. split; [exact E3|].
      intros AW u H. destruct (E4 AW u H) as [X|X].
      - exact (A0 AW u X).
      - right. apply in_map_iff in X. destruct X as (x & X1 & X2). apply in_map_iff. exists x. split; [exact X1|auto]. }
    destruct es as [|e es].
    + apply STEP with (1 := E); auto; [apply keeps_refl|intros x H; now right|intros _ u H; now left].
    + set (q := e :: es) in *.
      destruct (WithRetry W (attempts C) (batch_call W (batch_update R q) (fun x : wire_digest * code => snd x) (fun x => [fst x])) w)
        as [[ds|] w1] eqn:F;
        destruct (retry_some W keeps _ keeps_refl keeps_trans (batch_keeps q) _ _ _ _ F) as [K S].
      * destruct (S ds eq_refl) as (w0 & K0 & G). unfold batch_call in G.
        destruct (batch_update R q w0) as [[l|c] w2] eqn:BU; [|discriminate G]. injection G as G ->.
        apply process_ok in G. destruct G as [-> G].
        destruct (insert_all (flat_map (fun x : wire_digest * code => [fst x]) l) updated) as (A & B & D & _).
        assert (IN : forall u, In u (flat_map (fun x : wire_digest * code => [fst x]) l) -> In (u, OK) l).
        { intros u H. apply in_flat_map in H. destruct H as ([x c] & H & [<-|[]]).
          assert (X := G _ H). cbn in X. now subst c. }
        apply STEP with (1 := E); auto.
        -- intros u H. apply D in H. destruct H as [H|H]; [apply K; now apply HS|].
           eapply (says_updated _ _ _ _ T); eauto.
        -- intros x H. rewrite QA. apply in_or_app. now right.
        -- intros AW u H. apply D in H. destruct H as [H|H]; [now left|right]. apply IN in H.
           apply (AW _ _ _ _ BU) in H. rewrite QD in H. rewrite QA, map_app. apply in_or_app. now left.
      * apply STEP with (1 := E); auto.
        -- intros x H. rewrite QA. apply in_or_app. now right.
        -- intros _ u H. now left.
Qed.

Hypothesis AW : answers_what_was_asked W R.

Lemma updated_few : forall (updated : list wire_digest) blobs, NoDup (map w_hash updated) ->
  (forall u, In u updated -> In (w_hash u) (map (fun b => key b) blobs)) ->
  length updated + length (filter (fun b => negb (existsb (same_wire (wire C (b_digest b))) updated)) blobs) <= length blobs.
Proof.
  intros updated blobs HN HI.
  assert (X : length blobs = length (filter (fun b => existsb (same_wire (wire C (b_digest b))) updated) blobs) +
    length (filter (fun b => negb (existsb (same_wire (wire C (b_digest b))) updated)) blobs)).
  { clear. induction blobs as [|b r IH]; [reflexivity|]. cbn [filter].
    destruct (existsb (same_wire (wire C (b_digest b))) updated); cbn [negb length]; lia. }
  rewrite X. apply Nat.add_le_mono_r.
  rewrite <- (map_length w_hash updated), <- (map_length (fun b => key b) (filter _ blobs)).
  apply NoDup_incl_length; [exact HN|]. intros h Hh. apply in_map_iff in Hh. destruct Hh as (u & <- & Hu).
  specialize (HI u Hu). apply in_map_iff in HI. destruct HI as (b & B1 & B2). apply in_map_iff. exists b. split; [exact B1|].
  apply filter_In. split; [exact B2|]. apply existsb_exists. exists u. split; [exact Hu|]. now apply same_wire_iff.
Qed.

Lemma batch_update_spec : forall fuel blobs w n w', (forall b, In b blobs -> wf b) ->
  BatchUpdateBlobs W C R instance uuid readable fuel blobs w = (n, w') ->
  keeps w w' /\ (length blobs < fuel -> n <> None) /\
  forall k, n = Some k -> k <= length blobs /\ (k = length blobs -> forall b, In b blobs -> stored w' (key b)).
Proof.
  induction fuel as [|f IH]; intros blobs w n w' WB E; cbn [BatchUpdateBlobs] in E.
  - injection E as <- <-. split; [apply keeps_refl|]. split; [lia|discriminate].
  - destruct blobs as [|b0 r0].
    { injection E as <- <-. split; [apply keeps_refl|]. split; [discriminate|]. intros k X. injection X as <-.
      split; [reflexivity|]. intros _ b []. }
    set (blobs := b0 :: r0) in *.
    destruct (update_loop W C R readable (length blobs) blobs [] w) as [updated w1] eqn:U.
    apply update_loop_spec in U; [|intros u []|constructor].
    destruct U as (U1 & U2 & U3 & U4). specialize (U4 AW).
    assert (U5 : forall u, In u updated -> In (w_hash u) (map (fun b => key b) blobs)).
    { intros u H. destruct (U4 u H) as [[]|X]. exact X. }
    assert (FEW := updated_few updated blobs U3 U5).
    assert (DONE : forall b, In b blobs ->
      ~ In b (filter (fun b => negb (existsb (same_wire (wire C (b_digest b))) updated)) blobs) -> stored w1 (key b)).
    { intros b Hb HF. destruct (existsb (same_wire (wire C (b_digest b))) updated) eqn:X.
      - apply existsb_exists in X. destruct X as (u & X1 & X2). apply same_wire_iff in X2. unfold wire in X2. rewrite X2. auto.
      - exfalso. apply HF. apply filter_In. rewrite X. auto. }
    destruct (Nat.eqb_spec (length blobs) (length updated)) as [Q|Q].
    + injection E as <- <-. split; [exact U1|]. split; [discriminate|]. intros k X. injection X as <-. split; [lia|].
      intros _ b Hb. apply DONE; [exact Hb|]. intros HF.
      assert (Z : length (filter (fun b => negb (existsb (same_wire (wire C (b_digest b))) updated)) blobs) = 0) by lia.
      apply length_zero_iff_nil in Z. rewrite Z in HF. destruct HF.
    + destruct updated as [|u us].
      * destruct (update_each W C R instance uuid blobs w1) as [n2 w2] eqn:UE. apply update_each_spec in UE; [|exact WB].
        destruct UE as (V1 & V2 & V3). injection E as <- <-. split; [eapply keeps_trans; eauto|]. split; [discriminate|].
        intros k X. injection X as <-. auto.
      * set (updated := u :: us) in *.
        destruct (BatchUpdateBlobs W C R instance uuid readable f
          (filter (fun b => negb (existsb (same_wire (wire C (b_digest b))) updated)) blobs) w1) as [n2 w2] eqn:F.
        apply IH in F; [|intros x Hx; apply filter_In in Hx; now apply WB]. destruct F as (F1 & F2 & F3).
        assert (POS : 0 < length updated) by (cbn; lia).
        destruct n2 as [n2|].
        -- assert (n = Some (length updated + n2) /\ w' = w2) as [-> ->] by (split; congruence). clear E. split; [eapply keeps_trans; eauto|]. split; [discriminate|].
           intros k X. assert (k = length updated + n2) by congruence. subst k. clear X. destruct (F3 n2 eq_refl) as [G1 G2]. split; [lia|].
           intros Z b Hb. destruct (in_dec string_dec (key b) (map w_hash updated)) as [I|I].
           ++ apply F1, DONE; [exact Hb|]. intros HF. apply filter_In in HF. destruct HF as [_ HF].
              apply in_map_iff in I. destruct I as (x & I1 & I2).
              assert (Y : existsb (same_wire (wire C (b_digest b))) updated = true).
              { apply existsb_exists. exists x. split; [exact I2|]. now apply same_wire_iff. }
              rewrite Y in HF. discriminate HF.
           ++ apply G2; [lia|]. apply filter_In. split; [exact Hb|].
              destruct (existsb (same_wire (wire C (b_digest b))) updated) eqn:Y; [|reflexivity].
              exfalso. apply I. apply existsb_exists in Y. destruct Y as (x & Y1 & Y2). apply same_wire_iff in Y2.
              unfold wire in Y2. rewrite Y2. now apply in_map.
        -- injection E as <- <-. split; [eapply keeps_trans; eauto|]. split; [|discriminate].
           intros L. exfalso. apply F2; [lia|reflexivity].
Qed.

Lemma upload_large_spec : forall blobs w ok w', (forall b, In b blobs -> wf b) -> upload_large W C R instance uuid blobs w = (ok, w') ->
  keeps w w' /\ (ok = true -> forall b, In b blobs -> small C b = false -> stored w' (key b)).
Proof.
  induction blobs as [|b r IH]; intros w ok w' WB E; cbn [upload_large] in E.
  - injection E as <- <-. split; [apply keeps_refl|]. intros _ b [].
  - fold (small C b) in E. destruct (small C b) eqn:SM.
    + apply IH in E; [|intros x Hx; apply WB; now right]. destruct E as [E1 E2]. split; [exact E1|]. intros H b' [<-|Hb] S; [congruence|auto].
    + destruct (UpdateSingleBlob W C R instance uuid b w) as [fine w1] eqn:U. apply update_single in U; [|apply WB; now left]. destruct U as [U1 U2].
      destruct fine.
      * apply IH in E; [|intros x Hx; apply WB; now right]. destruct E as [E1 E2]. split; [eapply keeps_trans; eauto|].
        intros H b' [<-|Hb] S; [apply E1; auto|auto].
      * injection E as <- <-. split; [exact U1|discriminate].
Qed.

Lemma do_upload_spec : forall fuel blobs w r w', (forall b, In b blobs -> wf b) ->
  DoUploadBlobs W C R instance uuid readable fuel blobs w = (r, w') ->
  keeps w w' /\ (length blobs < fuel -> r <> None) /\
  (r = Some true -> forall b, In b blobs -> stored w' (key b)).
Proof.
  intros fuel blobs w r w' WB E. unfold DoUploadBlobs in E. destruct blobs as [|b0 r0].
  { injection E as <- <-. split; [apply keeps_refl|]. split; [discriminate|]. intros _ b []. }
  set (blobs := b0 :: r0) in *.
  destruct (upload_large W C R instance uuid blobs w) as [ok w1] eqn:L. apply upload_large_spec in L; [|exact WB]. destruct L as [L1 L2].
  destruct ok.
  - destruct (BatchUpdateBlobs W C R instance uuid readable fuel (filter (small C) blobs) w1) as [n w2] eqn:B.
    apply batch_update_spec in B; [|intros x Hx; apply filter_In in Hx; now apply WB]. destruct B as (B1 & B2 & B3). destruct n as [n|].
    + injection E as <- <-. split; [eapply keeps_trans; eauto|]. split; [discriminate|].
      intros X. injection X as X. apply Nat.eqb_eq in X. destruct (B3 n eq_refl) as [_ G]. specialize (G X).
      intros b Hb. destruct (small C b) eqn:S.
      * apply G. now apply filter_In.
      * apply B1. now apply L2.
    + injection E as <- <-. split; [eapply keeps_trans; eauto|]. split; [|discriminate].
      intros X. exfalso. apply B2; [|reflexivity]. eapply Nat.le_lt_trans; [apply filter_few|exact X].
  - injection E as <- <-. split; [exact L1|]. split; discriminate.
Qed.

Lemma get_values_spec : forall (m : back_map digest blob) keys b,
  In b (GetValues same_digest same_blob m keys) -> exists k, In k keys /\ GetReference same_digest m k = Some b.
Proof.
  intros m keys b. unfold GetValues.
  assert (X : forall keys acc, In b (fold_left (fun r k => match GetReference same_digest m k with
    Some v => insert same_blob v r | None => r end) keys acc) -> In b acc \/ exists k, In k keys /\ GetReference same_digest m k = Some b).
  { induction keys0 as [|k ks IH]; intros acc H; cbn [fold_left] in H; [now left|]. apply IH in H.
    destruct H as [H|(k' & H1 & H2)]; [|right; exists k'; split; [now right|exact H2]].
    destruct (GetReference same_digest m k) as [v|] eqn:G; [|now left]. apply in_insert in H.
    destruct H as [->|H]; [right; exists k; split; [now left|exact G]|now left]. }
  intros H. apply X in H. destruct H as [[]|H]. exact H.
Qed.

Lemma get_values_has : forall (m : back_map digest blob) keys k v,
  In k keys -> GetReference same_digest m k = Some v ->
  exists b, In b (GetValues same_digest same_blob m keys) /\ same_object (b_digest v) (b_digest b).
Proof.
  intros m keys k v. unfold GetValues.
  assert (KP : forall keys acc b, In b acc -> In b (fold_left (fun r k => match GetReference same_digest m k with
    Some v => insert same_blob v r | None => r end) keys acc)).
  { induction keys0 as [|k' ks IH]; intros acc b H; cbn [fold_left]; [exact H|]. apply IH.
    destruct (GetReference same_digest m k'); [now apply insert_keeps|exact H]. }
  intros H G. apply in_split in H. destruct H as (a & c & ->). rewrite fold_left_app. cbn [fold_left]. rewrite G.
  match goal with |- context [insert same_blob v ?acc] => destruct (insert_has same_blob v acc same_blob_refl) as (y & Y & Z) end.
  exists y. split; [now apply KP|]. now apply same_blob_iff in Z.
Qed.

Lemma get_values_few : forall (values : list blob) keys,
  length (GetValues same_digest same_blob (Make same_digest b_digest values) keys) <= length values.
Proof.
  intros values keys. apply NoDup_incl_length.
  - unfold GetValues. set (m := Make same_digest b_digest values). clearbody m.
    assert (X : forall ks acc, NoDup acc -> NoDup (fold_left (fun r k => match GetReference same_digest m k with
      Some v => insert same_blob v r | None => r end) ks acc)).
    { induction ks as [|k ks IH]; intros acc H; cbn [fold_left]; [exact H|]. apply IH.
      destruct (GetReference same_digest m k) as [v|]; [|exact H]. unfold insert.
      destruct (existsb (same_blob v) acc) eqn:E; [exact H|].
      apply NoDup_Add with (1 := Add_app v acc []). rewrite app_nil_r. split; [exact H|]. intros I.
      assert (Y : existsb (same_blob v) acc = true); [|congruence]. apply existsb_exists. exists v. split; [exact I|apply same_blob_refl]. }
    apply X. constructor.
  - intros b H. apply get_values_spec in H. destruct H as (k & _ & H). apply ref_in in H. destruct H as (k' & H & _).
    now apply make_in in H.
Qed.

Lemma upload_spec : forall fuel skip blobs w r w',
  (forall b, In b blobs -> wellformed (hashing C) (b_digest b)) ->
  UploadBlobs W C R instance uuid readable fuel skip blobs w = (r, w') ->
  keeps w w' /\ (length blobs < fuel -> r <> None) /\
  (r = Some true -> forall b, In b blobs -> stored w' (key b)).
Proof.
  intros fuel skip blobs w r w' WF E. unfold UploadBlobs in E. destruct skip.
  - apply do_upload_spec in E; [tauto|exact WF].
  - set (m := Make same_digest b_digest blobs) in *.
    assert (MK : forall d, In d (GetKeys m) -> exists b, In b blobs /\ d = b_digest b).
    { intros d H. unfold GetKeys in H. apply in_map_iff in H. destruct H as ([k v] & <- & H). apply make_in in H. exists v. auto. }
    destruct (FindMissingBlobs W C R (GetKeys m) w) as [missing w1] eqn:F.
    apply find_missing_spec in F; [|intros d H; destruct (MK d H) as (b & B & ->); now apply WF].
    destruct F as (F1 & F2 & F3). apply do_upload_spec in E.
    2:{ intros b Hb. apply get_values_spec in Hb. destruct Hb as (k & _ & Hb). apply ref_in in Hb. destruct Hb as (k' & Hb & _).
        apply make_in in Hb. now apply WF. }
    destruct E as (E1 & E2 & E3).
    split; [eapply keeps_trans; eauto|].
    split; [intros L; apply E2; eapply Nat.le_lt_trans; [apply get_values_few|exact L]|]. intros H b Hb.
    destruct (make_has same_digest b_digest blobs b same_digest_refl Hb) as ([k v] & P & Q). cbn [fst] in Q.
    apply same_digest_iff in Q. assert (IK : In k (GetKeys m)) by (change k with (fst (k, v)); now apply in_map).
    destruct (MK k IK) as (b1 & Hb1 & EK). assert (WK : wellformed (hashing C) k) by (rewrite EK; now apply WF).
    assert (QK := proj2 (wire_inj (hashing C) (b_digest b) k (WF b Hb) WK) Q).
    destruct (F3 k IK) as [S|(d' & D1 & D2)].
    + apply E1. now rewrite QK.
    + assert (GR : exists v', GetReference same_digest m d' = Some v').
      { apply (ref_has same_digest m d' (k, v) P). cbn [fst]. apply same_digest_iff. destruct D2; split; congruence. }
      destruct GR as (v' & GR). destruct (get_values_has m missing d' v' D1 GR) as (b' & B1 & B2).
      assert (B3 := E3 H b' B1). apply ref_in in GR. destruct GR as (k' & GR1 & GR2). apply make_in in GR1.
      destruct GR1 as [GR1 ->]. apply same_digest_iff in GR2.
      apply get_values_spec in B1. destruct B1 as (k2 & _ & B1). apply ref_in in B1. destruct B1 as (k3 & B1 & _).
      apply make_in in B1. destruct B1 as [B1 _].
      assert (X : same_object (b_digest b) (b_digest b')) by (destruct Q, D2, GR2, B2; split; congruence).
      apply (wire_inj (hashing C)) in X; [|now apply WF..]. now rewrite X.
Qed.

End Truthful.
