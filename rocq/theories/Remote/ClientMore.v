(** More lemmas about the client of a remote storage: what succeeds, and what
    is read. *)
From Coq Require Import String Ascii NArith List Bool Arith Lia.
From Verif Require Import Describe.Model Remote.Names Remote.NamesSpec Remote.NamesProofs Remote.Stream
  Remote.StreamSpec Remote.StreamProofs Remote.StreamProps Remote.Client Remote.ClientSpec Remote.ClientProofs.
Import ListNotations.
Local Open Scope string_scope.
Local Open Scope list_scope.
Local Open Scope nat_scope.

Lemma nodup_map_on {A B} (f : A -> B) : forall l, NoDup l ->
  (forall x y, In x l -> In y l -> f x = f y -> x = y) -> NoDup (map f l).
Proof.
  induction l as [|x l IH]; intros N H; cbn [map]; [constructor|]. inversion N; subst. constructor.
  - intros I. apply in_map_iff in I. destruct I as (y & E & Hy).
    rewrite (H x y) in H2; [exact (H2 Hy)|now left|now right|congruence].
  - apply IH; [exact H3|]. intros a b Ha Hb. apply H; now right.
Qed.

Section Obliging.
Variable W : Type.
Variable C : setup.
Variable R : remote W.
Variable instance uuid : string.
Variable readable : blob -> bool.
Hypothesis O : obliging W R C.
Hypothesis AT : 0 < attempts C.
Hypothesis CH : 0 < chunk_size C.
Hypothesis IN : instance_name instance.
Hypothesis UU : plain uuid.
Notation key b := (w_hash (ToBazel (hashing C) (b_digest b))).
Definition fine (b : blob) : Prop := intact C b /\ String.length (b_data b) < max_messages C.

Lemma single_done : forall b w, fine b -> exists w', UpdateSingleBlob W C R instance uuid b w = (true, w').
Proof.
  intros b w [(WF & DO & RD) MM]. unfold UpdateSingleBlob, wire.
  assert (OP := opens _ _ _ O (ToBazel (hashing C) (b_digest b)) w).
  destruct (stream_open R (ToBazel (hashing C) (b_digest b)) w) as [conn w1]. cbn [fst] in OP.
  set (name := write_ToString instance uuid (ToBazel (hashing C) (b_digest b))).
  destruct (C82_upload_complete (chunk_size C) (hashing C) (hash C) instance uuid (b_digest b) (b_source b) conn
    (List.length (fst (write_from (chunk_size C) (max_messages C) 0 conn name (N.to_nat (d_size (b_digest b))) (b_source b) 0 0)))
    (max_messages C) CH IN UU WF DO RD OP MM (Nat.le_refl _)) as [A B].
  fold name in A, B. unfold client_write in A. unfold make_iterator in A. rewrite Nat.min_0_l in A.
  unfold GetContentSize.
  destruct (write_from (chunk_size C) (max_messages C) 0 conn name (N.to_nat (d_size (b_digest b))) (b_source b) 0 0) as [ms ok].
  cbn [fst] in B. destruct ok; [|discriminate A].
  destruct (writes _ _ _ O (b_digest b) ms _ w1 WF B) as (w2 & E). rewrite E. exists w2. f_equal.
  destruct DO as [_ DO]. unfold b_data in DO. rewrite N2Nat.id, DO. cbn. apply N.eqb_refl.
Qed.

Lemma each_done : forall blobs w, (forall b, In b blobs -> fine b) ->
  exists w', update_each W C R instance uuid blobs w = (length blobs, w').
Proof.
  induction blobs as [|b r IH]; intros w H; cbn [update_each]; [eauto|].
  destruct (single_done b w (H b (or_introl eq_refl))) as (w1 & ->).
  destruct (IH w1) as (w2 & ->); [intros x Hx; apply H; now right|]. eauto.
Qed.

Lemma request_done : forall q w, (forall e, In e q -> genuine C e) ->
  exists w', WithRetry W (attempts C) (batch_call W (batch_update R q) (fun x : wire_digest * code => snd x) (fun x => [fst x])) w
    = (Some (map fst q), w').
Proof.
  intros q w G. destruct (updates _ _ _ O q w G) as (w1 & E). exists w1.
  destruct (attempts C) as [|n]; [lia|]. cbn [WithRetry]. unfold batch_call. rewrite E, process_all.
  - f_equal. f_equal. clear. induction q as [|e q IH]; [reflexivity|]. cbn [map flat_map app]. now rewrite IH.
  - intros x H. apply in_map_iff in H. destruct H as (e & <- & _). reflexivity.
Qed.

Lemma loop_done : forall fuel blobs updated w updated' w',
  update_loop W C R readable fuel blobs updated w = (updated', w') ->
  (forall b, In b blobs -> fine b) -> NoDup (map w_hash updated) ->
  NoDup (map w_hash updated') /\ news updated' updated (map (fun b => key b) blobs).
Proof.
  induction fuel as [|f IH]; intros blobs updated w updated' w' E HB HN.
  - cbn in E. injection E as <- <-. split; [exact HN|]. intros u H. now left.
  - destruct blobs as [|b r].
    { cbn in E. injection E as <- <-. split; [exact HN|]. intros u H. now left. }
    cbn [update_loop] in E.
    destruct (InitRequest C (update_entry C readable) GetContentSize (Some (max_batch C)) (b :: r) [] 0) as [req rest] eqn:Q.
    apply init_request in Q. destruct Q as (taken & es & QA & QB & QC). cbn [app] in QB. subst req.
    assert (QD : map (fun e => w_hash (fst e)) es = map (fun x => key x) taken).
    { clear - QC. induction QC as [|x e xs es H _ IH]; [reflexivity|]. cbn [map]. rewrite IH. f_equal.
      unfold update_entry in H. destruct (readable x); [|discriminate H]. injection H as <-. reflexivity. }
    assert (QE : forall e, In e es -> genuine C e).
    { assert (HT : forall x, In x taken -> fine x) by (intros x H; apply HB; rewrite QA; apply in_or_app; now left).
      clear - QC HT. induction QC as [|x e xs es H _ IH]; [intros e []|]. intros e' [<-|H'].
      - unfold update_entry in H. destruct (readable x); [|discriminate H]. injection H as <-.
        destruct (HT x (or_introl eq_refl)) as [(A & B & _) _]. exists (b_digest x). auto.
      - apply IH; [intros y Hy; apply HT; now right|exact H']. }
    destruct es as [|e es].
    + apply IH in E; [|intros x H; apply HB; now right|exact HN]. destruct E as [E1 E2]. split; [exact E1|].
      intros u H. destruct (E2 u H) as [X|X]; [now left|right; now right].
    + destruct (request_done (e :: es) w QE) as (w1 & F). rewrite F in E.
      destruct (insert_all (map fst (e :: es)) updated) as (A & B & D & _).
      apply IH in E; [|intros x H; apply HB; rewrite QA; apply in_or_app; now right|now apply A].
      destruct E as [E1 E2]. split; [exact E1|]. intros u H. rewrite QA, map_app.
      destruct (E2 u H) as [X|X]; [|right; apply in_or_app; now right].
      apply D in X. destruct X as [X|X]; [now left|]. right. apply in_or_app. left. rewrite <- QD.
      apply in_map_iff in X. destruct X as (e' & <- & X). apply in_map_iff. exists e'. auto.
Qed.

Lemma nodup_filter_map {A B} (f : A -> B) (p : A -> bool) : forall l, NoDup (map f l) -> NoDup (map f (filter p l)).
Proof.
  induction l as [|x l IH]; intros N; cbn [filter map] in *; [exact N|]. inversion N; subst. specialize (IH H2).
  destruct (p x); [|exact IH]. cbn [map]. constructor; [|exact IH]. intros I. apply H1. apply in_map_iff in I.
  destruct I as (y & E & Hy). apply filter_In in Hy. apply in_map_iff. exists y. tauto.
Qed.

Lemma counted : forall (updated : list wire_digest) blobs, NoDup (map w_hash updated) -> NoDup (map (fun b => key b) blobs) ->
  (forall u, In u updated -> In (w_hash u) (map (fun b => key b) blobs)) ->
  length updated + length (filter (fun b => negb (existsb (same_wire (wire C (b_digest b))) updated)) blobs) = length blobs.
Proof.
  intros updated blobs HN HK HI. apply Nat.le_antisymm; [now apply updated_few|].
  assert (X : length blobs = length (filter (fun b => existsb (same_wire (wire C (b_digest b))) updated) blobs) +
    length (filter (fun b => negb (existsb (same_wire (wire C (b_digest b))) updated)) blobs)).
  { clear. induction blobs as [|b r IH]; [reflexivity|]. cbn [filter].
    destruct (existsb (same_wire (wire C (b_digest b))) updated); cbn [negb length]; lia. }
  rewrite X. apply Nat.add_le_mono_r.
  rewrite <- (map_length w_hash updated), <- (map_length (fun b => key b) (filter _ blobs)).
  apply NoDup_incl_length; [now apply nodup_filter_map|]. intros h Hh. apply in_map_iff in Hh.
  destruct Hh as (b & <- & Hb). apply filter_In in Hb. destruct Hb as [_ Hb]. apply existsb_exists in Hb.
  destruct Hb as (u & U1 & U2). apply same_wire_iff in U2. unfold wire in U2. rewrite U2. now apply in_map.
Qed.

Lemma batch_done : forall fuel blobs w, length blobs < fuel -> (forall b, In b blobs -> fine b) ->
  NoDup (map (fun b => key b) blobs) ->
  exists w', BatchUpdateBlobs W C R instance uuid readable fuel blobs w = (Some (length blobs), w').
Proof.
  induction fuel as [|f IH]; intros blobs w L HB HK; [lia|]. cbn [BatchUpdateBlobs].
  destruct blobs as [|b0 r0]; [eauto|]. set (blobs := b0 :: r0) in *.
  destruct (update_loop W C R readable (length blobs) blobs [] w) as [updated w1] eqn:U.
  apply loop_done in U; [|exact HB|constructor]. destruct U as [U1 U2].
  assert (U3 : forall u, In u updated -> In (w_hash u) (map (fun b => key b) blobs)).
  { intros u H. destruct (U2 u H) as [[]|X]. exact X. }
  assert (CT := counted updated blobs U1 HK U3).
  destruct (Nat.eqb_spec (length blobs) (length updated)) as [Q|Q]; [rewrite <- Q; eauto|].
  destruct updated as [|u us].
  - destruct (each_done blobs w1 HB) as (w2 & ->). eauto.
  - set (updated := u :: us) in *. set (missing := filter _ blobs) in *.
    assert (0 < length updated) by (cbn; lia).
    destruct (IH missing w1) as (w2 & E); [lia| | |].
    + intros b H'. unfold missing in H'. apply filter_In in H'. now apply HB.
    + unfold missing. now apply nodup_filter_map.
    + rewrite E. exists w2. now rewrite CT.
Qed.

Lemma large_done : forall blobs w, (forall b, In b blobs -> fine b) ->
  exists w', upload_large W C R instance uuid blobs w = (true, w').
Proof.
  induction blobs as [|b r IH]; intros w H; cbn [upload_large]; [eauto|].
  assert (H' : forall x, In x r -> fine x) by (intros x Hx; apply H; now right).
  destruct (Nat.leb (GetContentSize b) (max_grpc C)); [now apply IH|].
  destruct (single_done b w (H b (or_introl eq_refl))) as (w1 & ->). now apply IH.
Qed.

Lemma do_upload_done : forall fuel blobs w, length blobs < fuel -> (forall b, In b blobs -> fine b) ->
  NoDup (map (fun b => key b) blobs) ->
  exists w', DoUploadBlobs W C R instance uuid readable fuel blobs w = (Some true, w').
Proof.
  intros fuel blobs w L HB HK. unfold DoUploadBlobs. destruct blobs as [|b0 r0]; [eauto|].
  set (blobs := b0 :: r0) in *. destruct (large_done blobs w HB) as (w1 & ->).
  destruct (batch_done fuel (filter (small C) blobs) w1) as (w2 & ->).
  - eapply Nat.le_lt_trans; [apply filter_few|exact L].
  - intros b H. apply filter_In in H. now apply HB.
  - now apply nodup_filter_map.
  - rewrite Nat.eqb_refl. eauto.
Qed.

Lemma make_unique : forall (values : list blob) k1 v1 k2 v2,
  In (k1, v1) (Make same_digest b_digest values) -> In (k2, v2) (Make same_digest b_digest values) ->
  same_object k1 k2 -> (k1, v1) = (k2, v2).
Proof.
  intros values. unfold Make.
  assert (X : forall vs (m : back_map digest blob),
    (forall p q, In p m -> In q m -> same_object (fst p) (fst q) -> p = q) ->
    forall p q, In p (fold_left (add_value same_digest b_digest) vs m) -> In q (fold_left (add_value same_digest b_digest) vs m) ->
    same_object (fst p) (fst q) -> p = q).
  { induction vs as [|v vs IH]; intros m HM; cbn [fold_left]; [exact HM|]. apply IH.
    unfold add_value. destruct (existsb (fun p => same_digest (b_digest v) (fst p)) m) eqn:E; [exact HM|].
    assert (NO : forall p, In p m -> ~ same_object (b_digest v) (fst p)).
    { intros p Hp S. apply same_digest_iff in S.
      assert (Y : existsb (fun p => same_digest (b_digest v) (fst p)) m = true); [|congruence].
      apply existsb_exists. exists p. auto. }
    intros p q Hp Hq S. apply in_app_or in Hp. apply in_app_or in Hq.
    destruct Hp as [Hp|[<-|[]]], Hq as [Hq|[<-|[]]]; auto.
    - exfalso. apply (NO p Hp). destruct S as [S1 S2]. cbn in S1, S2. now split.
    - exfalso. exact (NO q Hq S). }
  intros k1 v1 k2 v2 H1 H2 S. apply (X values []); auto. intros p q [].
Qed.

Lemma upload_done : forall fuel skip blobs w, length blobs < fuel -> (forall b, In b blobs -> fine b) ->
  (skip = true -> NoDup (map (fun b => (d_hash (b_digest b), d_tree (b_digest b))) blobs)) ->
  exists w', UploadBlobs W C R instance uuid readable fuel skip blobs w = (Some true, w').
Proof.
  intros fuel skip blobs w L HB HD. unfold UploadBlobs. destruct skip.
  - apply do_upload_done; auto. specialize (HD eq_refl). apply nodup_map_on.
    + apply NoDup_map_inv with (1 := HD).
    + intros x y Hx Hy E. apply wire_inj in E; [|now apply HB..]. destruct E as [E1 E2].
      clear - HD Hx Hy E1 E2. induction blobs as [|b r IH]; [destruct Hx|]. cbn [map] in HD. inversion HD; subst.
      destruct Hx as [<-|Hx], Hy as [<-|Hy]; auto; exfalso; apply H1; apply in_map_iff.
      * exists y. split; [now rewrite E1, E2|exact Hy].
      * exists x. split; [now rewrite E1, E2|exact Hx].
  - destruct (FindMissingBlobs W C R (GetKeys (Make same_digest b_digest blobs)) w) as [missing w1].
    assert (SUB : forall b, In b (GetValues same_digest same_blob (Make same_digest b_digest blobs) missing) ->
      In b blobs /\ In (b_digest b, b) (Make same_digest b_digest blobs)).
    { intros b H. apply get_values_spec in H. destruct H as (k & _ & H). apply ref_in in H. destruct H as (k' & H & _).
      assert (H' := H). apply make_in in H. destruct H as [H ->]. auto. }
    apply do_upload_done.
    + eapply Nat.le_lt_trans; [apply get_values_few|exact L].
    + intros b H. apply HB. now apply SUB.
    + apply nodup_map_on.
      * unfold GetValues. set (m := Make same_digest b_digest blobs). clearbody m. clear.
        assert (X : forall ks acc, NoDup acc -> NoDup (fold_left (fun r k => match GetReference same_digest m k with
          Some v => insert same_blob v r | None => r end) ks acc)).
        { induction ks as [|k ks IH]; intros acc H; cbn [fold_left]; [exact H|]. apply IH.
          destruct (GetReference same_digest m k) as [v|]; [|exact H]. unfold insert.
          destruct (existsb (same_blob v) acc) eqn:E; [exact H|].
          apply NoDup_Add with (1 := Add_app v acc []). rewrite app_nil_r. split; [exact H|]. intros I.
          assert (Y : existsb (same_blob v) acc = true); [|congruence]. apply existsb_exists. exists v. split; [exact I|apply same_blob_refl]. }
        apply X. constructor.
      * intros x y Hx Hy E. apply SUB in Hx. apply SUB in Hy. destruct Hx as [Hx1 Hx2], Hy as [Hy1 Hy2].
        apply wire_inj in E; [|now apply HB..]. assert (Z := make_unique _ _ _ _ _ Hx2 Hy2 E). congruence.
Qed.

End Obliging.

(** ** What is missing, exactly *)
Section Exact.
Variable W : Type.
Variable C : setup.
Variable R : remote W.
Variable stored : W -> string -> Prop.
Hypothesis AT : 0 < attempts C.
Hypothesis FIT : forall k, request_size C [] + request_size C [(k, "")] <= max_grpc C.
Hypothesis ANS : forall q w, exists missing, find_missing R q w = (inl missing, w) /\
  forall d, In d missing -> ~ stored w (w_hash d).

Lemma find_loop_exact : forall m fuel keys res w res' w',
  find_loop W C R fuel m keys res w = (res', w') ->
  w' = w /\ forall d, In d res' -> In d res \/ exists k, ~ stored w (w_hash k) /\ GetReference same_wire m k = Some d.
Proof.
  intros m. induction fuel as [|f IH]; intros keys res w res' w' E.
  - destruct keys; cbn in E; injection E as <- <-; auto.
  - destruct keys as [|k r]; [cbn in E; injection E as <- <-; auto|]. cbn [find_loop] in E.
    destruct (InitRequest C (fun d => Some (d, "")) (fun _ => 0) None (k :: r) [] 0) as [req rest] eqn:Q.
    assert (NE : req <> []).
    { cbn [InitRequest] in Q. assert (X := FIT k). destruct (Nat.ltb_spec (max_grpc C) (request_size C [] + request_size C [(k, "")])); [lia|].
      apply init_request in Q. destruct Q as (_ & es & _ & -> & _). discriminate. }
    destruct req as [|e es]; [congruence|].
    destruct (ANS (map fst (e :: es)) w) as (missing & A1 & A2).
    destruct (attempts C) as [|n]; [lia|]. cbn [WithRetry] in E. unfold grpc_call in E. rewrite A1 in E.
    apply IH in E. destruct E as [-> E]. split; [reflexivity|]. intros d H. apply E in H. destruct H as [H|H]; [|now right].
    destruct (add_known_spec m missing res) as (_ & B & _). apply B in H. destruct H as [H|(k' & K1 & K2)]; [now left|].
    right. exists k'. auto.
Qed.

Lemma find_missing_exact : forall digests w missing w',
  FindMissingBlobs W C R digests w = (missing, w') ->
  w' = w /\ forall d, In d missing -> ~ stored w (w_hash (ToBazel (hashing C) d)).
Proof.
  intros digests w missing w' E. unfold FindMissingBlobs in E. apply find_loop_exact in E. destruct E as [-> E].
  split; [reflexivity|]. intros d H. apply E in H. destruct H as [[]|(k & K1 & K2)]. apply ref_in in K2.
  destruct K2 as (k' & K2 & K3). apply make_in in K2. destruct K2 as [_ ->]. apply same_wire_iff in K3.
  unfold wire in K3. now rewrite <- K3.
Qed.
End Exact.

(** ** Downloads *)
Section Downloads.
Variable W : Type.
Variable C : setup.
Variable R : remote W.

Definition true_blob (b : blob) : Prop := digest_of (hash C) (b_digest b) (b_data b).

Lemma single_true : forall d w b w', ReadSingleBlob W C R d w = (Some b, w') ->
  true_blob b /\ same_object d (b_digest b).
Proof.
  intros d w b w' E. unfold ReadSingleBlob in E. destruct (stream_read R (wire C d) w) as [arrived w1].
  destruct (client_read (hash C) d arrived) as [data|] eqn:CR; [|discriminate E]. injection E as <- <-.
  unfold client_read in CR. destruct (receive (fst arrived) (snd arrived)) as [x ok].
  destruct (ok && String.eqb (hash C (d_tree d) x) (d_hash d)) eqn:T; [|discriminate CR]. injection CR as <-.
  apply andb_true_iff in T. destruct T as [_ T]. apply String.eqb_eq in T. split; [split; [exact T|reflexivity]|now split].
Qed.

Lemma from_true : forall t data, true_blob (blob_from C t data).
Proof. intros t data. now split. Qed.

Lemma insert_blobs : forall bs acc b, In b (fold_left (fun a x => insert same_blob x a) bs acc) -> In b acc \/ In b bs.
Proof.
  induction bs as [|x bs IH]; intros acc b H; cbn [fold_left] in H; [now left|]. apply IH in H.
  destruct H as [H|H]; [|right; now right]. apply in_insert in H. destruct H as [->|H]; [right; now left|now left].
Qed.

Lemma insert_blobs_keeps : forall bs acc b, In b acc -> In b (fold_left (fun a x => insert same_blob x a) bs acc).
Proof.
  induction bs as [|x bs IH]; intros acc b H; cbn [fold_left]; [exact H|]. apply IH. now apply insert_keeps.
Qed.

Lemma insert_blobs_has : forall bs acc b, In b bs ->
  exists y, In y (fold_left (fun a x => insert same_blob x a) bs acc) /\ same_blob b y = true.
Proof.
  induction bs as [|x bs IH]; intros acc b H; [destruct H|]. cbn [fold_left]. destruct H as [->|H]; [|now apply IH].
  destruct (insert_has same_blob b acc same_blob_refl) as (y & Y & Z). exists y. split; [now apply insert_blobs_keeps|exact Z].
Qed.

Lemma read_loop_true : forall m fuel keys res w res' w', read_loop W C R fuel m keys res w = (res', w') ->
  (forall b, In b res -> true_blob b) -> forall b, In b res' -> true_blob b.
Proof.
  intros m. induction fuel as [|f IH]; intros keys res w res' w' E HR.
  - destruct keys; cbn in E; injection E as <- <-; auto.
  - destruct keys as [|k r]; [cbn in E; injection E as <- <-; auto|]. cbn [read_loop] in E.
    destruct (InitRequest C (fun d => Some (d, "")) (fun d => N.to_nat (w_size d)) (Some (max_batch C)) (k :: r) [] 0) as [req rest].
    destruct req as [|e es].
    + destruct (GetReference same_wire m k) as [d|]; [|exact (IH _ _ _ _ _ E HR)].
      destruct (ReadSingleBlob W C R d w) as [[b|] w1] eqn:S; [|exact (IH _ _ _ _ _ E HR)].
      apply single_true in S. apply (IH _ _ _ _ _ E). intros x H. apply in_insert in H. destruct H as [->|H]; [apply S|auto].
    + set (q := map fst (e :: es)) in *.
      match type of E with context [WithRetry W ?n ?f ?w] => destruct (WithRetry W n f w) as [[bs|] w1] eqn:F end;
        [|exact (IH _ _ _ _ _ E HR)].
      destruct (retry_some W (fun _ _ => True) _ (fun _ => I) (fun _ _ _ _ _ => I) (fun _ => I) _ _ _ _ F) as [_ S].
      destruct (S bs eq_refl) as (w0 & _ & G). unfold batch_call in G.
      destruct (batch_read R q w0) as [[l|c] w2]; [|discriminate G]. injection G as G _. apply process_ok in G. destruct G as [-> _].
      apply (IH _ _ _ _ _ E). intros x H. apply insert_blobs in H. destruct H as [H|H]; [auto|].
      apply in_flat_map in H. destruct H as (y & _ & H). destruct (GetReference same_wire m (fst (fst y))); [|destruct H].
      destruct H as [<-|[]]. apply from_true.
Qed.

Lemma singles_true : forall digests single to_batch w s b w',
  read_single_ones W C R digests single to_batch w = (s, b, w') ->
  (forall x, In x single -> true_blob x) -> forall x, In x s -> true_blob x.
Proof.
  induction digests as [|d r IH]; intros single to_batch w s b w' E H; cbn [read_single_ones] in E.
  - injection E as <- <- <-. exact H.
  - destruct (N.eqb (d_size d) 0 || Nat.ltb (max_batch C) (N.to_nat (d_size d))); [|exact (IH _ _ _ _ _ _ E H)].
    destruct (ReadSingleBlob W C R d w) as [[x|] w1] eqn:S; [|exact (IH _ _ _ _ _ _ E H)].
    apply single_true in S. apply (IH _ _ _ _ _ _ E). intros y Hy. apply in_insert in Hy. destruct Hy as [->|Hy]; [apply S|auto].
Qed.

Lemma read_true : forall digests w bs w', Read W C R digests w = (bs, w') -> forall b, In b bs -> true_blob b.
Proof.
  intros digests w bs w' E b H. unfold Read in E.
  destruct (read_single_ones W C R digests [] [] w) as [[s tb] w1] eqn:S.
  destruct (BatchReadBlobs W C R tb w1) as [batch w2] eqn:B. injection E as <- <-.
  apply insert_blobs in H. destruct H as [H|H].
  - apply (singles_true _ _ _ _ _ _ _ S); [intros x []|exact H].
  - unfold BatchReadBlobs in B. apply (read_loop_true _ _ _ _ _ _ _ B); [intros x []|exact H].
Qed.

Lemma ordered_true : forall digests w bs w', ReadOrdered W C R digests w = (bs, w') ->
  exists ds, subsequence ds digests /\
    Forall2 (fun d b => same_object d (b_digest b) /\ true_blob b) ds bs.
Proof.
  intros digests w bs w' E. unfold ReadOrdered in E.
  destruct (Read W C R (fold_left (fun acc d => insert same_digest d acc) digests []) w) as [rd w1] eqn:RD.
  injection E as <- <-. assert (T := read_true _ _ _ _ RD). clear RD.
  induction digests as [|d r (ds & S & F)]; [exists []; split; constructor|]. cbn [flat_map].
  destruct (GetReference same_digest (Make same_digest b_digest rd) d) as [b|] eqn:G.
  - exists (d :: ds). split; [now constructor|]. cbn [app]. constructor; [|exact F].
    apply ref_in in G. destruct G as (k & G1 & G2). apply make_in in G1. destruct G1 as [G1 ->].
    apply same_digest_iff in G2. auto.
  - exists ds. split; [now constructor|exact F].
Qed.

(** ** Downloads from a storage that has everything *)
Variable content : wire_digest -> string.
Hypothesis AT : 0 < attempts C.
Hypothesis CK : 0 < chunk_size C.
Hypothesis BR : forall q w, exists w', batch_read R q w = (inl (map (fun k => (k, OK, content k)) q), w').
Hypothesis SR : forall k w, exists w', stream_read R k w =
  (send_all (chunk_size C) (FileSource (content k) (fun _ => true)) 0, w').

Definition there (d : digest) : Prop := wellformed (hashing C) d /\ hash C (d_tree d) (content (wire C d)) = d_hash d.
(** The content is a function of the hash. *)
Hypothesis CF : forall k k', w_hash k = w_hash k' -> content k = content k'.

Definition got (res : list blob) (d : digest) : Prop :=
  exists b, In b res /\ same_object d (b_digest b) /\ b_exec b = false.

Lemma single_got : forall d w, there d -> exists b w', ReadSingleBlob W C R d w = (Some b, w') /\
  same_object d (b_digest b) /\ b_exec b = false.
Proof.
  intros d w [WF H]. unfold ReadSingleBlob. destruct (SR (wire C d) w) as (w1 & ->).
  assert (X := download_done (chunk_size C) CK (FileSource (content (wire C d)) (fun _ => true)) (fun _ => eq_refl)).
  cbn [content_of] in X. unfold client_read. rewrite X. cbn [andb]. rewrite H, String.eqb_refl.
  eexists _, w1. split; [reflexivity|]. repeat split.
Qed.

Lemma got_insert : forall res b d, got res d -> got (insert same_blob b res) d.
Proof. intros res b d (x & X & Y). exists x. split; [now apply insert_keeps|exact Y]. Qed.
Lemma got_new : forall res b d, same_object d (b_digest b) -> b_exec b = false -> got (insert same_blob b res) d.
Proof.
  intros res b d S E. destruct (insert_has same_blob b res same_blob_refl) as (y & Y & Z). apply same_blob_iff in Z.
  destruct Z as [[Z1 Z2] Z3]. exists y. split; [exact Y|]. destruct S. repeat split; congruence.
Qed.
Lemma got_all : forall bs res d, got res d -> got (fold_left (fun a x => insert same_blob x a) bs res) d.
Proof. intros bs res d (x & X & Y). exists x. split; [now apply insert_blobs_keeps|exact Y]. Qed.

Lemma read_loop_got : forall m fuel keys res w res' w', read_loop W C R fuel m keys res w = (res', w') ->
  length keys <= fuel ->
  (forall k, In k keys -> exists d, GetReference same_wire m k = Some d /\ there d /\ w_hash k = w_hash (wire C d)) ->
  (forall d, got res d -> got res' d) /\
  (forall k d, In k keys -> GetReference same_wire m k = Some d -> got res' d).
Proof.
  intros m. induction fuel as [|f IH]; intros keys res w res' w' E L HK.
  - destruct keys; [|cbn in L; lia]. cbn in E. injection E as <- <-. split; [auto|]. intros k d [].
  - destruct keys as [|k r]; [cbn in E; injection E as <- <-; split; [auto|intros k d []]|]. cbn [read_loop] in E.
    destruct (InitRequest C (fun d => Some (d, "")) (fun d => N.to_nat (w_size d)) (Some (max_batch C)) (k :: r) [] 0)
      as [req rest] eqn:Q.
    apply init_request in Q. destruct Q as (taken & es & QA & QB & QC). cbn [app] in QB. subst req.
    assert (QD : map fst es = taken).
    { clear - QC. induction QC as [|x e xs es H _ IH]; [reflexivity|]. cbn. rewrite IH. injection H as <-. reflexivity. }
    destruct es as [|e es].
    + clear QA QC QD. destruct (HK k (or_introl eq_refl)) as (d & G & TH & _). rewrite G in E.
      destruct (single_got d w TH) as (b & w1 & S & SO & EX). rewrite S in E.
      apply IH in E; [|cbn in L; lia|intros k' H; apply HK; now right]. destruct E as [E1 E2]. split.
      * intros d' H. apply E1. now apply got_insert.
      * intros k' d' [<-|H] G'; [|now apply (E2 k')]. rewrite G in G'. injection G' as <-. apply E1. now apply got_new.
    + rewrite QD in E.
      assert (LR : length rest <= f).
      { apply (f_equal (@length _)) in QA. rewrite app_length in QA. destruct taken; [inversion QC|].
        cbn [length] in QA, L. lia. }
      destruct (attempts C) as [|n]; [lia|]. cbn [WithRetry] in E. unfold batch_call in E.
      destruct (BR taken w) as (w1 & B). rewrite B, process_all in E
        by (intros x H; apply in_map_iff in H; destruct H as (y & <- & _); reflexivity).
      apply IH in E; [|exact LR|intros k' H; apply HK; rewrite QA; apply in_or_app; now right].
      destruct E as [E1 E2]. split.
      * intros d H. apply E1. now apply got_all.
      * intros k' d H G. rewrite QA in H. apply in_app_or in H. destruct H as [H|H]; [|now apply (E2 k')].
        apply E1.
        assert (IB : In (blob_from C (d_tree d) (content k')) (flat_map (fun x : wire_digest * code * string =>
          match GetReference same_wire m (fst (fst x)) with Some d0 => [blob_from C (d_tree d0) (snd x)] | None => [] end)
          (map (fun k0 => (k0, OK, content k0)) taken))).
        { apply in_flat_map. exists (k', OK, content k'). split; [apply in_map_iff; eauto|]. cbn [fst snd]. rewrite G. now left. }
        destruct (insert_blobs_has _ res _ IB) as (y & Y & Z). exists y. split; [exact Y|].
        apply same_blob_iff in Z. destruct Z as [[Z1 Z2] Z3]. cbn in Z1, Z2, Z3.
        destruct (HK k') as (d' & G' & [_ TH] & WH); [rewrite QA; apply in_or_app; now left|].
        rewrite G in G'. injection G' as <-. rewrite (CF k' (wire C d) WH), TH in Z1. repeat split; auto.
Qed.

Lemma batch_got : forall digests w bs w', BatchReadBlobs W C R digests w = (bs, w') ->
  (forall d, In d digests -> there d) -> forall d, In d digests -> got bs d.
Proof.
  intros digests w bs w' E TH d H. unfold BatchReadBlobs in E. set (m := Make same_wire (wire C) digests) in *.
  assert (MK : forall k d, GetReference same_wire m k = Some d -> In d digests /\ w_hash k = w_hash (wire C d)).
  { intros k v G. apply ref_in in G. destruct G as (k' & G1 & G2). apply make_in in G1. destruct G1 as [G1 ->].
    apply same_wire_iff in G2. auto. }
  apply read_loop_got in E; [|lia|].
  - destruct E as [_ E]. destruct (make_has same_wire (wire C) digests d same_wire_refl H) as ([k v] & P & Q). cbn [fst] in Q.
    destruct (ref_has same_wire m k (k, v) P (same_wire_refl k)) as (v' & G).
    assert (X := E k v' ltac:(unfold GetKeys; change k with (fst (k, v)); now apply in_map) G).
    apply MK in G. destruct G as [G1 G2]. apply same_wire_iff in Q.
    assert (SO : same_object d v').
    { apply (wire_inj (hashing C)); [now apply TH|now apply TH|]. unfold wire in *. congruence. }
    destruct X as (b & B1 & [B2 B3] & B4). exists b. split; [exact B1|]. destruct SO. repeat split; congruence.
  - intros k HKk. unfold GetKeys in HKk. apply in_map_iff in HKk. destruct HKk as (p & <- & HKk).
    destruct (ref_has same_wire m (fst p) p HKk (same_wire_refl _)) as (v & G). exists v. split; [exact G|].
    apply MK in G. destruct G. split; [now apply TH|assumption].
Qed.

Lemma singles_got : forall digests single to_batch w s b w',
  read_single_ones W C R digests single to_batch w = (s, b, w') -> (forall d, In d digests -> there d) ->
  (forall d, got single d -> got s d) /\ (forall d, In d to_batch -> In d b) /\
  (forall d, In d b -> In d to_batch \/ In d digests) /\
  (forall d, In d digests -> got s d \/ In d b).
Proof.
  induction digests as [|d r IH]; intros single to_batch w s b w' E TH; cbn [read_single_ones] in E.
  - injection E as <- <- <-. split; [auto|]. split; [auto|]. split; [auto|]. intros d [].
  - assert (TH' : forall d, In d r -> there d) by (intros x H; apply TH; now right).
    destruct (N.eqb (d_size d) 0 || Nat.ltb (max_batch C) (N.to_nat (d_size d))).
    + destruct (single_got d w (TH d (or_introl eq_refl))) as (x & w1 & S & SO & EX). rewrite S in E.
      apply IH in E; [|exact TH']. destruct E as (E1 & E2 & E3 & E4). repeat split.
      * intros d' H. apply E1. now apply got_insert.
      * exact E2.
      * intros d' H. destruct (E3 d' H); [now left|right; now right].
      * intros d' [<-|H]; [|auto]. left. apply E1. now apply got_new.
    + apply IH in E; [|exact TH']. destruct E as (E1 & E2 & E3 & E4). repeat split.
      * exact E1.
      * intros d' H. apply E2. apply in_or_app. now left.
      * intros d' H. destruct (E3 d' H) as [X|X]; [|right; now right]. apply in_app_or in X. destruct X as [X|[<-|[]]]; [now left|right; now left].
      * intros d' [<-|H]; [|auto]. right. apply E2. apply in_or_app. right. now left.
Qed.

Lemma read_got : forall digests w bs w', Read W C R digests w = (bs, w') ->
  (forall d, In d digests -> there d) -> forall d, In d digests -> got bs d.
Proof.
  intros digests w bs w' E TH d H. unfold Read in E.
  destruct (read_single_ones W C R digests [] [] w) as [[s tb] w1] eqn:S.
  destruct (BatchReadBlobs W C R tb w1) as [batch w2] eqn:B. injection E as <- <-.
  apply singles_got in S; [|exact TH]. destruct S as (_ & _ & S3 & S4). destruct (S4 d H) as [G|G]; [now apply got_all|].
  assert (X : got batch d).
  { apply (batch_got _ _ _ _ B); [|exact G]. intros x Hx. destruct (S3 x Hx) as [[]|Y]. now apply TH. }
  destruct X as (b & B1 & [B2 B3] & B4). destruct (insert_blobs_has batch s b B1) as (y & Y & Z). apply same_blob_iff in Z.
  destruct Z as [[Z1 Z2] Z3]. exists y. split; [exact Y|]. repeat split; congruence.
Qed.

Lemma set_of : forall digests acc,
  (forall d, In d (fold_left (fun acc d => insert same_digest d acc) digests acc) -> In d acc \/ In d digests) /\
  (forall d, In d acc -> In d (fold_left (fun acc d => insert same_digest d acc) digests acc)) /\
  (forall d, In d digests -> exists d', In d' (fold_left (fun acc d => insert same_digest d acc) digests acc) /\ same_object d d').
Proof.
  induction digests as [|d r IH]; intros acc; cbn [fold_left]; [repeat split; auto; intros d []|].
  destruct (IH (insert same_digest d acc)) as (A & B & D). repeat split.
  - intros x H. destruct (A x H) as [X|X]; [|right; now right]. apply in_insert in X. destruct X as [->|X]; [right; now left|now left].
  - intros x H. apply B. now apply insert_keeps.
  - intros x [<-|H]; [|now apply D]. destruct (insert_has same_digest d acc same_digest_refl) as (y & Y & Z).
    exists y. split; [now apply B|]. now apply same_digest_iff.
Qed.

Lemma ordered_got : forall digests w bs w', ReadOrdered W C R digests w = (bs, w') ->
  (forall d, In d digests -> there d) -> length bs = length digests.
Proof.
  intros digests w bs w' E TH. unfold ReadOrdered in E.
  destruct (set_of digests []) as (A & _ & D). set (set0 := fold_left _ digests []) in *.
  destruct (Read W C R set0 w) as [rd w1] eqn:RD. injection E as <- <-.
  assert (G := read_got _ _ _ _ RD ltac:(intros d H; destruct (A d H) as [[]|X]; now apply TH)).
  assert (X : forall d, In d digests -> exists b, GetReference same_digest (Make same_digest b_digest rd) d = Some b).
  { intros d H. destruct (D d H) as (d' & D1 & [D2 D3]). destruct (G d' D1) as (b & B1 & [B2 B3] & _).
    destruct (make_has same_digest b_digest rd b same_digest_refl B1) as (p & P1 & P2). apply same_digest_iff in P2.
    apply (ref_has same_digest _ d p P1). apply same_digest_iff. destruct P2. split; congruence. }
  clear - X. induction digests as [|d r IH]; [reflexivity|]. cbn [flat_map]. rewrite app_length, IH by (intros x H; apply X; now right).
  destruct (X d (or_introl eq_refl)) as (b & ->). reflexivity.
Qed.

End Downloads.
