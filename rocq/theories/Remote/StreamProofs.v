(** Proofs about transfers in pieces. *)
From Coq Require Import String Ascii NArith List Bool Arith Lia.
From Verif Require Import Describe.Model Remote.Names Remote.NamesSpec Remote.NamesProofs Remote.Stream.
Import ListNotations.
Local Open Scope string_scope.
Local Open Scope list_scope.
Local Open Scope nat_scope.

Lemma str_list_inj : forall a b, list_ascii_of_string a = list_ascii_of_string b -> a = b.
Proof.
  intros a b E. rewrite <- (string_of_list_ascii_of_string a), <- (string_of_list_ascii_of_string b). congruence.
Qed.

Lemma length_list : forall s, List.length (list_ascii_of_string s) = String.length s.
Proof. induction s as [|c s IH]; cbn; [reflexivity|now rewrite IH]. Qed.

Lemma substring_list : forall s n m, list_ascii_of_string (substring n m s) = firstn m (skipn n (list_ascii_of_string s)).
Proof.
  induction s as [|c s IH]; intros n m; destruct n as [|n]; cbn.
  - now destruct m.
  - now rewrite firstn_nil.
  - destruct m as [|m]; cbn; [reflexivity|]. rewrite IH. reflexivity.
  - apply IH.
Qed.

(** What is left from an offset on. *)
Definition rest (s : string) (n : nat) : string := substring n (String.length s - n) s.

Lemma rest_list : forall s n, list_ascii_of_string (rest s n) = skipn n (list_ascii_of_string s).
Proof.
  intros s n. unfold rest. rewrite substring_list. apply firstn_all2. rewrite skipn_length, length_list. lia.
Qed.

Lemma rest_0 : forall s, rest s 0 = s.
Proof. intros s. apply str_list_inj. now rewrite rest_list. Qed.

Lemma rest_end : forall s n, String.length s <= n -> rest s n = "".
Proof.
  intros s n H. apply str_list_inj. rewrite rest_list. apply skipn_all2. now rewrite length_list.
Qed.

Lemma skip_add : forall (l : list ascii) n m, skipn n (skipn m l) = skipn (m + n) l.
Proof.
  intros l n m. revert l. induction m as [|m IH]; intros l; [reflexivity|].
  destruct l as [|x l]; [now rewrite !skipn_nil|]. cbn. apply IH.
Qed.

Lemma rest_step : forall s n k, (substring n k s ++ rest s (n + k) = rest s n)%string.
Proof.
  intros s n k. apply str_list_inj. rewrite of_app, substring_list, !rest_list, <- skip_add.
  apply firstn_skipn.
Qed.

Lemma substring_length : forall s n k, String.length (substring n k s) = Nat.min k (String.length s - n).
Proof. intros s n k. rewrite <- length_list, substring_list, firstn_length, skipn_length, length_list. lia. Qed.

Lemma substring_min : forall s n k, substring n (Nat.min k (String.length s - n)) s = substring n k s.
Proof.
  intros s n k. apply str_list_inj. rewrite !substring_list.
  destruct (Nat.le_ge_cases k (String.length s - n)) as [H|H].
  - now rewrite Nat.min_l.
  - rewrite Nat.min_r by exact H. rewrite !firstn_all2; [reflexivity| |]; rewrite skipn_length, length_list; lia.
Qed.

Definition all (ms : list string) : string := fold_right append "" ms.

Section Chunks.
Variable k : nat.
Hypothesis K : 0 < k.

(** A source that can be read everywhere. *)
Definition readable (s : source) : Prop :=
  match s with FileSource _ r => forall i, r i = true | MemorySource _ => True end.

Lemma read_chunk : forall s o c, ReadChunk k s o = Some c -> o <= content_size s ->
  c = substring o k (content_of s) /\ (o < content_size s \/ content_size s = 0 -> True).
Proof.
  intros s o c H Ho. split; [|auto]. destruct s as [b r|b]; cbn [ReadChunk content_of] in *.
  - destruct (r o); congruence.
  - unfold content_size in Ho. cbn [content_of] in Ho. destruct (Nat.eqb_spec (String.length b) 0) as [E|E].
    + injection H as <-. destruct b; [|discriminate E]. now destruct o, k.
    + destruct (Nat.ltb_spec o (String.length b)); [|discriminate H]. injection H as <-. apply substring_min.
Qed.

Lemma can_read : forall s o, readable s -> o < content_size s \/ content_size s = 0 ->
  o <= content_size s -> ReadChunk k s o = Some (substring o k (content_of s)).
Proof.
  intros s o R H Ho. assert (X : exists c, ReadChunk k s o = Some c).
  { destruct s as [b r|b]; cbn [ReadChunk content_of] in *.
    - rewrite R. eauto.
    - unfold content_size in H. cbn in H. destruct (Nat.eqb_spec (String.length b) 0); [eauto|].
      destruct (Nat.ltb_spec o (String.length b)); [eauto|lia]. }
  destruct X as (c & E). rewrite E. f_equal. now apply read_chunk.
Qed.

(** The messages of a download: their concatenation, as far as they go. *)
Lemma send_prefix : forall f s o ms st, send_from k f s o = (ms, st) -> o <= content_size s ->
  exists more, (all ms ++ more = rest (content_of s) o)%string /\ (st = OK -> more = "").
Proof.
  induction f as [|f IH]; intros s o ms st E Ho; cbn [send_from] in E.
  - destruct (Nat.eqb_spec o (end_offset s)) as [X|X]; injection E as <- <-.
    + unfold end_offset in X. lia.
    + exists (rest (content_of s) o). split; [reflexivity|discriminate].
  - destruct (Nat.eqb_spec o (end_offset s)) as [X|X]; [unfold end_offset in X; lia|].
    destruct (ReadChunk k s o) as [c|] eqn:R.
    2:{ injection E as <- <-. exists (rest (content_of s) o). split; [reflexivity|discriminate]. }
    apply read_chunk in R; [|exact Ho]. destruct R as [-> _].
    destruct (send_from k f s (next k s o)) as [ms0 st0] eqn:F. injection E as <- <-.
    unfold next in F. destruct (Nat.leb_spec (content_size s) (o + k)) as [L|L].
    + assert (Y : send_from k f s (end_offset s) = ([], OK)) by (destruct f; cbn; now rewrite Nat.eqb_refl).
      rewrite Y in F. injection F as <- <-. exists "". cbn. split; [|reflexivity].
      rewrite !app_str_nil, <- (rest_step (content_of s) o k). unfold content_size in L.
      rewrite (rest_end (content_of s) (o + k)) by exact L. now rewrite app_str_nil.
    + apply IH in F; [|lia]. destruct F as (more & F & G). exists more. split; [|exact G].
      change (all (substring o k (content_of s) :: ms0)) with (substring o k (content_of s) ++ all ms0)%string.
      rewrite app_str_assoc, F. apply rest_step.
Qed.

Lemma send_done : forall f s o, readable s -> o < content_size s \/ content_size s = 0 ->
  o <= content_size s -> content_size s - o < f -> snd (send_from k f s o) = OK.
Proof.
  induction f as [|f IH]; intros s o R H Ho Hf; [lia|]. cbn [send_from].
  destruct (Nat.eqb_spec o (end_offset s)); [reflexivity|]. rewrite can_read by auto.
  unfold next. destruct (Nat.leb_spec (content_size s) (o + k)) as [L|L].
  - assert (Y : send_from k f s (end_offset s) = ([], OK)) by (destruct f; cbn; now rewrite Nat.eqb_refl).
    now rewrite Y.
  - assert (X := IH s (o + k) R). destruct (send_from k f s (o + k)) as [ms st]. apply X; lia.
Qed.

(** No message but the one for empty contents is empty. *)
Lemma send_nonempty : forall f s o ms st, send_from k f s o = (ms, st) ->
  o < content_size s -> forall m, In m ms -> m <> "".
Proof.
  induction f as [|f IH]; intros s o ms st E Ho m Hm; cbn [send_from] in E.
  - destruct (Nat.eqb o (end_offset s)); injection E as <- <-; destruct Hm.
  - destruct (Nat.eqb_spec o (end_offset s)) as [X|X]; [unfold end_offset in X; lia|].
    destruct (ReadChunk k s o) as [c|] eqn:R; [|injection E as <- <-; destruct Hm].
    apply read_chunk in R; [|lia]. destruct R as [-> _].
    destruct (send_from k f s (next k s o)) as [ms0 st0] eqn:F. injection E as <- <-.
    destruct Hm as [<-|Hm].
    + intros E. apply (f_equal String.length) in E. rewrite substring_length in E. cbn in E.
      unfold content_size in Ho. lia.
    + unfold next in F. destruct (Nat.leb_spec (content_size s) (o + k)) as [L|L].
      * assert (Y : send_from k f s (end_offset s) = ([], OK)) by (destruct f; cbn; now rewrite Nat.eqb_refl).
        rewrite Y in F. injection F as <- <-. destruct Hm.
      * now apply (IH _ _ _ _ F).
Qed.

Lemma send_empty : forall s, content_size s = 0 ->
  fst (send_all k s 0) = [""] \/ fst (send_all k s 0) = [].
Proof.
  intros s E. unfold send_all, make_iterator. rewrite Nat.min_0_l. unfold end_offset. rewrite E. cbn [send_from].
  unfold end_offset. rewrite E. cbn [Nat.eqb].
  destruct (ReadChunk k s 0) as [c|] eqn:R; [|now right].
  apply read_chunk in R; [|lia]. destruct R as [-> _]. unfold next. rewrite E. cbn [Nat.leb]. unfold end_offset. rewrite E. cbn.
  left. f_equal. unfold content_size in E. destruct (content_of s); [|discriminate E]. destruct k; reflexivity.
Qed.

Lemma receive_all : forall ms st, (forall m, In m ms -> m <> "") -> receive ms st = (all ms, is_ok st).
Proof.
  induction ms as [|m ms IH]; intros st H; cbn [receive]; [reflexivity|].
  destruct (String.eqb_spec m "") as [->|Hm]; [destruct (H ""); [now left|reflexivity]|].
  rewrite IH by (intros x Hx; apply H; now right). reflexivity.
Qed.

Lemma first_in {A} : forall n (l : list A) x, In x (firstn n l) -> In x l.
Proof.
  induction n as [|n IH]; intros l x H; [destruct H|]. destruct l as [|y l]; [destruct H|].
  destruct H as [->|H]; [now left|right; now apply IH].
Qed.

(** Whatever part of the messages arrives: the data are complete if no error is
    reported. *)
Lemma download_intact : forall s cut x,
  (forall n c, cut = Some (n, c) -> c <> OK) ->
  receive (fst (deliver cut (send_all k s 0))) (snd (deliver cut (send_all k s 0))) = (x, true) ->
  x = content_of s.
Proof.
  intros s cut x HC H. destruct (Nat.eq_dec (content_size s) 0) as [Z|Z].
  - assert (Y : content_of s = "").
    { unfold content_size in Z. destruct (content_of s); [reflexivity|discriminate Z]. }
    rewrite Y. destruct (send_empty s Z) as [E|E]; destruct cut as [[n c]|]; cbn [deliver fst snd] in H; rewrite E in H.
    + destruct n as [|n]; cbn in H; [|congruence]. congruence.
    + cbn in H. congruence.
    + rewrite firstn_nil in H. cbn in H. congruence.
    + cbn in H. congruence.
  - unfold send_all in H. unfold make_iterator in H. rewrite Nat.min_0_l in H.
    destruct (send_from k (S (S (content_size s))) s 0) as [ms st] eqn:E.
    assert (NE := send_nonempty _ _ _ _ _ E ltac:(lia)).
    apply send_prefix in E; [|lia]. destruct E as (more & E & F). rewrite rest_0 in E.
    destruct cut as [[n c]|]; cbn [deliver fst snd] in H.
    + rewrite receive_all in H by (intros m Hm; apply NE; eapply first_in; eauto).
      injection H as _ H. destruct c; try discriminate H. destruct (HC n OK eq_refl eq_refl).
    + rewrite receive_all in H by exact NE. injection H as <- H.
      destruct st; try discriminate H. rewrite (F eq_refl), app_str_nil in E. exact E.
Qed.

Lemma download_done : forall s, readable s ->
  receive (fst (send_all k s 0)) (snd (send_all k s 0)) = (content_of s, true).
Proof.
  intros s R. assert (D := send_done (S (S (content_size s))) s 0 R ltac:(lia) ltac:(lia) ltac:(lia)).
  assert (X : exists x, receive (fst (send_all k s 0)) (snd (send_all k s 0)) = (x, true)).
  { unfold send_all, make_iterator. rewrite Nat.min_0_l.
    destruct (send_from k (S (S (content_size s))) s 0) as [ms st]. cbn [fst snd] in *. subst st.
    clear. induction ms as [|m ms (x & IH)]; cbn [receive]; [eexists; reflexivity|].
    destruct (String.eqb m ""); [eexists; reflexivity|]. rewrite IH. eexists. reflexivity. }
  destruct X as (x & E). rewrite E. f_equal. apply (download_intact s None x); [discriminate|]. exact E.
Qed.

(** Reading from an offset. *)
Lemma offset_done : forall s o, readable s -> o < content_size s \/ content_size s = 0 -> o <= content_size s ->
  all (fst (send_all k s o)) = rest (content_of s) o /\ snd (send_all k s o) = OK.
Proof.
  intros s o R H Ho. unfold send_all, make_iterator. rewrite Nat.min_l by (unfold end_offset; lia).
  assert (D := send_done (S (S (content_size s))) s o R H Ho ltac:(lia)).
  destruct (send_from k (S (S (content_size s))) s o) as [ms st] eqn:E. cbn [fst snd] in *. subst st.
  split; [|reflexivity]. apply send_prefix in E; [|exact Ho]. destruct E as (more & E & F).
  rewrite (F eq_refl), app_str_nil in E. exact E.
Qed.

(** ** Upload *)
Definition data_of (ms : list write_msg) : string := all (map m_data ms).

Lemma write_names : forall f i conn name sz s pos o ms ok, write_from k f i conn name sz s pos o = (ms, ok) ->
  forall m, In m ms -> m_name m = name.
Proof.
  induction f as [|f IH]; intros i conn name sz s pos o ms ok E m Hm; cbn [write_from] in E.
  - destruct (Nat.eqb o (end_offset s)); injection E as <- <-; destruct Hm.
  - destruct (Nat.eqb o (end_offset s)); [injection E as <- <-; destruct Hm|].
    destruct (ReadChunk k s o) as [c|]; [|injection E as <- <-; destruct Hm].
    destruct (fst (conn i)).
    + destruct (write_from k f (S i) conn name sz s (pos + String.length c) (next k s o)) as [ms0 ok0] eqn:F.
      injection E as <- <-. destruct Hm as [<-|Hm]; [reflexivity|]. exact (IH _ _ _ _ _ _ _ _ _ F m Hm).
    + destruct (N.eqb (snd (conn i)) 0); [injection E as <- <-; destruct Hm|]. exact (IH _ _ _ _ _ _ _ _ _ E m Hm).
Qed.

(** Each message holds data of the content, at the offset it tells. *)
Lemma write_positions : forall f i conn name sz s pos o ms ok, write_from k f i conn name sz s pos o = (ms, ok) ->
  o = end_offset s \/ (pos = o /\ o <= content_size s) ->
  forall m, In m ms -> m_data m = substring (m_offset m) (String.length (m_data m)) (content_of s).
Proof.
  induction f as [|f IH]; intros i conn name sz s pos o ms ok E P m Hm; cbn [write_from] in E.
  - destruct (Nat.eqb o (end_offset s)); injection E as <- <-; destruct Hm.
  - destruct (Nat.eqb_spec o (end_offset s)) as [|Ne]; [injection E as <- <-; destruct Hm|].
    destruct P as [P|[-> Ho]]; [contradiction|].
    destruct (ReadChunk k s o) as [c|] eqn:R; [|injection E as <- <-; destruct Hm].
    apply read_chunk in R as [R _]; [|exact Ho].
    assert (Lc : String.length c = Nat.min k (content_size s - o)).
    { rewrite R. apply substring_length. }
    destruct (fst (conn i)).
    + destruct (write_from k f (S i) conn name sz s (o + String.length c) (next k s o)) as [ms0 ok0] eqn:F.
      injection E as <- <-. destruct Hm as [<-|Hm].
      * cbn [m_data m_offset]. rewrite Lc. unfold content_size. rewrite substring_min. exact R.
      * refine (IH _ _ _ _ _ _ _ _ _ F _ m Hm). unfold next. destruct (Nat.leb_spec (content_size s) (o + k)); [now left|]. right. lia.
    + destruct (N.eqb (snd (conn i)) 0); [injection E as <- <-; destruct Hm|]. refine (IH _ _ _ _ _ _ _ _ _ E _ m Hm).
      unfold make_iterator, end_offset. destruct (Nat.le_gt_cases (N.to_nat (snd (conn i))) (content_size s)); [right; lia|left; lia].
Qed.

(** As long as messages are accepted: the data are the next ones, and only the
    last message is marked as such. *)
Lemma write_data : forall f i conn name s o ms ok,
  (forall j, fst (conn j) = false -> snd (conn j) = 0%N) ->
  write_from k f i conn name (content_size s) s o o = (ms, ok) -> o <= content_size s ->
  exists more, (data_of ms ++ more = rest (content_of s) o)%string /\ (ok = true -> more = "") /\
    (forall n, exists more', (collect (firstn n ms) ++ more' = rest (content_of s) o)%string) /\
    collect ms = data_of ms.
Proof.
  induction f as [|f IH]; intros i conn name s o ms ok Hc E Ho; cbn [write_from] in E.
  - destruct (Nat.eqb_spec o (end_offset s)) as [X|X]; injection E as <- <-; [unfold end_offset in X; lia|].
    exists (rest (content_of s) o). repeat split; [discriminate|]. intros n. exists (rest (content_of s) o).
    now rewrite firstn_nil.
  - destruct (Nat.eqb_spec o (end_offset s)) as [X|X]; [unfold end_offset in X; lia|].
    assert (NIL : ms = [] -> ok = false -> exists more, (data_of ms ++ more = rest (content_of s) o)%string /\
      (ok = true -> more = "") /\
      (forall n, exists more', (collect (firstn n ms) ++ more' = rest (content_of s) o)%string) /\
      collect ms = data_of ms).
    { intros -> ->. exists (rest (content_of s) o). repeat split; [discriminate|].
      intros n. exists (rest (content_of s) o). now rewrite firstn_nil. }
    destruct (ReadChunk k s o) as [c|] eqn:R; [|injection E as <- <-; now apply NIL].
    apply read_chunk in R; [|exact Ho]. destruct R as [-> _].
    destruct (fst (conn i)) eqn:CI.
    2:{ rewrite (Hc i CI) in E. cbn in E. injection E as <- <-. now apply NIL. }
    clear NIL. set (c := substring o k (content_of s)) in *.
    assert (LC : String.length c = Nat.min k (content_size s - o)) by apply substring_length.
    destruct (write_from k f (S i) conn name (content_size s) s (o + String.length c) (next k s o)) as [ms0 ok0] eqn:F.
    injection E as <- <-. unfold next in F. destruct (Nat.leb_spec (content_size s) (o + k)) as [L|L].
    + assert (Y : forall p, write_from k f (S i) conn name (content_size s) s p (end_offset s) = ([], true))
        by (intros p; destruct f; cbn; now rewrite Nat.eqb_refl).
      rewrite Y in F. injection F as <- <-.
      assert (FIN : Nat.leb (content_size s) (o + String.length c) = true) by (apply Nat.leb_le; lia).
      assert (DC : c = rest (content_of s) o).
      { rewrite <- (rest_step (content_of s) o k). unfold content_size in L. rewrite (rest_end _ (o + k)) by exact L.
        now rewrite app_str_nil. }
      exists "". unfold data_of. cbn [map m_data all fold_right]. rewrite !app_str_nil. repeat split; [exact DC| |].
      * intros n. destruct n as [|n]; cbn [firstn collect]; [eexists; reflexivity|].
        cbn [m_finish m_data]. rewrite FIN. exists "". now rewrite app_str_nil.
      * cbn [collect m_finish m_data]. now rewrite FIN.
    + replace (String.length c) with k in F by lia.
      assert (Y : Nat.leb (content_size s) (o + String.length c) = false) by (apply Nat.leb_gt; lia).
      rewrite Y in *.
      destruct (IH _ _ _ _ _ _ _ Hc F ltac:(lia)) as (more & A & B & C & D).
      assert (ST := rest_step (content_of s) o k). fold c in ST.
      exists more. unfold data_of in *. cbn [map m_data all fold_right] in *. repeat split.
      * fold (all (map m_data ms0)) in *. rewrite app_str_assoc, A. exact ST.
      * exact B.
      * intros n. destruct n as [|n]; cbn [firstn collect m_data m_finish] in *; [eexists; reflexivity|].
        destruct (C n) as (more' & G). exists more'. rewrite app_str_assoc, G. exact ST.
      * cbn [collect m_data m_finish]. now rewrite D.
Qed.

Lemma write_done : forall f i conn name sz s o, readable s ->
  (forall j, fst (conn j) = true) -> o < content_size s \/ content_size s = 0 -> o <= content_size s ->
  content_size s - o < f -> forall pos,
  snd (write_from k f i conn name sz s pos o) = true /\ fst (write_from k f i conn name sz s pos o) <> [].
Proof.
  induction f as [|f IH]; intros i conn name sz s o R Hc H Ho Hf pos; [lia|]. cbn [write_from].
  destruct (Nat.eqb_spec o (end_offset s)) as [X|_]; [unfold end_offset in X; lia|]. rewrite can_read by auto.
  rewrite Hc. unfold next. destruct (Nat.leb_spec (content_size s) (o + k)) as [L|L].
  - assert (Y : forall p, write_from k f (S i) conn name sz s p (end_offset s) = ([], true))
      by (intros p; destruct f; cbn; now rewrite Nat.eqb_refl).
    rewrite Y. cbn. split; [reflexivity|discriminate].
  - destruct (IH (S i) conn name sz s (o + k) R Hc ltac:(lia) ltac:(lia) ltac:(lia)
      (pos + String.length (substring o k (content_of s)))) as [A _].
    destruct (write_from k f (S i) conn name sz s (pos + String.length (substring o k (content_of s))) (o + k)) as [ms ok].
    cbn [fst snd] in *. split; [exact A|discriminate].
Qed.

End Chunks.
