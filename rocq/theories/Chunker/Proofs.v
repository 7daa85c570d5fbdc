(** Proofs about the file chunker. *)
From Coq Require Import List Ascii NArith Arith Bool Lia.
From Verif.Chunker Require Import Model Spec.
Import ListNotations.

Lemma nth_firstn' {A} (d : A) : forall n i l, i < n -> nth i (firstn n l) d = nth i l d.
Proof.
  induction n as [|n IH]; intros i l Hi; [lia|].
  destruct l as [|x l]; [reflexivity|]. destruct i as [|i]; [reflexivity|].
  cbn. apply IH. lia.
Qed.

Lemma nth_skipn' {A} (d : A) : forall n i l, nth i (skipn n l) d = nth (n + i) l d.
Proof.
  induction n as [|n IH]; intros i l; [reflexivity|].
  destruct l as [|x l]; [destruct i; reflexivity|]. cbn. apply IH.
Qed.

Lemma skipn_add {A} : forall a b (l : list A), skipn a (skipn b l) = skipn (b + a) l.
Proof.
  intros a b. induction b as [|b IH]; intros l; [reflexivity|].
  destruct l as [|x l]; [cbn; apply skipn_nil|]. cbn. apply IH.
Qed.

Lemma firstn_snoc {A} (d : A) : forall n l, n < length l ->
  firstn (S n) l = firstn n l ++ [nth n l d].
Proof.
  induction n as [|n IH]; intros l Hl; destruct l as [|x l]; cbn in Hl; try lia.
  - reflexivity.
  - cbn [firstn nth app]. f_equal. rewrite <- IH by lia. reflexivity.
Qed.

Section Proofs.

Variables mn av mx bsz : nat.
Variable gear : ascii -> N.
Hypothesis Hmn : 0 < mn.
Hypothesis Hav : mn <= av.
Hypothesis Hmx : av <= mx.
Hypothesis Hbuf : 2 * mx <= bsz.

Local Notation fpr := (fingerprint gear).
Local Notation cutp := (cut_point mn av kMaskS kMaskL gear).
Local Notation fchunk := (first_chunk mn av mx kMaskS kMaskL gear).
Local Notation chunks_of := (chunked mn av mx kMaskS kMaskL gear).
Local Notation boundary := (NextChunkBoundary mn av mx gear).
Local Notation next := (NextChunk mn av mx gear).

Lemma roll_fingerprint : forall bs b, roll gear (fpr bs) b = fpr (bs ++ [b]).
Proof.
  intros bs b. unfold fpr, roll. rewrite fold_left_app. cbn [fold_left].
  set (x := fold_left _ bs 0%N). rewrite (N.mul_comm x 2).
  rewrite N.add_mod_idemp_l; [reflexivity|]. intro E. discriminate E.
Qed.

(** The window of the buffer that holds valid data. *)
Definition window (buf : list ascii) (sz p : nat) : list ascii :=
  firstn (sz - p) (skipn p buf).

Lemma window_length : forall buf sz p,
  p <= sz -> sz <= length buf -> length (window buf sz p) = sz - p.
Proof. intros. unfold window. rewrite firstn_length, skipn_length. lia. Qed.

Lemma window_nth : forall buf sz p i, i < sz - p ->
  nth (p + i) buf zero = nth i (window buf sz p) zero.
Proof.
  intros. unfold window. rewrite nth_firstn' by assumption. rewrite nth_skipn'. reflexivity.
Qed.

(** One scan loop: either the first masked-zero position, or none. *)
Lemma scan_spec : forall mask todo i buf sz p w,
  w = window buf sz p -> p <= sz -> sz <= length buf ->
  mn <= i -> i + todo <= sz - p ->
  match scan gear mask todo i (fpr (bytes_from_to mn i w)) buf p with
  | inl j => i <= j < i + todo /\
             N.land (fpr (bytes_from_to mn (S j) w)) mask = 0%N /\
             (forall j', i <= j' < j -> N.land (fpr (bytes_from_to mn (S j') w)) mask <> 0%N)
  | inr (j, fp) => j = i + todo /\ fp = fpr (bytes_from_to mn j w) /\
             (forall j', i <= j' < j -> N.land (fpr (bytes_from_to mn (S j') w)) mask <> 0%N)
  end.
Proof.
  intros mask todo. induction todo as [|k IH]; intros i buf sz p w Ew Hp Hs Hi Ht.
  - cbn. split; [lia|]. split; [reflexivity|]. intros; lia.
  - cbn [scan].
    assert (E : roll gear (fpr (bytes_from_to mn i w)) (nth (p + i) buf zero)
                = fpr (bytes_from_to mn (S i) w)).
    { rewrite roll_fingerprint. f_equal.
      rewrite (window_nth buf sz) by lia. rewrite <- Ew.
      unfold bytes_from_to. replace (S i - mn) with (S (i - mn)) by lia.
      rewrite (firstn_snoc zero).
      - rewrite nth_skipn'. replace (mn + (i - mn)) with i by lia. reflexivity.
      - rewrite skipn_length, Ew, window_length by assumption. lia. }
    rewrite E. destruct (N.eqb_spec (N.land (fpr (bytes_from_to mn (S i) w)) mask) 0) as [Z|Z].
    + split; [lia|]. split; [exact Z|]. intros; lia.
    + specialize (IH (S i) buf sz p w Ew Hp Hs ltac:(lia) ltac:(lia)).
      destruct (scan _ _ _ _ _ _ _) as [j|[j fp]].
      * destruct IH as [A [B C]]. split; [lia|]. split; [exact B|].
        intros j' Hj. destruct (Nat.eq_dec j' i) as [->|]; [exact Z|apply C; lia].
      * destruct IH as [A [B C]]. split; [lia|]. split; [exact B|].
        intros j' Hj. destruct (Nat.eq_dec j' i) as [->|]; [exact Z|apply C; lia].
Qed.

Lemma bytes_empty : forall w, bytes_from_to mn mn w = [].
Proof. intros. unfold bytes_from_to. now rewrite Nat.sub_diag. Qed.

(** The boundary computed from the buffer is the first chunk of the window. *)
Lemma boundary_spec : forall buf sz p,
  p <= sz -> sz <= length buf -> fchunk (window buf sz p) (boundary buf sz p).
Proof.
  intros buf sz p Hp Hs. set (w := window buf sz p).
  assert (L : length w = sz - p) by (apply window_length; assumption).
  unfold NextChunkBoundary. destruct (Nat.leb_spec (sz - p) mn) as [Hsmall|Hbig].
  - unfold first_chunk. rewrite L. rewrite Nat.min_l by lia. split; [lia|]. split; [|now left].
    intros i Hi [H _]. rewrite L in H. lia.
  - assert (P : exists n normal, (if mx <=? sz - p then (mx, av)
                  else if sz - p <=? av then (sz - p, sz - p) else (sz - p, av)) = (n, normal)
                /\ n = Nat.min (sz - p) mx /\ normal = Nat.min (sz - p) av).
    { destruct (Nat.leb_spec mx (sz - p)).
      - eexists _, _. split; [reflexivity|]. lia.
      - destruct (Nat.leb_spec (sz - p) av); eexists _, _; (split; [reflexivity|]); lia. }
    destruct P as [n [normal [-> [En Eno]]]].
    assert (Hno : mn <= normal <= n) by lia.
    pose proof (scan_spec kMaskS (normal - mn) mn buf sz p w eq_refl Hp Hs ltac:(lia) ltac:(lia)) as S1.
    rewrite bytes_empty in S1. change (fpr []) with 0%N in S1.
    assert (MS : forall i, i < normal -> (i <? av) = true).
    { intros i Hi. apply Nat.ltb_lt. lia. }
    destruct (scan gear kMaskS (normal - mn) mn 0 buf p) as [j|[j fp]].
    + destruct S1 as [A [B C]]. unfold first_chunk. rewrite L, <- En.
      split; [lia|]. split.
      * intros i Hi [H1 H2]. rewrite MS in H2 by lia.
        apply (C i); [lia|exact H2].
      * right. split; [lia|]. rewrite MS by lia. exact B.
    + destruct S1 as [A [B C]].
      assert (Ej : j = normal) by lia. clear A. subst j.
      pose proof (scan_spec kMaskL (n - normal) normal buf sz p w eq_refl Hp Hs ltac:(lia) ltac:(lia)) as S2.
      subst fp.
      assert (ML : forall i, normal <= i -> i < n -> (i <? av) = false).
      { intros i Hi Hi2. apply Nat.ltb_ge. lia. }
      destruct (scan gear kMaskL (n - normal) normal _ buf p) as [j|[j fp]].
      * destruct S2 as [A [B D]]. unfold first_chunk. rewrite L, <- En.
        split; [lia|]. split.
        -- intros i Hi [H1 H2]. destruct (Nat.lt_ge_cases i normal).
           ++ rewrite MS in H2 by lia. apply (C i); [lia|exact H2].
           ++ rewrite ML in H2 by lia. apply (D i); [lia|exact H2].
        -- right. split; [lia|]. rewrite ML by lia. exact B.
      * destruct S2 as [A [B D]]. unfold first_chunk. rewrite L, <- En.
        split; [lia|]. split.
        -- intros i Hi [H1 H2]. destruct (Nat.lt_ge_cases i normal).
           ++ rewrite MS in H2 by lia. apply (C i); [lia|exact H2].
           ++ rewrite ML in H2 by lia. apply (D i); [lia|exact H2].
        -- left. lia.
Qed.

(** ** Facts about the specification *)

Lemma cutp_range : forall w i, cutp w i -> mn <= i < length w.
Proof. now intros w i [H _]. Qed.

Lemma fchunk_pos : forall w k, w <> [] -> fchunk w k -> 0 < k.
Proof.
  intros w k Hw [_ [_ [E|C]]].
  - assert (0 < length w) by (destruct w; [congruence|cbn; lia]). lia.
  - apply cutp_range in C. lia.
Qed.

Lemma fchunk_le : forall w k, fchunk w k -> k <= length w.
Proof. intros w k [H _]. lia. Qed.

Lemma bytes_prefix : forall w w' i, i < length w -> firstn (S i) w = firstn (S i) w' ->
  bytes_from_to mn (S i) w = bytes_from_to mn (S i) w'.
Proof.
  intros w w' i Hi E. unfold bytes_from_to.
  destruct (Nat.le_gt_cases mn (S i)) as [H|H].
  - rewrite !firstn_skipn_comm. replace (mn + (S i - mn)) with (S i) by lia. now rewrite E.
  - replace (S i - mn) with 0 by lia. reflexivity.
Qed.

Lemma firstn_ext_le {A} : forall n m (w w' : list A), n <= m ->
  firstn m w = firstn m w' -> firstn n w = firstn n w'.
Proof.
  intros n m w w' H E.
  rewrite <- (Nat.min_l n m H), <- !firstn_firstn, E. reflexivity.
Qed.

Lemma cutp_prefix : forall w w' i, i < length w -> i < length w' ->
  firstn (S i) w = firstn (S i) w' -> cutp w i -> cutp w' i.
Proof.
  intros w w' i H1 H2 E [R C]. split; [lia|].
  rewrite <- (bytes_prefix w w' i H1 E). exact C.
Qed.

(** Data agreeing up to the maximal size have the same first chunk. *)
Lemma fchunk_window : forall w t k,
  mx <= length w \/ t = [] -> fchunk w k -> fchunk (w ++ t) k.
Proof.
  intros w t k [H| ->]; [|now rewrite app_nil_r].
  intros [A [B C]].
  assert (E : forall i, i < length w -> firstn (S i) w = firstn (S i) (w ++ t)).
  { intros i Hi. rewrite firstn_app. replace (S i - length w) with 0 by lia.
    now rewrite firstn_O, app_nil_r. }
  assert (M : Nat.min (length (w ++ t)) mx = Nat.min (length w) mx) by (rewrite app_length; lia).
  unfold first_chunk. rewrite M. split; [exact A|]. split.
  - intros i Hi D. apply (B i Hi). apply cutp_prefix with (4 := D).
    + rewrite app_length. lia.
    + lia.
    + symmetry. apply E. lia.
  - destruct C as [C|C]; [now left|right].
    pose proof (cutp_range _ _ C). apply cutp_prefix with (4 := C).
    + lia.
    + rewrite app_length. lia.
    + apply E. lia.
Qed.

Lemma fchunk_unique : forall w k k', fchunk w k -> fchunk w k' -> k = k'.
Proof.
  assert (W : forall w k k', fchunk w k -> fchunk w k' -> k < k' -> False).
  { intros w k k' [A [B C]] [A' [B' C']] L.
    destruct C as [C|C]; [lia|]. exact (B' k L C). }
  intros w k k' H H'. destruct (Nat.lt_trichotomy k k') as [L|[E|L]]; [|exact E|].
  - destruct (W _ _ _ H H' L).
  - destruct (W _ _ _ H' H L).
Qed.

Lemma chunked_unique : forall w cs, chunks_of w cs -> forall cs', chunks_of w cs' -> cs = cs'.
Proof.
  induction 1 as [|w k cs Hw F _ IH]; intros cs' H'.
  - inversion H' as [|w k cs Hw]; [reflexivity|congruence].
  - inversion H' as [E|w' k' cs'' Hw' F' R']; subst; [congruence|].
    assert (k' = k) by (eapply fchunk_unique; eassumption). subst k'.
    f_equal. now apply IH.
Qed.

Lemma chunked_concat : forall w cs, chunks_of w cs -> concat cs = w.
Proof.
  induction 1 as [|w k cs _ _ _ IH]; [reflexivity|].
  cbn. rewrite IH. apply firstn_skipn.
Qed.

Lemma chunked_sizes : forall w cs, chunks_of w cs ->
  forall c, In c cs -> 0 < length c <= mx.
Proof.
  induction 1 as [|w k cs Hw F _ IH]; intros c Hc; [destruct Hc|].
  destruct Hc as [<-|Hc]; [|now apply IH].
  rewrite firstn_length. pose proof (fchunk_pos w k Hw F). destruct F as [F _]. lia.
Qed.

Lemma chunked_min : forall w cs, chunks_of w cs ->
  forall pre c last, cs = pre ++ [last] -> In c pre -> mn <= length c.
Proof.
  induction 1 as [|w k cs Hw F R IH]; intros pre c last E Hc.
  - destruct pre; discriminate E.
  - destruct pre as [|x pre]; [destruct Hc|].
    cbn in E. injection E as <- E.
    destruct Hc as [<-|Hc]; [|now apply (IH pre c last)].
    assert (N : skipn k w <> []).
    { intros Z. rewrite Z in R. inversion R; subst; [|congruence].
      destruct pre; discriminate. }
    assert (L : k < length w).
    { destruct (Nat.lt_ge_cases k (length w)); [assumption|].
      now rewrite skipn_all2 in N by assumption. }
    rewrite firstn_length. destruct F as [A [B [C|C]]]; [lia|].
    apply cutp_range in C. lia.
Qed.

(** Cutting a chunk again. *)
Lemma fchunk_again : forall w k, fchunk w k -> fchunk (firstn k w) k.
Proof.
  intros w k [A [B C]].
  assert (L : length (firstn k w) = k) by (rewrite firstn_length; lia).
  unfold first_chunk. rewrite L. split; [lia|]. split; [|left; lia].
  intros i Hi D. apply (B i Hi). apply cutp_prefix with (4 := D).
  - lia.
  - lia.
  - rewrite firstn_firstn. now rewrite Nat.min_l by lia.
Qed.

Lemma chunked_again : forall w cs, chunks_of w cs -> forall c, In c cs -> chunks_of c [c].
Proof.
  induction 1 as [|w k cs Hw F R IH]; intros c Hc; [destruct Hc|].
  destruct Hc as [<-|Hc]; [|now apply IH].
  assert (L : length (firstn k w) = k) by (rewrite firstn_length; destruct F; lia).
  assert (G : chunks_of (firstn k w) (firstn k (firstn k w) :: [])).
  { constructor.
    - pose proof (fchunk_pos w k Hw F). intros Z. rewrite Z in L. cbn in L. lia.
    - now apply fchunk_again.
    - rewrite skipn_all2 by lia. constructor. }
  now rewrite firstn_firstn, Nat.min_id in G.
Qed.

Lemma chunked_suffix : forall cs1 w cs2, chunks_of w (cs1 ++ cs2) ->
  chunks_of (skipn (length (concat cs1)) w) cs2.
Proof.
  induction cs1 as [|c cs1 IH]; intros w cs2 H; [exact H|].
  inversion H as [|w' k cs Hw F R]; subst. cbn [concat].
  rewrite app_length, firstn_length, Nat.min_l by (destruct F; lia).
  rewrite <- skipn_add. now apply IH.
Qed.

(** All chunks but the last survive an extension of the file. *)
Lemma fchunk_extend : forall w t k, k < length w -> fchunk w k -> fchunk (w ++ t) k.
Proof.
  intros w t k L [A [B C]].
  assert (E : forall i, i < length w -> firstn (S i) w = firstn (S i) (w ++ t)).
  { intros i Hi. rewrite firstn_app. replace (S i - length w) with 0 by lia.
    now rewrite firstn_O, app_nil_r. }
  unfold first_chunk. rewrite app_length. split; [lia|]. split.
  - intros i Hi D. apply (B i Hi). apply cutp_prefix with (4 := D).
    + rewrite app_length. lia.
    + lia.
    + symmetry. apply E. lia.
  - destruct C as [C|C]; [left; lia|right].
    pose proof (cutp_range _ _ C). apply cutp_prefix with (4 := C).
    + lia.
    + rewrite app_length. lia.
    + apply E. lia.
Qed.

Lemma chunked_extend : forall w cs, chunks_of w cs ->
  forall pre last, cs = pre ++ [last] -> forall t cs', chunks_of (w ++ t) cs' ->
  exists post, cs' = pre ++ post.
Proof.
  induction 1 as [|w k cs Hw F R IH]; intros pre last E t cs' H'.
  - destruct pre; discriminate E.
  - destruct pre as [|x pre]; [exists cs'; reflexivity|].
    cbn in E. injection E as <- E.
    assert (N : skipn k w <> []).
    { intros Z. rewrite Z in R. inversion R; subst; [|congruence].
      destruct pre; discriminate. }
    assert (L : k < length w).
    { destruct (Nat.lt_ge_cases k (length w)); [assumption|].
      now rewrite skipn_all2 in N by assumption. }
    pose proof (fchunk_extend w t k L F) as F'.
    inversion H' as [Z|w' k' cs'' Hw' F'' R'']; subst.
    + symmetry in Z. apply app_eq_nil in Z. destruct Z; congruence.
    + assert (k' = k) by (eapply fchunk_unique; eassumption). subst k'.
      rewrite skipn_app in R''. replace (k - length w) with 0 in R'' by lia.
      cbn [skipn] in R''.
      destruct (IH pre last eq_refl t cs'' R'') as [post ->].
      exists post. rewrite firstn_app. replace (k - length w) with 0 by lia.
      now rewrite firstn_O, app_nil_r.
Qed.

(** ** The chunker *)

(** What is still to be delivered. *)
Definition unread (st : state) : list ascii :=
  window (buffer st) (size st) (pos st) ++ rest (stream st).

Definition inv (st : state) : Prop :=
  length (buffer st) = bsz /\ pos st <= size st /\ size st <= bsz /\
  bad (stream st) = false /\
  (eof (stream st) = false -> size st = bsz \/ size st = 0) /\
  (eof (stream st) = true -> rest (stream st) = []).

Lemma skipn_repeat {A} (a : A) : forall n m, skipn m (repeat a n) = repeat a (n - m).
Proof.
  induction n as [|n IH]; intros m; destruct m; cbn; try reflexivity. apply IH.
Qed.

Lemma open_inv : forall content fs, inv (open bsz content fs).
Proof.
  intros. unfold inv, open. cbn. rewrite repeat_length.
  split; [reflexivity|]. split; [lia|]. split; [lia|]. split; [reflexivity|].
  split; [now right|intros E; discriminate E].
Qed.

Lemma open_unread : forall content fs, unread (open bsz content fs) = content.
Proof. reflexivity. Qed.

Lemma window_app_write : forall buf n p bytes,
  n <= p -> p + n <= length buf -> n + length bytes <= length buf ->
  window (write_at (copy_front buf n p) n bytes) (length bytes + n) 0
  = firstn n (skipn p buf) ++ bytes.
Proof.
  intros buf n p bytes H1 H2 H3. unfold window. cbn [skipn]. rewrite Nat.sub_0_r.
  unfold write_at, copy_front.
  assert (L : length (firstn n (skipn p buf)) = n) by (rewrite firstn_length, skipn_length; lia).
  rewrite (firstn_app n). rewrite L, Nat.sub_diag, firstn_O, app_nil_r.
  rewrite firstn_firstn, Nat.min_id.
  rewrite app_assoc, firstn_app. rewrite app_length, L.
  replace (length bytes + n - (n + length bytes)) with 0 by lia.
  rewrite firstn_O, app_nil_r. apply firstn_all2. rewrite app_length, L. lia.
Qed.

Lemma write_length : forall buf n p bytes,
  p + n <= length buf -> n + length bytes <= length buf ->
  length (write_at (copy_front buf n p) n bytes) = length buf.
Proof.
  intros. unfold write_at, copy_front.
  rewrite !app_length, skipn_length, !app_length, skipn_length, !firstn_length,
    !app_length, !skipn_length, !firstn_length, !skipn_length. lia.
Qed.

Lemma copy_length : forall buf n p, p + n <= length buf -> length (copy_front buf n p) = length buf.
Proof.
  intros. unfold copy_front. rewrite app_length, firstn_length, !skipn_length. lia.
Qed.

(** The state after the buffer was filled, if needed. *)
Definition ready (st : state) : Prop :=
  inv st /\ (mx <= size st - pos st \/ (eof (stream st) = true /\ rest (stream st) = [])).

Lemma deliver_spec : forall st, ready st ->
  (unread st = [] /\ deliver mn av mx gear st = Ret None st /\ Finished st = true) \/
  (unread st <> [] /\ exists k st', fchunk (unread st) k /\
     deliver mn av mx gear st = Ret (Some (firstn k (unread st))) st' /\
     inv st' /\ unread st' = skipn k (unread st) /\ faults (stream st') = faults (stream st)).
Proof.
  intros st [I R]. pose proof I as [I1 [I2 [I3 [I4 [I5 I6]]]]].
  unfold deliver, Finished. destruct (Nat.eqb_spec (pos st) (size st)) as [E|E].
  - left. destruct R as [R|[R1 R2]]; [lia|].
    unfold unread. rewrite R1, R2, E. unfold window. rewrite Nat.sub_diag. auto.
  - right. assert (L : length (window (buffer st) (size st) (pos st)) = size st - pos st)
      by (apply window_length; lia).
    split.
    { unfold unread. intros Z. apply app_eq_nil in Z. destruct Z as [Z _].
      rewrite Z in L. cbn in L. lia. }
    pose proof (boundary_spec (buffer st) (size st) (pos st) I2 ltac:(lia)) as F.
    set (k := boundary _ _ _) in *.
    assert (Hk : k <= size st - pos st) by (apply fchunk_le in F; lia).
    assert (U : fchunk (unread st) k).
    { apply fchunk_window; [|exact F]. rewrite L. destruct R as [R|[_ R]]; auto. }
    eexists k, _. split; [exact U|]. split.
    + unfold unread. rewrite firstn_app, L. replace (k - (size st - pos st)) with 0 by lia.
      rewrite firstn_O, app_nil_r. unfold window. rewrite firstn_firstn, Nat.min_l by lia.
      reflexivity.
    + split; [|split; [|reflexivity]].
      * unfold inv. cbn. repeat split; auto; lia.
      * unfold unread. cbn. rewrite skipn_app, L. replace (k - (size st - pos st)) with 0 by lia.
        cbn [skipn]. f_equal. unfold window. rewrite <- skipn_add.
        rewrite skipn_firstn_comm. f_equal. lia.
Qed.

Lemma next_spec : forall st, inv st ->
  (exists st', next st = Ret None st' /\ unread st = [] /\ Finished st' = true) \/
  (exists st', next st = Ret None st' /\ Finished st' = false /\ In true (faults (stream st))) \/
  (exists k st', unread st <> [] /\ fchunk (unread st) k /\
     next st = Ret (Some (firstn k (unread st))) st' /\
     inv st' /\ unread st' = skipn k (unread st) /\
     incl (faults (stream st')) (faults (stream st))).
Proof.
  intros st I. pose proof I as [I1 [I2 [I3 [I4 [I5 I6]]]]].
  unfold NextChunk, good. rewrite I4, andb_true_r.
  replace (negb (negb (eof (stream st))) && negb (eof (stream st)))%bool with false
    by (destruct (eof (stream st)); reflexivity).
  destruct (Nat.ltb_spec (size st - pos st) mx) as [Lt|Ge]; cbn [andb].
  - destruct (eof (stream st)) eqn:Eof; cbn [negb].
    + assert (R : ready st) by (split; [exact I|right; split; [exact Eof|now apply I6]]).
      destruct (deliver_spec st R) as [[A [B C]]|[A [k [st' [B [C [D [E F]]]]]]]].
      * left. eauto.
      * right. right. exists k, st'. rewrite F. repeat (split; [assumption|]). apply incl_refl.
    + specialize (I5 eq_refl).
      assert (NO : overlaps (size st - pos st) (pos st) = false).
      { unfold overlaps. destruct I5 as [I5|I5].
        - destruct (Nat.ltb_spec (pos st) (size st - pos st)); [lia|]. apply andb_false_r.
        - replace (size st - pos st) with 0 by lia. reflexivity. }
      rewrite NO. rewrite copy_length by lia. rewrite I1.
      set (n := size st - pos st) in *.
      assert (Hn : n <= pos st \/ n = 0) by (destruct I5; lia).
      assert (Hn' : n <= pos st) by (destruct Hn; lia).
      destruct (read (bsz - n) (stream st)) as [bytes s] eqn:Er.
      unfold read in Er.
      assert (Case : (bad s = true /\ eof s = false /\ In true (faults (stream st))) \/
                     (bad s = false /\ bytes ++ rest s = rest (stream st) /\
                      incl (faults s) (faults (stream st)) /\
                      n + length bytes <= bsz /\
                      ((eof s = false /\ length bytes = bsz - n) \/ (eof s = true /\ rest s = [])))).
      { destruct (faults (stream st)) as [|[|] fs] eqn:Ef.
        - right. destruct (Nat.ltb_spec (length (rest (stream st))) (bsz - n)) as [Q|Q];
            injection Er as <- <-; cbn.
          + rewrite app_nil_r. repeat (split; [auto; try lia; try apply incl_refl|]). auto.
          + rewrite firstn_length. split; [exact I4|]. split; [apply firstn_skipn|].
            split; [apply incl_refl|]. split; [lia|]. left. split; [exact Eof|lia].
        - left. injection Er as <- <-. cbn. auto.
        - right. destruct (Nat.ltb_spec (length (rest (stream st))) (bsz - n)) as [Q|Q];
            injection Er as <- <-; cbn.
          + rewrite app_nil_r. split; [exact I4|]. split; [reflexivity|].
            split; [intros x Hx; now right|]. split; [lia|]. auto.
          + rewrite firstn_length. split; [exact I4|]. split; [apply firstn_skipn|].
            split; [intros x Hx; now right|]. split; [lia|]. left. split; [exact Eof|lia]. }
      destruct Case as [[B1 [B2 B3]]|[B1 [B2 [B3 [B4 B5]]]]].
      * rewrite B1, B2. cbn. right. left. eexists. split; [reflexivity|].
        split; [|exact B3]. unfold Finished. cbn. now rewrite B2.
      * rewrite B1, andb_true_r.
        replace (negb (negb (eof s)) && negb (eof s))%bool with false by (destruct (eof s); reflexivity).
        set (st1 := mkState s _ _ 0).
        assert (I' : inv st1).
        { unfold inv, st1. cbn. rewrite write_length by (rewrite ?I1; lia).
          split; [exact I1|]. split; [lia|]. split; [lia|]. split; [exact B1|].
          split; intros Q; destruct B5 as [[B5 B6]|[B5 B6]]; try congruence.
          left. lia. }
        assert (U : unread st1 = unread st).
        { unfold unread, st1. cbn [stream buffer size pos]. rewrite window_app_write by (rewrite ?I1; lia).
          unfold window. fold n. rewrite <- app_assoc, B2. reflexivity. }
        assert (R : ready st1).
        { split; [exact I'|]. unfold st1. cbn. destruct B5 as [[B5 B6]|B5]; [left; lia|now right]. }
        destruct (deliver_spec st1 R) as [[A [B C]]|[A [k [st' [B [C [D [E F]]]]]]]].
        -- left. rewrite U in A. eauto.
        -- right. right. rewrite U in *. exists k, st'.
           repeat (split; [assumption|]). rewrite F. exact B3.
  - assert (R : ready st) by (split; [exact I|left; lia]).
    destruct (deliver_spec st R) as [[A [B C]]|[A [k [st' [B [C [D [E F]]]]]]]].
    + left. eauto.
    + right. right. exists k, st'. rewrite F. repeat (split; [assumption|]). apply incl_refl.
Qed.

(** Every file has a chunking. *)
Lemma fchunk_total : forall w, exists k, fchunk w k.
Proof.
  intros w. exists (boundary w (length w) 0).
  pose proof (boundary_spec w (length w) 0 ltac:(lia) ltac:(lia)) as F.
  unfold window in F. cbn [skipn] in F. now rewrite Nat.sub_0_r, firstn_all in F.
Qed.

Lemma chunked_total : forall n w, length w < n -> exists cs, chunks_of w cs.
Proof.
  induction n as [|n IH]; intros w L; [lia|].
  destruct w as [|x w]; [exists []; constructor|].
  destruct (fchunk_total (x :: w)) as [k F].
  assert (N : x :: w <> []) by discriminate.
  pose proof (fchunk_pos _ _ N F) as K.
  destruct (IH (skipn k (x :: w))) as [cs C]; [rewrite skipn_length; cbn [length] in *; lia|].
  eexists. econstructor; eassumption.
Qed.

Lemma collect_spec : forall fuel st acc, inv st -> length (unread st) < fuel ->
  exists cs final, collect mn av mx gear fuel st acc = Some (Chunks (rev acc ++ cs) final) /\
    (Finished final = true -> chunks_of (unread st) cs) /\
    (Finished final = false -> In true (faults (stream st)) /\
       exists cs', chunks_of (unread st) (cs ++ cs')).
Proof.
  induction fuel as [|f IH]; intros st acc I L; [lia|].
  cbn [collect].
  destruct (next_spec st I) as [[st' [E [U F]]]|[[st' [E [F B]]]|[k [st' [N [F [E [I' [U Ff]]]]]]]]].
  - rewrite E. exists [], st'. rewrite app_nil_r. split; [reflexivity|].
    rewrite U, F. split; [constructor|intros Z; discriminate Z].
  - rewrite E. exists [], st'. rewrite app_nil_r. split; [reflexivity|].
    rewrite F. split; [intros Z; discriminate Z|]. intros _. split; [exact B|].
    cbn [app]. now apply chunked_total with (n := S f).
  - rewrite E.
    pose proof (fchunk_pos _ _ N F) as K.
    assert (Lk : k <= length (unread st)) by now apply fchunk_le in F.
    destruct (IH st' (firstn k (unread st) :: acc) I') as [cs [final [E' [H1 H2]]]].
    { rewrite U, skipn_length. lia. }
    exists (firstn k (unread st) :: cs), final.
    split; [rewrite E'; cbn [rev]; now rewrite <- app_assoc|].
    rewrite U in *. split.
    + intros Z. constructor; auto.
    + intros Z. destruct (H2 Z) as [Z1 [cs' Z2]]. split; [now apply Ff|].
      exists cs'. cbn [app]. constructor; auto.
Qed.

End Proofs.
