(** C22, C23: properties of the file chunker. *)
From Coq Require Import String Ascii List NArith Arith Bool Lia.
From Verif.Chunker Require Import Model Spec Proofs.
Import ListNotations.
Local Open Scope list_scope.

(** "The chunks of a file" by the content-defined rule with the sizes of the
    code. *)
Definition chunks_of (gear : ascii -> N) (file : list ascii) (cs : list (list ascii)) : Prop :=
  chunked kMinChunkSize kAverageChunkSize kMaxChunkSize kMaskS kMaskL gear file cs.

Lemma sizes_ok :
  0 < kMinChunkSize /\ kMinChunkSize <= kAverageChunkSize /\
  kAverageChunkSize <= kMaxChunkSize /\ 2 * kMaxChunkSize <= kBufferSize.
Proof.
  unfold kMinChunkSize, kAverageChunkSize, kMaxChunkSize, kBufferSize.
  change (N.shiftr (1024 * 128) 2) with 32768%N.
  change (N.shiftl (N.shiftl (1024 * 128) 3) 1) with 2097152%N.
  change (N.shiftl (1024 * 128) 3) with 1048576%N.
  change (1024 * 128)%N with 131072%N. lia.
Qed.

Lemma max_value : N.to_nat 1048576 = kMaxChunkSize.
Proof.
  unfold kMaxChunkSize. change (N.shiftl (1024 * 128) 3) with 1048576%N. reflexivity.
Qed.

Lemma min_value : N.to_nat 32768 = kMinChunkSize.
Proof.
  unfold kMinChunkSize. change (N.shiftr (1024 * 128) 2) with 32768%N. reflexivity.
Qed.

Lemma run_any : forall gear bsz fuel file faults,
  2 * kMaxChunkSize <= bsz -> length file < fuel ->
  exists cs final,
    collect kMinChunkSize kAverageChunkSize kMaxChunkSize gear fuel (open bsz file faults) []
      = Some (Chunks cs final) /\
    (Finished final = true -> chunks_of gear file cs) /\
    (Finished final = false -> In true faults /\ exists cs', chunks_of gear file (cs ++ cs')).
Proof.
  intros gear bsz fuel file faults Hb Hf. destruct sizes_ok as [S1 [S2 [S3 _]]].
  apply (collect_spec _ _ _ bsz gear S1 S2 S3 Hb fuel (open bsz file faults) []).
  - apply (open_inv kMinChunkSize kAverageChunkSize kMaxChunkSize bsz S1 S2 S3 Hb).
  - exact Hf.
Qed.

(** C22. Chunking always ends, never runs into undefined behaviour, and if it
    reports to have finished, the chunks concatenated are the file. It does
    finish if no read of the file fails. *)
Theorem C22_lossless : forall gear fuel file faults,
  length file < fuel ->
  exists cs final,
    chunk_file gear fuel file faults = Some (Chunks cs final) /\
    (Finished final = true -> concat cs = file) /\
    (~ In true faults -> Finished final = true).
Proof.
  intros gear fuel file faults Hf. destruct sizes_ok as [S1 [S2 [S3 S4]]].
  destruct (run_any gear kBufferSize fuel file faults S4 Hf) as [cs [final [E [A B]]]].
  exists cs, final. split; [exact E|]. split.
  - intros F. now apply chunked_concat in A.
  - intros N. destruct (Finished final); [reflexivity|]. now destruct (B eq_refl) as [Q _].
Qed.
Print Assumptions C22_lossless.

(** C22, also if reading the file fails in the middle: what was delivered so
    far is a beginning of the file. *)
Theorem C22_read_error : forall gear fuel file faults cs final,
  length file < fuel ->
  chunk_file gear fuel file faults = Some (Chunks cs final) ->
  prefix_of (concat cs) file.
Proof.
  intros gear fuel file faults cs final Hf E. destruct sizes_ok as [S1 [S2 [S3 S4]]].
  destruct (run_any gear kBufferSize fuel file faults S4 Hf) as [cs' [final' [E' [A B]]]].
  unfold chunk_file in E. rewrite E' in E. injection E as -> ->.
  destruct (Finished final).
  - specialize (A eq_refl). apply chunked_concat in A.
    exists []. now rewrite app_nil_r.
  - destruct (B eq_refl) as [_ [t C]]. apply chunked_concat in C.
    exists (concat t). now rewrite <- concat_app.
Qed.
Print Assumptions C22_read_error.

(** C22. Sizes: no chunk is empty or exceeds one megabyte, every chunk except
    the last has at least 32 kilobytes. *)
Theorem C22_sizes : forall gear fuel file faults cs final,
  length file < fuel ->
  chunk_file gear fuel file faults = Some (Chunks cs final) ->
  Finished final = true ->
  (forall c, In c cs -> 0 < length c <= N.to_nat 1048576) /\
  (forall pre c last, cs = pre ++ [last] -> In c pre -> N.to_nat 32768 <= length c).
Proof.
  intros gear fuel file faults cs final Hf E F. destruct sizes_ok as [S1 [S2 [S3 S4]]].
  destruct (run_any gear kBufferSize fuel file faults S4 Hf) as [cs' [final' [E' [A _]]]].
  unfold chunk_file in E. rewrite E' in E. injection E as -> ->.
  specialize (A F). split.
  - intros c Hc. rewrite max_value. exact (chunked_sizes _ _ _ _ gear S1 S2 S3 S4 file cs A c Hc).
  - intros pre c last Ec Hc. rewrite min_value. exact (chunked_min _ _ _ _ gear S1 S2 S3 S4 file cs A pre c last Ec Hc).
Qed.
Print Assumptions C22_sizes.

(** C22. The chunks are those of the content-defined rule: they depend only on
    the bytes of the file, whatever the size of the read buffer (of at least
    two maximal chunks). *)
Theorem C22_content_defined : forall gear bsz fuel file faults cs final,
  2 * kMaxChunkSize <= bsz -> length file < fuel ->
  collect kMinChunkSize kAverageChunkSize kMaxChunkSize gear fuel (open bsz file faults) []
    = Some (Chunks cs final) ->
  Finished final = true ->
  chunks_of gear file cs /\ (forall cs', chunks_of gear file cs' -> cs' = cs).
Proof.
  intros gear bsz fuel file faults cs final Hb Hf E F. destruct sizes_ok as [S1 [S2 [S3 S4]]].
  destruct (run_any gear bsz fuel file faults Hb Hf) as [cs' [final' [E' [A _]]]].
  rewrite E' in E. injection E as -> ->. specialize (A F). split; [exact A|].
  intros cs' H'. exact (chunked_unique _ _ _ _ gear S1 S2 S3 S4 _ _ H' _ A).
Qed.
Print Assumptions C22_content_defined.

(** Non-vacuity, with the sizes of the code: a file of 3 megabytes is read in
    several rounds and gives at least three chunks. *)
Example C22_nonvacuous : forall gear,
  let file := repeat "x"%char (N.to_nat 3145728) in
  exists cs final,
    chunk_file gear (S (length file)) file [] = Some (Chunks cs final) /\
    Finished final = true /\ concat cs = file /\ 3 <= length cs.
Proof.
  intros gear file.
  destruct (C22_lossless gear (S (length file)) file [] (Nat.lt_succ_diag_r _))
    as [cs [final [E [A B]]]].
  assert (F : Finished final = true) by (apply B; intros []).
  exists cs, final. split; [exact E|]. split; [exact F|]. specialize (A F). split; [exact A|].
  destruct (C22_sizes gear _ file [] cs final (Nat.lt_succ_diag_r _) E F) as [Sz _].
  assert (L : length (concat cs) <= length cs * N.to_nat 1048576).
  { clear - Sz. induction cs as [|c cs IH]; [cbn; lia|].
    cbn [concat length]. rewrite app_length.
    pose proof (Sz c (or_introl eq_refl)). specialize (IH (fun c H => Sz c (or_intror H))). lia. }
  rewrite A in L. unfold file in L. rewrite repeat_length in L. lia.
Qed.

(** Non-vacuity, with small sizes (2, 4, 8, buffer 16) and a table for which a
    bar after an x calls for a cut: several chunks and refills. *)
Definition small_gear (b : ascii) : N := if Ascii.eqb b "x" then (2 ^ 62)%N else 0%N.
Definition cut_small (s : string) : option (list string * bool) :=
  match collect 2 4 8 small_gear 100 (open 16 (list_ascii_of_string s) []) [] with
  | Some (Chunks cs f) => Some (map string_of_list_ascii cs, Finished f)
  | _ => None
  end.
Example C22_small_nonvacuous :
  cut_small "abx|xxxx|xxxxxxxxxxxxxxxxxxxxxx|xxxxxxxxxxx"
  = Some (["abx"; "|xxxx"; "|xxxxxxx"; "xxxxxxxx"; "xxxxxxx"; "|xxxxxxx"; "xxxx"]%string, true).
Proof. reflexivity. Qed.

(** C23. Chunking a chunk again delivers exactly this chunk. *)
Theorem C23_rechunk : forall gear fuel fuel' file faults cs final c,
  length file < fuel -> length c < fuel' ->
  chunk_file gear fuel file faults = Some (Chunks cs final) ->
  Finished final = true -> In c cs ->
  exists final', chunk_file gear fuel' c [] = Some (Chunks [c] final') /\ Finished final' = true.
Proof.
  intros gear fuel fuel' file faults cs final c Hf Hf' E F Hc.
  destruct sizes_ok as [S1 [S2 [S3 S4]]].
  destruct (C22_content_defined gear kBufferSize fuel file faults cs final S4 Hf E F) as [A _].
  apply (chunked_again _ _ _ _ gear S1 S2 S3 S4) with (c := c) in A; [|exact Hc].
  destruct (run_any gear kBufferSize fuel' c [] S4 Hf') as [cs' [final' [E' [A' B']]]].
  destruct (Finished final') eqn:F'; [|now destruct (B' eq_refl) as [[] _]].
  exists final'. split; [|exact F']. unfold chunk_file. rewrite E'. do 2 f_equal.
  exact (chunked_unique _ _ _ _ gear S1 S2 S3 S4 _ _ (A' eq_refl) _ A).
Qed.
Print Assumptions C23_rechunk.

(** C23. Two files [a ++ s] and [b ++ s] both having a chunk boundary where
    the common rest [s] starts share all chunks from there on. *)
Theorem C23_common_rest : forall gear fuel fuel' a b s faults faults' ca cs cb cs' final final',
  length (a ++ s) < fuel -> length (b ++ s) < fuel' ->
  chunk_file gear fuel (a ++ s) faults = Some (Chunks (ca ++ cs) final) ->
  chunk_file gear fuel' (b ++ s) faults' = Some (Chunks (cb ++ cs') final') ->
  Finished final = true -> Finished final' = true ->
  concat ca = a -> concat cb = b -> cs = cs'.
Proof.
  intros gear fuel fuel' a b s faults faults' ca cs cb cs' final final' H H' E E' F F' Ca Cb.
  destruct sizes_ok as [S1 [S2 [S3 S4]]].
  destruct (C22_content_defined gear kBufferSize fuel _ faults _ final S4 H E F) as [A _].
  destruct (C22_content_defined gear kBufferSize fuel' _ faults' _ final' S4 H' E' F') as [B _].
  apply (chunked_suffix _ _ _ _ gear S1 S2 S3 S4) in A.
  apply (chunked_suffix _ _ _ _ gear S1 S2 S3 S4) in B.
  rewrite Ca, skipn_app, skipn_all, Nat.sub_diag in A.
  rewrite Cb, skipn_app, skipn_all, Nat.sub_diag in B.
  exact (chunked_unique _ _ _ _ gear S1 S2 S3 S4 _ _ A _ B).
Qed.
Print Assumptions C23_common_rest.

(** C23. Appending to a file leaves all its chunks but the last unchanged. *)
Theorem C23_append : forall gear fuel fuel' file more faults faults' pre last cs final final',
  length file < fuel -> length (file ++ more) < fuel' ->
  chunk_file gear fuel file faults = Some (Chunks (pre ++ [last]) final) ->
  chunk_file gear fuel' (file ++ more) faults' = Some (Chunks cs final') ->
  Finished final = true -> Finished final' = true ->
  prefix_of pre cs.
Proof.
  intros gear fuel fuel' file more faults faults' pre last cs final final' H H' E E' F F'.
  destruct sizes_ok as [S1 [S2 [S3 S4]]].
  destruct (C22_content_defined gear kBufferSize fuel _ faults _ final S4 H E F) as [A _].
  destruct (C22_content_defined gear kBufferSize fuel' _ faults' _ final' S4 H' E' F') as [B _].
  exact (chunked_extend _ _ _ _ gear S1 S2 S3 S4 file _ A pre last eq_refl more cs B).
Qed.
Print Assumptions C23_append.

(** Non-vacuity: the chunks of a file of 3 megabytes can be chunked again; a
    file of a single byte and its extension by a megabyte satisfy the
    hypotheses of the others. *)
Example C23_nonvacuous : forall gear,
  let file := repeat "x"%char (N.to_nat 3145728) in
  exists c rest final,
    chunk_file gear (S (length file)) file [] = Some (Chunks (c :: rest) final) /\
    2 <= length rest /\
    exists final', chunk_file gear (S (length c)) c [] = Some (Chunks [c] final').
Proof.
  intros gear file. destruct (C22_nonvacuous gear) as [cs [final [E [F [C L]]]]]. fold file in E, C.
  destruct cs as [|c rest]; [cbn in L; lia|].
  exists c, rest, final. split; [exact E|]. split; [cbn in L; lia|].
  destruct (C23_rechunk gear _ (S (length c)) file [] _ final c (Nat.lt_succ_diag_r _)
    (Nat.lt_succ_diag_r _) E F (or_introl eq_refl)) as [final' [G _]].
  now exists final'.
Qed.
