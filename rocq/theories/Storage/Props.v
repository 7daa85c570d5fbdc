(** C24 to C30: properties of the storage. *)
From Coq Require Import String Ascii List NArith Bool Arith Lia.
From Verif Require Import GitTree.Model Storage.Model Storage.Spec Storage.Addr Storage.Inv Storage.Hoare
  Storage.Uplink Storage.Gc Storage.Run Storage.System Storage.Facts.
From Verif.Chunker Require Model Props.
Import ListNotations.

(** ** The assumption on the chunker holds for the chunker of the code *)
Definition pieces (o : option Chunker.Model.outcome) : list bytes :=
  match o with
  | Some (Chunker.Model.Chunks cs _) => map string_of_list_ascii cs
  | _ => []
  end.
Definition chunk_string (gear : ascii -> N) (b : bytes) : list bytes :=
  pieces (Chunker.Model.chunk_file gear (S (length (list_ascii_of_string b))) (list_ascii_of_string b) []).

Lemma string_of_app : forall a b,
  string_of_list_ascii (a ++ b) = String.append (string_of_list_ascii a) (string_of_list_ascii b).
Proof. induction a as [|x a IH]; intros b; cbn; [reflexivity|now rewrite IH]. Qed.

Lemma string_of_concat : forall cs, fold_right String.append EmptyString (map string_of_list_ascii cs)
  = string_of_list_ascii (concat cs).
Proof. induction cs as [|c cs IH]; cbn; [reflexivity|]. now rewrite string_of_app, IH. Qed.

Definition not_in_nil {A} (x : A) : ~ In x [] := fun H => H.

Lemma chunk_string_spec : forall gear b, exists cs final,
  Chunker.Model.chunk_file gear (S (length (list_ascii_of_string b))) (list_ascii_of_string b) []
    = Some (Chunker.Model.Chunks cs final) /\
  Chunker.Model.Finished final = true /\ concat cs = list_ascii_of_string b /\
  chunk_string gear b = map string_of_list_ascii cs.
Proof.
  intros gear b.
  destruct (Chunker.Props.C22_lossless gear (S (length (list_ascii_of_string b))) (list_ascii_of_string b) []
    (Nat.lt_succ_diag_r _)) as (cs & final & E & A & F).
  specialize (F (not_in_nil true)). exists cs, final. split; [exact E|]. split; [exact F|].
  split; [exact (A F)|]. exact (f_equal pieces E).
Qed.

Lemma chunk_string_concat : forall gear b,
  fold_right String.append EmptyString (chunk_string gear b) = b.
Proof.
  intros gear b. destruct (chunk_string_spec gear b) as (cs & final & _ & _ & A & E).
  rewrite E, string_of_concat, A. apply string_of_list_ascii_of_string.
Qed.

Lemma chunk_string_again : forall gear b c, In c (chunk_string gear b) -> chunk_string gear c = [c].
Proof.
  intros gear b c Hc. destruct (chunk_string_spec gear b) as (cs & final & E & F & _ & X).
  rewrite X in Hc. apply in_map_iff in Hc. destruct Hc as (l & Ec & Hl).
  destruct (chunk_string_spec gear c) as (cs' & final' & E' & _ & _ & X').
  rewrite X'. assert (El : list_ascii_of_string c = l) by (rewrite <- Ec; apply list_ascii_of_string_of_list_ascii).
  rewrite El in E'. clear X X'.
  destruct (Chunker.Props.C23_rechunk gear _ (S (length l)) _ [] cs final l (Nat.lt_succ_diag_r _)
    (Nat.lt_succ_diag_r _) E F Hl) as (final'' & E'' & _).
  assert (Y := eq_trans (eq_sym E'') E'). injection Y as <- _. cbn [map]. now rewrite Ec.
Qed.

(** ** C25 *)

(** C25. In every state reachable by any operations of any number of threads
    and processes, any of which can be killed at any point, with any I/O errors,
    and by any garbage collections, complete or not, the bytes found under a
    digest hash to it. *)
Theorem C25_content_addressed : forall C n acts k s d v,
  lookup (gen_at (disk (reached C n acts)) k) s d = Some v ->
  s = SFile \/ s = SExec \/ s = STree ->
  exists b, v = Bytes b /\ cfg_hash C (match s with STree => KTree | _ => KBlob end) b = d.
Proof.
  intros C n acts k s d v L Hs.
  assert (A : addressed C (disk (reached C n acts))).
  { apply (pres_perform_all C _ (closed_addressed C)); [intros o m []|].
    intros k' s' i' d' L'. rewrite fresh_gen in L'. discriminate L'. }
  destruct Hs as [->|[->| ->]]; exact (A _ _ _ _ L eq_refl).
Qed.
Print Assumptions C25_content_addressed.

(** C25. The bytes under a digest never change, in whatever generation they are
    found at whatever time, unless the hash function collides. *)
Theorem C25_immutable : forall C n acts acts2 k k' s s' d b b',
  lookup (gen_at (disk (reached C n acts)) k) s d = Some (Bytes b) ->
  lookup (gen_at (disk (reached C n (acts ++ acts2))) k') s' d = Some (Bytes b') ->
  (s = STree /\ s' = STree) \/ (s <> STree /\ object_slot s = true /\ s' <> STree /\ object_slot s' = true) ->
  b' = b \/ exists kd, b <> b' /\ cfg_hash C kd b = cfg_hash C kd b'.
Proof.
  intros C n acts acts2 k k' s s' d b b' L L' Hs. destruct (string_dec b b') as [->|Hn]; [now left|right].
  destruct Hs as [[-> ->]|(H1 & H2 & H3 & H4)].
  - destruct (C25_content_addressed _ _ _ _ _ _ _ L) as (x & E & Hx); auto.
    destruct (C25_content_addressed _ _ _ _ _ _ _ L') as (x' & E' & Hx'); auto.
    injection E as <-. injection E' as <-. exists KTree. split; [exact Hn|congruence].
  - destruct (C25_content_addressed _ _ _ _ _ _ _ L) as (x & E & Hx);
      [destruct s; try discriminate H2; auto; congruence|].
    destruct (C25_content_addressed _ _ _ _ _ _ _ L') as (x' & E' & Hx');
      [destruct s'; try discriminate H4; auto; congruence|].
    injection E as <-. injection E' as <-. exists KBlob. split; [exact Hn|].
    destruct s, s'; congruence.
Qed.
Print Assumptions C25_immutable.

(** ** C26 *)

(** C26. Operations return. *)
Theorem C26_returns : forall C n acts o, exists m r,
  let t := length (threads (reached C n acts)) in
  returned (reached C n (acts ++ Start o :: repeat (Step t true) m)) t o r.
Proof. intros C n acts o. apply can_return. Qed.
Print Assumptions C26_returns.

(** C26. Some operation since the last garbage collection has told that an
    object is in the storage. Then any operations follow, with fewer garbage
    collections (each possibly killed) than there are generations. Then a lookup
    of this object, or of anything below it if it is a tree, finds it,
    whatever happens concurrently. *)
Theorem C26_survives : forall C n acts1 acts2 acts3 th o r t d t' d' x r',
  sane C ->
  history C n (acts1 ++ acts2 ++ Start (lookup_op t' d' x) :: acts3) ->
  collections acts2 < n -> no_drop acts2 -> no_collection acts3 ->
  returned (reached C n acts1) th o r -> told o r t d ->
  let Σ2 := reached C n (acts1 ++ acts2) in
  let Σ3 := reached C n (acts1 ++ acts2 ++ Start (lookup_op t' d' x) :: acts3) in
  reachable C (log (disk Σ3)) t d t' d' ->
  returned Σ3 (length (threads Σ2)) (lookup_op t' d' x) r' ->
  exists b, r' = ABytes (Some b) /\ cfg_hash C (kind_for t') b = d'.
Proof.
  intros C n acts1 acts2 acts3 th o r t d t' d' x r' S0 H Hn ND NC R T Σ2 Σ3 RE R'.
  assert (L := history_limits C n _ H). fold Σ3 in L.
  assert (Σ3e : reached C n ((acts1 ++ acts2) ++ Start (lookup_op t' d' x) :: acts3) = Σ3)
    by (unfold Σ3; now rewrite app_assoc).
  rewrite app_assoc in H. assert (H2 := history_app C n _ _ H). assert (H1 := history_app C n _ _ H2).
  destruct (returned_ensures C n _ _ _ _ _ (history_sys C n S0 _ H1) R) as (σ0 & _ & E).
  assert (A := told_avail C n _ _ _ _ _ _ E T).
  assert (A' : avail (gen_at (disk (reached C n acts1)) 0) t' d').
  { destruct (history_sys C n S0 _ H1) as (I1 & _). eapply reachable_avail; eauto.
    - unfold Σ3. apply reached_log.
    - apply L. }
  destruct (survive C n S0 acts1 acts2 0 H2 ND Hn) as (k' & Hk & SV).
  rewrite <- Σ3e in R'.
  assert (AV : exists k, k < n /\ avail (gen_at (disk (reached C n (acts1 ++ acts2))) k) t' d').
  { exists k'. split; [lia|]. now apply SV. }
  destruct (lookup_started C n S0 _ _ _ _ _ _ H NC AV R') as (b & -> & Hb & _). eauto.
Qed.
Print Assumptions C26_survives.

(** C26. The bytes found are those stored or seen before. *)
Theorem C26_same_bytes : forall C n acts1 acts2 acts3 th o r t d x r' b,
  sane C ->
  history C n (acts1 ++ acts2 ++ Start (lookup_op t d x) :: acts3) ->
  collections acts2 < n -> no_drop acts2 -> no_collection acts3 ->
  returned (reached C n acts1) th o r ->
  (exists y, o = OStoreBlob b y /\ r = AId (Some d) /\ IsTreeObject t = false) \/
  (exists y, o = OReadBlob d y /\ r = ABytes (Some b) /\ IsTreeObject t = false) \/
  (o = OStoreTree b /\ r = AId (Some d) /\ IsTreeObject t = true) \/
  (o = OAddTree d b /\ r = ADone true /\ IsTreeObject t = true) \/
  (o = OReadTree d /\ r = ABytes (Some b) /\ IsTreeObject t = true) ->
  returned (reached C n (acts1 ++ acts2 ++ Start (lookup_op t d x) :: acts3))
    (length (threads (reached C n (acts1 ++ acts2)))) (lookup_op t d x) r' ->
  r' = ABytes (Some b).
Proof.
  intros C n acts1 acts2 acts3 th o r t d x r' b S0 H Hn ND NC R CASES R'.
  assert (L := history_limits C n _ H).
  assert (H0 := H). rewrite app_assoc in H0. assert (H2 := history_app C n _ _ H0). assert (H1 := history_app C n _ _ H2).
  destruct (returned_ensures C n _ _ _ _ _ (history_sys C n S0 _ H1) R) as (σ0 & _ & E).
  assert (X : told o r t d /\ cfg_hash C (kind_for t) b = d /\ In (kind_for t, b) (log (disk (reached C n acts1)))).
  { unfold kind_for. destruct CASES as [(y & -> & -> & It)|[(y & -> & -> & It)|[(-> & -> & It)|[(-> & -> & It)|(-> & -> & It)]]]];
      rewrite It; cbn in E; cbn [told]; (split; [auto|]).
    - destruct E as (Ed & _ & Hb & Hl). injection Ed as ->. auto.
    - destruct E as (v & Ev & E). injection Ev as <-. destruct E as (_ & Hb & Hl). auto.
    - destruct E as (Ed & _ & Hl). injection Ed as ->. auto.
    - destruct E as (ok & Ev & E & _). injection Ev as <-. destruct (E eq_refl) as (_ & (Hb & Hl & _) & _). auto.
    - destruct E as (v & Ev & E). injection Ev as <-. destruct E as (_ & (Hb & Hl & _) & _). auto. }
  destruct X as (T & Hb & Hl). assert (A := told_avail C n _ _ _ _ _ _ E T).
  destruct (survive C n S0 acts1 acts2 0 H2 ND Hn) as (k' & Hk & SV).
  rewrite app_assoc in R', L.
  assert (AV : exists k, k < n /\ avail (gen_at (disk (reached C n (acts1 ++ acts2))) k) t d).
  { exists k'. split; [lia|]. now apply SV. }
  destruct (lookup_started C n S0 _ _ _ _ _ _ H0 NC AV R') as (b' & -> & Hb' & Hl').
  do 2 f_equal. symmetry. apply (proj1 L (kind_for t) b (kind_for t) b').
  - eapply suffix_in; [|exact Hl]. rewrite <- app_assoc. apply reached_log.
  - exact Hl'.
  - congruence.
Qed.
Print Assumptions C26_same_bytes.

(** ** C27 *)

(** C27. If an object was never in the youngest generation since some point,
    and as many garbage collections completed a rotation as there are
    generations, then it is in no generation any more. Being stored, looked up
    or referred to by something stored or looked up puts an object into the
    youngest generation (C26, C28). *)
Theorem C27_removed : forall C n acts1 acts2 t d, sane C -> history C n (acts1 ++ acts2) ->
  never_young C (fun g => avail g t d) acts2 (reached C n acts1) ->
  n <= rotations C acts2 (reached C n acts1) ->
  forall k, ~ avail (gen_at (disk (reached C n (acts1 ++ acts2))) k) t d.
Proof.
  intros C n acts1 acts2 t d S0 H NY R. apply (gone C n S0 (fun g => avail g t d)); auto.
  - unfold avail. destruct (IsTreeObject t).
    + intros [A|A]; now apply A.
    + intros [A|[A|A]]; now apply A.
  - apply avail_had.
Qed.
Print Assumptions C27_removed.

(** C27, for entries of the action cache and target cache. *)
Theorem C27_removed_entries : forall C n acts1 acts2 s a, sane C -> history C n (acts1 ++ acts2) ->
  s = SAction \/ s = STarget ->
  never_young C (fun g => present g s a) acts2 (reached C n acts1) ->
  n <= rotations C acts2 (reached C n acts1) ->
  forall k, ~ present (gen_at (disk (reached C n (acts1 ++ acts2))) k) s a.
Proof.
  intros C n acts1 acts2 s a S0 H Hs NY R. apply (gone C n S0 (fun g => present g s a)); auto.
  intros g g' P0 A. apply P0 in A. destruct A as [A|(x & y & -> & _)]; [exact A|].
  destruct Hs, x; discriminate.
Qed.
Print Assumptions C27_removed_entries.

(** C27. A garbage collection asked to remove everything and not interrupted
    does so. *)
Theorem C27_drop_all : forall C n acts f e b oks, 
  fst (run (TriggerGarbageCollection C false true f e b) oks (disk (reached C n acts))) = Some true ->
  forall k s i, ~ present (gen_at (disk (reached C n (acts ++ [Collect false true f e b oks]))) k) s i.
Proof.
  intros C n acts f e b oks E k s i. rewrite reached_app. cbn [perform_all fold_left perform disk].
  set (σ := disk (reached C n acts)) in *. unfold TriggerGarbageCollection in *. cbn [andb] in *.
  unfold drop_all in *. rewrite run_bind in *. cbn [run_rest num_generations access] in *.
  destruct oks as [|ok oks]; [discriminate E|].
  cbn [run_rest] in *.
  assert (G : forall l oks σ', fst (run (all_of l drop_generation) oks σ') = Some true ->
    length (gens (snd (run (all_of l drop_generation) oks σ'))) = length (gens σ') /\
    forall k, In k l \/ gen_at σ' k = [] -> gen_at (snd (run (all_of l drop_generation) oks σ')) k = []).
  { clear. induction l as [|j l IH]; intros oks σ' E; [split; [reflexivity|]; intros k [[]|H]; exact H|].
    cbn [all_of] in *. rewrite run_bind in *. cbn [run_rest drop_generation access] in *.
    destruct oks as [|ok oks]; [discriminate E|]. destruct ok; [|discriminate E]. cbn [run_rest] in *.
    specialize (IH _ _ E). destruct IH as [IH1 IH2]. split; [rewrite IH1; apply update_nth_length|].
    intros k Hk. apply IH2. rewrite gen_at_update.
    destruct Hk as [[->|Hk]|Hk].
    - right. rewrite Nat.eqb_refl. now destruct (k <? _).
    - now left.
    - right. destruct (j =? k); [now destruct (j <? _)|exact Hk]. }
  destruct (G _ _ _ E) as [_ X]. destruct (Nat.lt_ge_cases k (length (gens σ))) as [Hk|Hk].
  - intros P0. apply P0. rewrite X; [reflexivity|]. left. apply -> in_rev. apply in_seq. lia.
  - intros P0. apply P0. rewrite X; [reflexivity|]. right. now apply gen_at_out.
Qed.
Print Assumptions C27_drop_all.

(** ** C28 *)

(** C28. At any time, in every generation, the newest one in particular, with a
    tree all its entries are there too. *)
Theorem C28_closed : forall C n acts k d v, sane C -> history C n acts ->
  lookup (gen_at (disk (reached C n acts)) k) STree d = Some v ->
  exists b es, v = Bytes b /\ cfg_hash C KTree b = d /\ cfg_parse_tree C b = Some es /\
    entries_avail (gen_at (disk (reached C n acts)) k) es.
Proof.
  intros C n acts k d v S0 H L. destruct (history_sys C n S0 _ H) as ((_ & I) & _).
  destruct (I _ _ _ _ L) as (b & -> & (Hd & _) & es & PT & EA). exists b, es. auto.
Qed.
Print Assumptions C28_closed.

(** C28. Likewise for everything below a tree that is there, whether it is
    stored as a whole or in parts. *)
Theorem C28_closed_deep : forall C n acts k d b t j, sane C -> history C n acts ->
  avail_tree (gen_at (disk (reached C n acts)) k) d ->
  In (KTree, b) (log (disk (reached C n acts))) -> cfg_hash C KTree b = d ->
  below C (log (disk (reached C n acts))) b t j ->
  avail (gen_at (disk (reached C n acts)) k) t j.
Proof.
  intros C n acts k d b t j S0 H A Hb Hd B. destruct (history_sys C n S0 _ H) as (I & _).
  eapply below_avail; eauto.
  - apply suffix_refl.
  - apply (history_limits C n _ H).
Qed.
Print Assumptions C28_closed_deep.

(** C28. The checked interface puts a tree into the storage only if its bytes
    have the given digest, it is a tree, and all its entries are there; and it
    does so if they were there when it was called. *)
Theorem C28_checked : forall C n acts acts3 d b r, sane C ->
  history C n (acts ++ Start (OAddTree d b) :: acts3) -> no_collection acts3 ->
  let Σ := reached C n acts in
  let Σ' := reached C n (acts ++ Start (OAddTree d b) :: acts3) in
  returned Σ' (length (threads Σ)) (OAddTree d b) r ->
  exists ok, r = ADone ok /\
    (ok = true -> cfg_hash C KTree b = d /\ present (gen_at (disk Σ') 0) STree d /\
       exists es, cfg_parse_tree C b = Some es /\ entries_avail (gen_at (disk Σ') 0) es) /\
    (forall k es, k < n -> cfg_hash C KTree b = d -> cfg_parse_tree C b = Some es ->
       entries_avail (gen_at (disk Σ) k) es -> ok = true).
Proof.
  intros C n acts acts3 d b r S0 H NC Σ Σ' R.
  destruct (started_ensures C n S0 _ _ _ _ H NC R) as (ok & -> & H1 & H2).
  exists ok. split; [reflexivity|]. split; [|exact H2].
  intros Hok. destruct (H1 Hok) as (P0 & (Hd & _) & es & PT & EA). eauto.
Qed.
Print Assumptions C28_checked.

(** ** C29 *)

(** C29. If some generation holds bytes under a digest, as a file, an
    executable file, a tree or in parts, then after a compactification, whether
    complete or killed at any point, a lookup, for executable or not, finds
    these bytes. [files], [entries] and [big] are the files the compactification
    comes across, in any order; any files can be above the threshold. *)
Theorem C29_compactification : forall C n acts files entries big oks acts3 t d b k x r, sane C ->
  let compactify := Collect true false files entries big oks in
  history C n (acts ++ compactify :: Start (lookup_op t d x) :: acts3) -> no_collection acts3 ->
  k < n -> holds C (gen_at (disk (reached C n acts)) k) t d b ->
  returned (reached C n (acts ++ compactify :: Start (lookup_op t d x) :: acts3))
    (length (threads (reached C n (acts ++ [compactify])))) (lookup_op t d x) r ->
  r = ABytes (Some b).
Proof.
  intros C n acts f e g oks acts3 t d b k x r S0 compactify H NC Hk HO R.
  assert (E : acts ++ compactify :: Start (lookup_op t d x) :: acts3 =
    (acts ++ [compactify]) ++ Start (lookup_op t d x) :: acts3) by now rewrite <- app_assoc.
  rewrite E in *. assert (L := history_limits C n _ H).
  assert (H1 := history_app C n _ _ H). assert (T := history_step C n S0 _ _ H1).
  assert (H0 := history_app C n _ _ H1). destruct (history_sys C n S0 _ H0) as (I0 & Sz & _).
  assert (L0 := history_limits C n _ H0).
  destruct (holds_log C S0 _ _ _ _ _ I0 (proj1 L0) HO) as (A & Hb & Hl).
  destruct T as (j & W & SH & J & _). specialize (J eq_refl). subst j.
  assert (A1 := weak_avail _ _ _ _ _ W A).
  assert (A2 : avail (gen_at (disk (reached C n (acts ++ [compactify]))) k) t d).
  { rewrite reached_app. destruct SH as (_ & _ & _ & S1). cbn [perform_all fold_left]. rewrite S1.
    - apply Nat.ltb_lt in Hk. now rewrite Hk.
    - destruct W as (-> & _). unfold Uplink.sz in Sz. now rewrite Sz. }
  destruct (lookup_started C n S0 _ _ _ _ _ _ H NC (ex_intro _ k (conj Hk A2)) R) as (b' & -> & Hb' & Hl').
  do 2 f_equal. apply (proj1 L (kind_for t) b' (kind_for t) b).
  - exact Hl'.
  - eapply suffix_in; [|exact Hl]. rewrite <- app_assoc. apply reached_log.
  - congruence.
Qed.
Print Assumptions C29_compactification.

(** ** C30 *)

(** C30. If the action cache returns a result, or the target cache an entry,
    all artifacts it refers to are found by lookups, with everything below them,
    also after operations with fewer garbage collections than there are
    generations. *)
Theorem C30_complete : forall C n acts1 acts2 acts3 th a refs t d t' d' x r',
  sane C ->
  history C n (acts1 ++ acts2 ++ Start (lookup_op t' d' x) :: acts3) ->
  collections acts2 < n -> no_drop acts2 -> no_collection acts3 ->
  returned (reached C n acts1) th (OCachedResult a) (ARefs (Some refs)) \/
  (exists implied, returned (reached C n acts1) th (OReadTarget a) (ATarget (Some (implied, refs)))) ->
  In (t, d) refs ->
  let Σ2 := reached C n (acts1 ++ acts2) in
  let Σ3 := reached C n (acts1 ++ acts2 ++ Start (lookup_op t' d' x) :: acts3) in
  reachable C (log (disk Σ3)) t d t' d' ->
  returned Σ3 (length (threads Σ2)) (lookup_op t' d' x) r' ->
  exists b, r' = ABytes (Some b) /\ cfg_hash C (kind_for t') b = d'.
Proof.
  intros C n acts1 acts2 acts3 th a refs t d t' d' x r' S0 H Hn ND NC [R|[imp R]] Hin Σ2 Σ3 RE R'.
  - exact (C26_survives C n acts1 acts2 acts3 th _ _ t d t' d' x r' S0 H Hn ND NC R Hin RE R').
  - exact (C26_survives C n acts1 acts2 acts3 th _ _ t d t' d' x r' S0 H Hn ND NC R Hin RE R').
Qed.
Print Assumptions C30_complete.

(** C30. A result stored is found as long as no garbage collection took place. *)
Theorem C30_found : forall C n acts1 acts2 acts3 th a b r', sane C ->
  history C n (acts1 ++ acts2 ++ Start (OCachedResult a) :: acts3) ->
  no_collection acts2 -> no_collection acts3 ->
  returned (reached C n acts1) th (OStoreResult a b) (ADone true) ->
  returned (reached C n (acts1 ++ acts2 ++ Start (OCachedResult a) :: acts3))
    (length (threads (reached C n (acts1 ++ acts2)))) (OCachedResult a) r' ->
  exists refs, r' = ARefs (Some refs).
Proof.
  intros C n acts1 acts2 acts3 th a b r' S0 H NC2 NC3 R R'.
  rewrite app_assoc in H, R'. assert (H2 := history_app C n _ _ H). assert (H1 := history_app C n _ _ H2).
  destruct (returned_ensures C n _ _ _ _ _ (history_sys C n S0 _ H1) R) as (σ0 & _ & _ & P0).
  assert (P2 : present (gen_at (disk (reached C n (acts1 ++ acts2))) 0) SAction a).
  { clear H R' H1. induction acts2 as [|x acts2 IH] using rev_ind; [now rewrite app_nil_r|].
    rewrite app_assoc in *. assert (T := history_step C n S0 _ _ H2).
    assert (NCx : is_collect x = false) by (apply NC2, in_or_app; right; now left).
    rewrite reached_app.
    assert (Y : ext (disk (reached C n (acts1 ++ acts2))) (disk (perform C (reached C n (acts1 ++ acts2)) x)))
      by (destruct x; [exact T|exact T|discriminate NCx]).
    destruct Y as (_ & _ & X & _). eapply gext_present; [exact (X 0)|].
    apply IH; [|exact (history_app C n _ _ H2)]. intros y Hy. apply NC2, in_or_app. now left. }
  destruct (started_ensures C n S0 _ _ _ _ H NC3 R') as ([refs|] & -> & X); [eauto|].
  destruct X as [X _]. destruct (X P2).
Qed.
Print Assumptions C30_found.

(** C30. Likewise for an entry stored in the target cache. *)
Theorem C30_found_target : forall C n acts1 acts2 acts3 th a b r', sane C ->
  history C n (acts1 ++ acts2 ++ Start (OReadTarget a) :: acts3) ->
  no_collection acts2 -> no_collection acts3 ->
  returned (reached C n acts1) th (OStoreTarget a b) (ADone true) ->
  returned (reached C n (acts1 ++ acts2 ++ Start (OReadTarget a) :: acts3))
    (length (threads (reached C n (acts1 ++ acts2)))) (OReadTarget a) r' ->
  exists implied refs, r' = ATarget (Some (implied, refs)).
Proof.
  intros C n acts1 acts2 acts3 th a b r' S0 H NC2 NC3 R R'.
  rewrite app_assoc in H, R'. assert (H2 := history_app C n _ _ H). assert (H1 := history_app C n _ _ H2).
  destruct (returned_ensures C n _ _ _ _ _ (history_sys C n S0 _ H1) R) as (σ0 & _ & _ & P0).
  assert (P2 : present (gen_at (disk (reached C n (acts1 ++ acts2))) 0) STarget a).
  { clear H R' H1. induction acts2 as [|x acts2 IH] using rev_ind; [now rewrite app_nil_r|].
    rewrite app_assoc in *. assert (T := history_step C n S0 _ _ H2).
    assert (NCx : is_collect x = false) by (apply NC2, in_or_app; right; now left).
    rewrite reached_app.
    assert (Y : ext (disk (reached C n (acts1 ++ acts2))) (disk (perform C (reached C n (acts1 ++ acts2)) x)))
      by (destruct x; [exact T|exact T|discriminate NCx]).
    destruct Y as (_ & _ & X & _). eapply gext_present; [exact (X 0)|].
    apply IH; [|exact (history_app C n _ _ H2)]. intros y Hy. apply NC2, in_or_app. now left. }
  destruct (started_ensures C n S0 _ _ _ _ H NC3 R') as ([[implied refs]|] & -> & X); [eauto|].
  destruct (X P2).
Qed.
Print Assumptions C30_found_target.

(** ** C24 *)

(** C24. When an object was split, the parts are those of its bytes; and
    splicing them, also after other operations with fewer garbage collections
    than there are generations, succeeds. *)
Theorem C24_split_splice : forall C n acts1 acts2 acts3 th d ps x r',
  sane C -> history C n (acts1 ++ acts2 ++ Start (OSpliceBlob d ps x) :: acts3) ->
  collections acts2 < n -> no_drop acts2 -> no_collection acts3 ->
  returned (reached C n acts1) th (OSplitBlob d) (AParts (Some ps)) ->
  returned (reached C n (acts1 ++ acts2 ++ Start (OSpliceBlob d ps x) :: acts3))
    (length (threads (reached C n (acts1 ++ acts2)))) (OSpliceBlob d ps x) r' ->
  r' = AId (Some d) /\
  exists b, cfg_hash C KBlob b = d /\ ps = map (cfg_hash C KBlob) (cfg_chunker C b) /\
    lookup (gen_at (disk (reached C n (acts1 ++ acts2 ++ Start (OSpliceBlob d ps x) :: acts3))) 0)
      (if x then SExec else SFile) d = Some (Bytes b).
Proof.
  intros C n acts1 acts2 acts3 th d ps x r' S0 H Hn ND NC R R'.
  rewrite app_assoc in *. assert (L := history_limits C n _ H).
  assert (H2 := history_app C n _ _ H). assert (H1 := history_app C n _ _ H2).
  destruct (returned_ensures C n _ _ _ _ _ (history_sys C n S0 _ H1) R) as (σ0 & _ & v & Ev & E).
  injection Ev as <-. destruct E as (b & Hb & Hl & -> & CA & _).
  destruct (survive C n S0 acts1 acts2 0 H2 ND Hn) as (k' & Hk & SV).
  destruct (started_ensures C n S0 _ _ _ _ H NC R') as (v & -> & X).
  assert (Sy := history_sys C n S0 _ H1). destruct Sy as ((_ & I1) & _).
  destruct v as [i|].
  2:{ exfalso. apply (X k' (cfg_chunker C b)); auto; [lia| |now rewrite (sane_concat C S0)].
    intros c Hc. specialize (CA c Hc). split.
    - assert (A : avail (gen_at (disk (reached C n acts1)) 0) File (cfg_hash C KBlob c)).
      { left. unfold present. congruence. }
      exact (SV _ _ A).
    - destruct (I1 _ _ _ _ CA) as (c' & Ec & _ & Hc'). injection Ec as <-.
      eapply suffix_in; [|exact Hc']. apply reached_log. }
  destruct X as [-> P0]. split; [reflexivity|]. exists b. split; [exact Hb|]. split; [reflexivity|].
  change (if x then SExec else SFile) with (blob_slot x). apply present_some in P0. destruct P0 as (v & Lv).
  destruct (history_sys C n S0 _ H) as ((_ & I3) & _). rewrite Lv. f_equal.
  assert (Y : exists b', v = Bytes b' /\ blob_ok C
    (log (disk (reached C n ((acts1 ++ acts2) ++ Start (OSpliceBlob d (map (cfg_hash C KBlob) (cfg_chunker C b)) x) :: acts3)))) d b')
    by (apply I3 in Lv; destruct x; exact Lv).
  destruct Y as (b' & -> & Hb' & Hl'). f_equal. apply (proj1 L KBlob b' KBlob b); auto; [|congruence].
  eapply suffix_in; [|exact Hl]. rewrite <- app_assoc. apply reached_log.
Qed.
Print Assumptions C24_split_splice.

(** C24, for trees. *)
Theorem C24_split_splice_tree : forall C n acts1 acts2 acts3 th d ps r',
  sane C -> history C n (acts1 ++ acts2 ++ Start (OSpliceTree d ps) :: acts3) ->
  collections acts2 < n -> no_drop acts2 -> no_collection acts3 ->
  returned (reached C n acts1) th (OSplitTree d) (AParts (Some ps)) ->
  returned (reached C n (acts1 ++ acts2 ++ Start (OSpliceTree d ps) :: acts3))
    (length (threads (reached C n (acts1 ++ acts2)))) (OSpliceTree d ps) r' ->
  r' = AId (Some d) /\
  exists b, cfg_hash C KTree b = d /\ ps = map (cfg_hash C KBlob) (cfg_chunker C b) /\
    lookup (gen_at (disk (reached C n (acts1 ++ acts2 ++ Start (OSpliceTree d ps) :: acts3))) 0)
      STree d = Some (Bytes b).
Proof.
  intros C n acts1 acts2 acts3 th d ps r' S0 H Hn ND NC R R'.
  rewrite app_assoc in *. assert (L := history_limits C n _ H).
  assert (H2 := history_app C n _ _ H). assert (H1 := history_app C n _ _ H2).
  destruct (returned_ensures C n _ _ _ _ _ (history_sys C n S0 _ H1) R) as (σ0 & _ & v & Ev & E).
  injection Ev as <-. destruct E as (b & Hb & Hl & -> & CA & AT).
  destruct (survive C n S0 acts1 acts2 0 H2 ND Hn) as (k' & Hk & SV).
  destruct (started_ensures C n S0 _ _ _ _ H NC R') as (v & -> & X).
  assert (Sy := history_sys C n S0 _ H1). destruct Sy as ((I1a & I1) & _).
  assert (TO : exists es, cfg_parse_tree C b = Some es /\ entries_avail (gen_at (disk (reached C n acts1)) 0) es).
  { assert (X0 : exists b', tree_ok C (log (disk (reached C n acts1))) (gen_at (disk (reached C n acts1)) 0) d b').
    { destruct AT as [A|A]; unfold present in A; destruct (lookup _ _ _) as [w|] eqn:Ew; try congruence;
        apply I1 in Ew; cbn in Ew; destruct Ew as (b' & Ew); exists b'; apply Ew. }
    destruct X0 as (b' & (B1 & B2 & _) & es & PT & EA).
    destruct (proj1 (history_limits C n _ H1) KTree b' KTree b) as [_ ->]; eauto; congruence. }
  destruct TO as (es & PT & EA).
  destruct v as [i|].
  2:{ exfalso. apply (X k' (cfg_chunker C b) es); auto; [lia| | | |].
    - intros c Hc. specialize (CA c Hc). split.
      + assert (A : avail (gen_at (disk (reached C n acts1)) 0) File (cfg_hash C KBlob c)).
        { left. unfold present. congruence. }
        exact (SV _ _ A).
      + destruct (I1 _ _ _ _ CA) as (c' & Ec & _ & Hc'). injection Ec as <-.
        eapply suffix_in; [|exact Hc']. apply reached_log.
    - unfold concat_bytes. now rewrite (sane_concat C S0).
    - intros i t0 ts t Hi Ht. apply SV. exact (EA i t0 ts t Hi Ht).
    - unfold concat_bytes. now rewrite (sane_concat C S0). }
  destruct X as [-> P0]. split; [reflexivity|]. exists b. split; [exact Hb|]. split; [reflexivity|].
  apply present_some in P0. destruct P0 as (v & Lv).
  destruct (history_sys C n S0 _ H) as ((_ & I3) & _). rewrite Lv. f_equal.
  apply I3 in Lv. destruct Lv as (b' & -> & (Hb' & Hl' & _) & _).
  f_equal. apply (proj1 L KTree b' KTree b); auto; [|congruence].
  eapply suffix_in; [|exact Hl]. rewrite <- app_assoc. apply reached_log.
Qed.
Print Assumptions C24_split_splice_tree.

(** C24. Splitting succeeds for what is in the storage. *)
Theorem C24_split_succeeds : forall C n acts acts3 d r, sane C ->
  history C n (acts ++ Start (OSplitBlob d) :: acts3) -> no_collection acts3 ->
  returned (reached C n (acts ++ Start (OSplitBlob d) :: acts3)) (length (threads (reached C n acts)))
    (OSplitBlob d) r ->
  (exists k, k < n /\ avail_blob (gen_at (disk (reached C n acts)) k) d) ->
  exists ps, r = AParts (Some ps).
Proof.
  intros C n acts acts3 d r S0 H NC R (k & Hk & A).
  destruct (started_ensures C n S0 _ _ _ _ H NC R) as ([ps|] & -> & X); [eauto|].
  destruct (X k Hk A).
Qed.
Print Assumptions C24_split_succeeds.

(** C24. A splice result is accepted only if its digest is the requested one. *)
Theorem C24_splice_checked : forall C n acts th d ps x i, sane C -> history C n acts ->
  returned (reached C n acts) th (OSpliceBlob d ps x) (AId (Some i)) ->
  i = d /\ exists b, cfg_hash C KBlob b = d /\
    lookup (gen_at (disk (reached C n acts)) 0) (if x then SExec else SFile) d = Some (Bytes b).
Proof.
  intros C n acts th d ps x i S0 H R.
  destruct (returned_ensures C n _ _ _ _ _ (history_sys C n S0 _ H) R) as (σ0 & _ & v & Ev & E).
  injection Ev as <-. destruct E as [-> P0]. split; [reflexivity|].
  apply present_some in P0. destruct P0 as (v & Lv).
  destruct (history_sys C n S0 _ H) as ((_ & I3) & _).
  destruct x; destruct (I3 _ _ _ _ Lv) as (b & -> & Hb & _); exists b; auto.
Qed.
Print Assumptions C24_splice_checked.
