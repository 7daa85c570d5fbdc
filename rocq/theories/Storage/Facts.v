(** From the invariant of executions to the properties. *)
From Coq Require Import String List Bool Arith Lia.
From Verif Require Import GitTree.Model Storage.Model Storage.Spec Storage.Addr Storage.Inv Storage.Hoare
  Storage.Uplink Storage.Gc Storage.Run Storage.System.
Import ListNotations.

Section Facts.

Variable C : config.
Local Notation hash := (cfg_hash C).
Local Notation chunker := (cfg_chunker C).
Variable N : nat.
Hypothesis S0 : sane C.
Local Notation sys := (sys C N).

Lemma perform_all_app : forall a b Σ, perform_all C (a ++ b) Σ = perform_all C b (perform_all C a Σ).
Proof. intros. apply fold_left_app. Qed.
Lemma reached_app : forall a b, reached C N (a ++ b) = perform_all C b (reached C N a).
Proof. intros. apply perform_all_app. Qed.

Lemma contracts_app : forall a b Σ, contracts C (a ++ b) Σ ->
  contracts C a Σ /\ contracts C b (perform_all C a Σ).
Proof.
  induction a as [|x a IH]; intros b Σ H; [split; [exact Logic.I|exact H]|].
  cbn [app contracts] in *. destruct H as [H1 H2]. destruct (IH b _ H2) as [H3 H4].
  split; [split; auto|exact H4].
Qed.

Lemma fresh_threads : forall I, closed C I -> pres_threads I (threads (fresh N)).
Proof. intros I _ o m []. Qed.

Lemma all_threads : forall acts Σ, (forall I, closed C I -> pres_threads I (threads Σ)) ->
  forall I, closed C I -> pres_threads I (threads (perform_all C acts Σ)).
Proof.
  induction acts as [|a acts IH]; intros Σ H; [exact H|]. apply IH. now apply perform_threads.
Qed.

Lemma reached_log : forall a b, suffix (log (disk (reached C N a))) (log (disk (reached C N (a ++ b)))).
Proof.
  intros a b. rewrite reached_app. apply log_grows. apply all_threads. apply fresh_threads.
Qed.

Lemma history_limits : forall acts, history C N acts -> limits C (log (disk (reached C N acts))).
Proof. intros acts (_ & _ & _ & A & B). split; auto. Qed.

Lemma history_app : forall a b, history C N (a ++ b) -> history C N a.
Proof.
  intros a b H. assert (L := history_limits _ H). destruct H as (Np & IO & CT & _).
  split; [exact Np|]. split; [intros x Hx; apply IO, in_or_app; now left|].
  split; [apply (contracts_app a b _ CT)|].
  exact (limits_suffix C _ _ (reached_log a b) L).
Qed.

Lemma fresh_gen : forall k, gen_at (disk (fresh N)) k = [].
Proof.
  intros k. unfold gen_at. cbn [fresh disk gens]. revert k. induction N as [|n IH]; intros [|k]; cbn; auto.
Qed.

Lemma fresh_sys : 0 < N -> sys [] (fresh N).
Proof.
  intros Np. split; [|split; [|split; [constructor|intros I _ o m []]]].
  - split; [cbn; now rewrite repeat_length|]. intros k. rewrite fresh_gen. apply empty_ok.
  - apply repeat_length.
Qed.

Definition starts_of (acts : list action) : list store := all_starts C [] acts (fresh N).

Lemma history_sys : forall acts, history C N acts -> sys (starts_of acts) (reached C N acts).
Proof.
  intros acts H. assert (L := history_limits _ H). destruct H as (Np & IO & CT & _).
  apply (perform_all_sys C N Np (sane_concat C S0) (sane_again C S0) (sane_names C S0)); auto.
  now apply fresh_sys.
Qed.

Lemma history_step : forall acts a, history C N (acts ++ [a]) -> transition C N (reached C N acts) a.
Proof.
  intros acts a H. assert (L := history_limits _ H). assert (H' := history_sys _ (history_app _ _ H)).
  destruct H as (Np & IO & CT & _).
  destruct (perform_sys C N Np (sane_concat C S0) (sane_again C S0) (sane_names C S0) _ _ a H') as [_ T]; auto.
  - apply IO, in_or_app. right. now left.
  - apply contracts_app in CT. apply CT.
  - rewrite reached_app in L. exact L.
Qed.

Lemma all_starts_app : forall a b st Σ, all_starts C st (a ++ b) Σ = all_starts C (all_starts C st a Σ) b (perform_all C a Σ).
Proof. induction a as [|x a IH]; intros b st Σ; [reflexivity|]. cbn. apply IH. Qed.

Lemma all_starts_nth : forall acts st Σ t, no_collection acts -> t < length st ->
  nth_error (all_starts C st acts Σ) t = nth_error st t.
Proof.
  induction acts as [|a acts IH]; intros st Σ t NC Ht; [reflexivity|]. cbn [all_starts].
  assert (NC' : no_collection acts) by (intros x Hx; apply NC; now right).
  specialize (NC a (or_introl eq_refl)). destruct a; cbn [next_starts]; [|now apply IH|discriminate NC].
  rewrite IH; [|exact NC'|rewrite app_length; cbn; lia]. now apply nth_error_app1.
Qed.

Lemma Forall2_nth {A B} (R : A -> B -> Prop) l l' : Forall2 R l l' -> forall t y, nth_error l' t = Some y ->
  exists x, nth_error l t = Some x /\ R x y.
Proof.
  induction 1 as [|x y l l' H F IH]; intros t z E; [destruct t; discriminate E|].
  destruct t as [|t]; cbn in *; [injection E as <-; eauto|auto].
Qed.

Lemma Forall2_len {A B} (R : A -> B -> Prop) l l' : Forall2 R l l' -> length l = length l'.
Proof. induction 1; cbn; congruence. Qed.

Lemma returned_ensures : forall st Σ t o r, sys st Σ -> returned Σ t o r ->
  exists σ0, nth_error st t = Some σ0 /\ ensures C N σ0 o r (disk Σ).
Proof.
  intros st Σ t o r (_ & _ & F & _) R. destruct (Forall2_nth _ _ _ F _ _ R) as (σ0 & E & T).
  exists σ0. split; [exact E|exact T].
Qed.

(** An operation started after [acts]. *)
Lemma started_ensures : forall acts o acts3 r, history C N (acts ++ Start o :: acts3) -> no_collection acts3 ->
  returned (reached C N (acts ++ Start o :: acts3)) (length (threads (reached C N acts))) o r ->
  ensures C N (disk (reached C N acts)) o r (disk (reached C N (acts ++ Start o :: acts3))).
Proof.
  intros acts o acts3 r H NC R.
  assert (S1 := history_sys _ (history_app _ _ H)). assert (S2 := history_sys _ H).
  destruct (returned_ensures _ _ _ _ _ S2 R) as (σ0 & E & X).
  destruct S1 as (_ & _ & F & _). apply Forall2_len in F.
  unfold starts_of in E. rewrite all_starts_app in E. cbn [all_starts next_starts] in E.
  fold (starts_of acts) in E. fold (reached C N acts) in E.
  rewrite all_starts_nth in E; [|exact NC|rewrite app_length, F; cbn; lia].
  rewrite nth_error_app2 in E by lia. rewrite F, Nat.sub_diag in E. injection E as <-. exact X.
Qed.

(** *** Objects stay in the storage *)
Lemma shifted_keeps : forall j σ σ' k, shifted j σ σ' -> S k < length (gens σ) ->
  exists k', k' <= S k /\ (forall t d, avail (gen_at σ k) t d -> avail (gen_at σ' k') t d).
Proof.
  intros j σ σ' k (A & B & D & E) Hk. destruct (Nat.lt_ge_cases k j) as [Hj|Hj].
  - exists k. split; [lia|]. intros t d. rewrite E by lia. apply Nat.ltb_lt in Hj. now rewrite Hj.
  - exists (S k). split; [lia|]. intros t d. rewrite E by lia.
    destruct (Nat.ltb_spec (S k) j); [lia|]. destruct (Nat.eqb_spec (S k) j); [lia|].
    now rewrite Nat.sub_succ, Nat.sub_0_r.
Qed.

Lemma collections_app : forall a b, collections (a ++ b) = collections a + collections b.
Proof. intros a b. unfold collections. now rewrite filter_app, app_length. Qed.

Lemma survive : forall acts acts2 k, history C N (acts ++ acts2) -> no_drop acts2 ->
  k + collections acts2 < N ->
  exists k', k' <= k + collections acts2 /\
    forall t d, avail (gen_at (disk (reached C N acts)) k) t d ->
      avail (gen_at (disk (reached C N (acts ++ acts2))) k') t d.
Proof.
  intros acts acts2 k. induction acts2 as [|a acts2 IH] using rev_ind; intros H ND Hk.
  - exists k. rewrite app_nil_r. split; [lia|auto].
  - rewrite app_assoc in H. rewrite collections_app in Hk.
    destruct IH as (k1 & Hk1 & A1); [exact (history_app _ _ H)| |lia|].
    { intros x Hx. apply ND, in_or_app. now left. }
    assert (T := history_step _ _ H). rewrite app_assoc, reached_app.
    assert (Sy := history_sys _ (history_app _ _ H)). destruct Sy as (_ & Sz & _).
    set (Σ := reached C N (acts ++ acts2)) in *. rewrite collections_app.
    destruct a as [o|t ok|nr al f e b oks].
    + exists k1. split; [lia|]. intros t d A. destruct T as (_ & _ & X & _). eapply gext_avail; eauto.
    + exists k1. split; [lia|]. intros t0 d A. destruct T as (_ & _ & X & _).
      eapply gext_avail; [exact (X k1)|]. auto.
    + destruct al; [destruct (ND (Collect nr true f e b oks)); [apply in_or_app; right; now left|reflexivity]|].
      destruct T as (j & W & SH & _). change (collections [Collect nr false f e b oks]) with 1 in *.
      destruct (shifted_keeps _ _ _ k1 SH) as (k2 & Hk2 & A2).
      { destruct W as (-> & _). unfold Uplink.sz in Sz. rewrite Sz. lia. }
      exists k2. split; [lia|]. intros t d A. apply A2. eapply weak_avail; eauto.
Qed.

(** *** Trees are closed *)
Lemma tree_entries : forall L' σ k d b es, Inv C σ -> suffix (log σ) L' -> no_collision hash L' ->
  avail_tree (gen_at σ k) d -> In (KTree, b) L' -> hash KTree b = d -> cfg_parse_tree C b = Some es ->
  entries_avail (gen_at σ k) es.
Proof.
  intros L' σ k d b es [_ I] SU NC A Hin Hd PT.
  assert (X : exists b', tree_ok C (log σ) (gen_at σ k) d b').
  { destruct A as [A|A]; unfold present in A; destruct (lookup _ _ _) as [v|] eqn:E; try congruence;
      apply I in E; cbn in E; destruct E as (b' & E); exists b'; apply E. }
  destruct X as (b' & (H1 & H2 & _) & es' & PT' & EA).
  destruct (NC KTree b KTree b') as [_ <-]; [exact Hin|eapply suffix_in; eauto|congruence|].
  rewrite PT in PT'. injection PT' as <-. exact EA.
Qed.

Lemma below_avail : forall L' σ k, Inv C σ -> suffix (log σ) L' -> no_collision hash L' ->
  forall b t j, below C L' b t j -> forall d, In (KTree, b) L' -> hash KTree b = d ->
  avail_tree (gen_at σ k) d -> avail (gen_at σ k) t j.
Proof.
  intros L' σ k I SU NC b t j B.
  induction B as [b es i t0 ts t PT Hin Ht|b es i t0 ts t c t' j PT Hin Ht It Hc Hi B IH]; intros d Hb Hd A.
  - exact (tree_entries L' σ k d b es I SU NC A Hb Hd PT i t0 ts t Hin Ht).
  - apply (IH i Hc Hi).
    assert (X := tree_entries L' σ k d b es I SU NC A Hb Hd PT i t0 ts t Hin Ht).
    unfold avail in X. now rewrite It in X.
Qed.

Lemma avail_kind : forall g t t' d, IsTreeObject t' = IsTreeObject t -> avail g t d -> avail g t' d.
Proof. intros g t t' d E. unfold avail. now rewrite E. Qed.

Lemma reachable_avail : forall L' σ k t d t' d', Inv C σ -> suffix (log σ) L' -> no_collision hash L' ->
  reachable C L' t d t' d' -> avail (gen_at σ k) t d -> avail (gen_at σ k) t' d'.
Proof.
  intros L' σ k t d t' d' I SU NC [[E ->]|(E & b & Hb & Hd & B)] A.
  - eapply avail_kind; eauto.
  - eapply below_avail; eauto. unfold avail in A. now rewrite E in A.
Qed.

Lemma told_avail : forall σ0 o r σ t d, ensures C N σ0 o r σ -> told o r t d -> avail (gen_at σ 0) t d.
Proof.
  intros σ0 o r σ t d E T. unfold avail. destruct o; cbn [ensures] in E.
  - destruct E as (-> & L & _). cbn in T. destruct T as [-> ->]. destruct x; cbn in L; [right; left|left];
      unfold present; congruence.
  - destruct E as (-> & L & _). cbn in T. destruct T as [-> ->]. now left.
  - destruct E as (ok & -> & L & _). destruct ok; cbn in T; [|destruct T]. destruct T as [-> ->]. left. now apply L.
  - destruct E as ([v|] & -> & L); cbn in T; [|destruct T]. destruct T as [-> ->]. destruct L as [L _].
    destruct x; cbn in L; [right; left|left]; unfold present; congruence.
  - destruct E as ([v|] & -> & L); cbn in T; [|destruct T]. destruct T as [-> ->]. destruct L as [L _].
    left. unfold present; congruence.
  - destruct E as ([v|] & -> & L); cbn in T; [|destruct T]. destruct L as (b & H1 & H2 & -> & H4 & H5).
    destruct T as [-> [->|T]]; [exact H5|]. apply in_map_iff in T. destruct T as (c & <- & Hc).
    left. unfold present. rewrite (H4 c Hc). discriminate.
  - destruct E as ([v|] & -> & L); cbn in T; [|destruct T]. destruct L as (b & H1 & H2 & -> & H4 & H5).
    destruct T as [[-> ->]|[-> T]]; [exact H5|]. apply in_map_iff in T. destruct T as (c & <- & Hc).
    left. unfold present. rewrite (H4 c Hc). discriminate.
  - destruct E as ([v|] & -> & L); cbn in T; [|destruct T]. destruct T as [-> ->]. destruct L as [_ L].
    destruct x; cbn in L; [right; left|left]; exact L.
  - destruct E as ([v|] & -> & L); cbn in T; [|destruct T]. destruct T as [-> ->]. left. apply L.
  - destruct E as [-> _]. destruct T.
  - destruct E as ([v|] & -> & L); cbn in T; [|destruct T]. apply (L t d T).
  - destruct E as [-> _]. destruct T.
  - destruct E as ([[imp refs]|] & -> & L); cbn in T; [|destruct T]. apply (proj1 L t d T).
Qed.

(** *** Lookups *)
Lemma lookup_ensures : forall σ0 t d x r σ, ensures C N σ0 (lookup_op t d x) r σ ->
  (exists k, k < N /\ avail (gen_at σ0 k) t d) ->
  exists b, r = ABytes (Some b) /\ hash (kind_for t) b = d /\ In (kind_for t, b) (log σ).
Proof.
  intros σ0 t d x r σ E (k & Hk & A). unfold lookup_op, kind_for, avail in *.
  destruct (IsTreeObject t); cbn in E; destruct E as ([b|] & -> & E).
  - exists b. split; [reflexivity|]. destruct E as (_ & (H1 & H2 & _) & _). auto.
  - destruct (E k Hk A).
  - exists b. split; [reflexivity|]. destruct E as (_ & H1 & H2). auto.
  - destruct (E k Hk A).
Qed.

Lemma lookup_started : forall acts t d x acts3 r, 
  history C N (acts ++ Start (lookup_op t d x) :: acts3) -> no_collection acts3 ->
  (exists k, k < N /\ avail (gen_at (disk (reached C N acts)) k) t d) ->
  returned (reached C N (acts ++ Start (lookup_op t d x) :: acts3)) (length (threads (reached C N acts)))
    (lookup_op t d x) r ->
  exists b, r = ABytes (Some b) /\ hash (kind_for t) b = d /\
    In (kind_for t, b) (log (disk (reached C N (acts ++ Start (lookup_op t d x) :: acts3)))).
Proof.
  intros acts t d x acts3 r H NC A R. eapply lookup_ensures; [|exact A].
  eapply started_ensures; eauto.
Qed.

(** *** Content held by a generation *)
Lemma map_hash_inj : forall L cs cs', no_collision hash L ->
  (forall c, In c cs -> In (KBlob, c) L) -> (forall c, In c cs' -> In (KBlob, c) L) ->
  map (hash KBlob) cs = map (hash KBlob) cs' -> cs = cs'.
Proof.
  intros L cs. induction cs as [|c cs IH]; intros [|c' cs'] NC H H' E; try discriminate E; [reflexivity|].
  injection E as E1 E2. f_equal.
  - apply (NC KBlob c KBlob c'); auto; [apply H|apply H']; now left.
  - apply IH; auto; intros x Hx; [apply H|apply H']; now right.
Qed.

Lemma holds_log : forall σ k t d b, Inv C σ -> no_collision hash (log σ) -> holds C (gen_at σ k) t d b ->
  avail (gen_at σ k) t d /\ hash (kind_for t) b = d /\ In (kind_for t, b) (log σ).
Proof.
  intros σ k t d b [_ I] NC H. unfold holds, avail, kind_for in *.
  assert (PARTS : forall ls v b0 cs, lookup (gen_at σ k) ls d = Some v -> large_ok C (gen_at σ k) v b0 ->
    v = Parts (map (hash KBlob) cs) ->
    (forall c, In c cs -> lookup (gen_at σ k) SFile (hash KBlob c) = Some (Bytes c)) ->
    fold_right String.append EmptyString cs = b0).
  { intros ls v b0 cs L (E & _ & CA) Ev CS. rewrite E in Ev. injection Ev as Ev.
    rewrite <- (sane_concat C S0 b0). f_equal. symmetry. eapply (map_hash_inj (log σ)); eauto.
    - intros c Hc. specialize (CA c Hc). apply I in CA. destruct CA as (c' & X & _ & Y). injection X as <-. exact Y.
    - intros c Hc. specialize (CS c Hc). apply I in CS. destruct CS as (c' & X & _ & Y). injection X as <-. exact Y. }
  destruct (IsTreeObject t).
  - destruct H as [H|(cs & L & CS & Eb)].
    + split; [left; unfold present; congruence|]. apply I in H. destruct H as (b' & X & (H1 & H2 & _) & _).
      injection X as <-. auto.
    + split; [right; unfold present; congruence|]. destruct (I _ _ _ _ L) as (b0 & ((H1 & H2 & _) & _) & LO).
      specialize (PARTS _ _ _ _ L LO eq_refl CS). assert (b0 = b) as <- by congruence. auto.
  - destruct H as [H|[H|(cs & L & CS & Eb)]].
    + split; [left; unfold present; congruence|]. apply I in H. destruct H as (b' & X & H1 & H2).
      injection X as <-. auto.
    + split; [right; left; unfold present; congruence|]. apply I in H. destruct H as (b' & X & H1 & H2).
      injection X as <-. auto.
    + split; [right; right; unfold present; congruence|]. destruct (I _ _ _ _ L) as (b0 & (H1 & H2) & LO).
      specialize (PARTS _ _ _ _ L LO eq_refl CS). assert (b0 = b) as <- by congruence. auto.
Qed.

(** *** Removal *)
Section Gone.
Variable P : gen -> Prop.
Hypothesis P_empty : ~ P [].
Hypothesis P_had : forall g g', (forall s i, present g' s i -> had g s i) -> P g' -> P g.

Definition old (m : nat) (σ : store) : Prop := forall k, k < m -> ~ P (gen_at σ k).

Lemma older : forall acts2 acts m, history C N (acts ++ acts2) -> old m (disk (reached C N acts)) ->
  never_young C P acts2 (reached C N acts) ->
  old (m + rotations C acts2 (reached C N acts)) (disk (reached C N (acts ++ acts2))) \/
  N <= m + rotations C acts2 (reached C N acts) /\ old N (disk (reached C N (acts ++ acts2))).
Proof.
  induction acts2 as [|a acts2 IH]; intros acts m H O NY.
  - cbn [rotations]. rewrite app_nil_r, Nat.add_0_r. now left.
  - assert (E : acts ++ a :: acts2 = (acts ++ [a]) ++ acts2) by now rewrite <- app_assoc.
    rewrite E in *. assert (H1 := history_app _ _ H). assert (T := history_step _ _ H1).
    assert (Sz : length (gens (disk (reached C N acts))) = N).
    { destruct (history_sys _ (history_app _ _ H1)) as (_ & Sz & _). exact Sz. }
    assert (Ea : reached C N (acts ++ [a]) = perform C (reached C N acts) a) by (rewrite reached_app; reflexivity).
    cbn [rotations never_young] in *. set (Σ := reached C N acts) in *.
    destruct NY as (Y0 & Y1 & Y2). rewrite <- Ea in Y2. 
    assert (Y3 : ~ P (gen_at (disk (reached C N (acts ++ [a]))) 0)) by (destruct acts2; apply Y2).
    set (δ := match a with Collect false false f e b oks =>
                match fst (run (TriggerGarbageCollection C false false f e b) oks (disk Σ)) with
                | Some true => 1 | _ => 0 end | _ => 0 end) in *.
    assert (G : old (m + δ) (disk (reached C N (acts ++ [a])))).
    { unfold old. intros k Hk Pk. destruct k as [|k]; [exact (Y3 Pk)|].
      rewrite Ea in Pk.
      destruct a as [o|t ok|nr al f e b oks].
      - apply (O (S k)); [lia|exact Pk].
      - apply (O (S k)); [lia|]. destruct T as (_ & _ & _ & B). eapply P_had; [|exact Pk].
        intros s i. apply B. lia.
      - destruct al.
        + assert (δ = 0) as D0 by (unfold δ; destruct nr; reflexivity).
          destruct T as [[_ T]|T].
          * rewrite T in Pk. apply (O (S k)); [lia|exact Pk].
          * destruct T as (_ & _ & T). destruct (T (S k)) as [T'|T']; rewrite T' in Pk; [|exact (P_empty Pk)].
            apply (O (S k)); [lia|exact Pk].
        + destruct T as (j & W & SH & J1 & J2).
          set (σ1 := snd (run (Compactify C f e b) oks (disk Σ))) in *.
          assert (O1 : old m σ1).
          { intros k' Hk' Pk'. destruct k' as [|k']; [exact (Y1 Pk')|]. apply (O (S k')); [exact Hk'|].
            destruct W as (_ & _ & _ & B). eapply P_had; [|exact Pk']. intros s i. apply B. lia. }
          assert (L1 : length (gens σ1) = N) by (destruct W; congruence).
          destruct SH as (A1 & A2 & A3 & A4).
          destruct (Nat.lt_ge_cases (S k) N) as [Hn|Hn].
          2:{ rewrite gen_at_out in Pk by lia. exact (P_empty Pk). }
          rewrite A4 in Pk by lia.
          destruct (Nat.ltb_spec (S k) j).
          * apply (O1 (S k)); [|exact Pk]. unfold δ in Hk. destruct nr; [lia|].
            destruct (fst (run (TriggerGarbageCollection C false false f e b) oks (disk Σ))) as [[|]|] eqn:Er; try lia.
            specialize (J2 eq_refl eq_refl). lia.
          * destruct (Nat.eqb_spec (S k) j); [exact (P_empty Pk)|]. rewrite Nat.sub_succ, Nat.sub_0_r in Pk.
            apply (O1 k); [|exact Pk]. assert (δ <= 1); [|lia]. clear.
            unfold δ. destruct nr; [lia|]. destruct (fst _) as [[|]|]; lia. }
    specialize (IH (acts ++ [a]) (m + δ) H G Y2). rewrite Ea in IH. rewrite Nat.add_assoc. exact IH.
Qed.

Lemma gone : forall acts acts2, history C N (acts ++ acts2) -> never_young C P acts2 (reached C N acts) ->
  N <= rotations C acts2 (reached C N acts) -> forall k, ~ P (gen_at (disk (reached C N (acts ++ acts2))) k).
Proof.
  intros acts acts2 H NY R k Pk.
  assert (Sz : length (gens (disk (reached C N (acts ++ acts2)))) = N).
  { destruct (history_sys _ H) as (_ & Sz & _). exact Sz. }
  destruct (Nat.lt_ge_cases k N) as [Hk|Hk]; [|rewrite gen_at_out in Pk by lia; exact (P_empty Pk)].
  destruct (older acts2 acts 0 H) as [O|[_ O]]; auto.
  - intros k' Hk'. lia.
  - apply (O k); [cbn; lia|exact Pk].
  - apply (O k); [lia|exact Pk].
Qed.
End Gone.

Lemma avail_had : forall t d g g', (forall s i, present g' s i -> had g s i) -> avail g' t d -> avail g t d.
Proof.
  intros t d g g' H. unfold avail. destruct (IsTreeObject t).
  - intros [A|A]; apply H in A; destruct A as [A|(x & y & E & A)]; try (destruct x; discriminate E); [left|right]; exact A.
  - intros [A|[A|A]]; apply H in A; destruct A as [A|(x & y & E & A)];
      try (destruct x; discriminate E); try (destruct y; [right; left|left]; exact A).
    + now left.
    + right; now left.
    + right; now right.
Qed.

(** *** Operations return *)
Lemma finishes {A} (m : M A) : forall σ, exists n r σ', run m (repeat true n) σ = (Some r, σ').
Proof.
  induction m as [a|X act k IH]; intros σ; [exists 0, a, σ; reflexivity|].
  destruct (act true σ) as [x σ1] eqn:E. destruct (IH x σ1) as (n & r & σ' & R).
  exists (S n), r, σ'. cbn. now rewrite E.
Qed.

Lemma advance_last : forall l o (m : M answer) σ X act k, m = Act X act k ->
  advance (l ++ [(o, m)]) (length l) true σ =
  (l ++ [(o, k (fst (act true σ)))], snd (act true σ)).
Proof.
  induction l as [|[o1 m1] l IH]; intros o m σ X act k E; cbn [app length advance].
  - subst m. destruct (act true σ) as [x σ']. reflexivity.
  - rewrite (IH o m σ X act k E). destruct m1; reflexivity.
Qed.

Lemma alone_returns : forall n (m : M answer) l o σ r σ', run m (repeat true n) σ = (Some r, σ') ->
  returned (perform_all C (repeat (Step (length l) true) n) (mkSystem σ (l ++ [(o, m)]))) (length l) o r.
Proof.
  induction n as [|n IH]; intros m l o σ r σ' E.
  - destruct m as [a|X act k]; cbn in E; [|discriminate E]. injection E as <- <-. unfold returned. cbn.
    rewrite nth_error_app2 by lia. now rewrite Nat.sub_diag.
  - destruct m as [a|X act k].
    + cbn [run] in E. injection E as <- <-. cbn [repeat perform_all fold_left perform].
      assert (AV : advance (threads (mkSystem σ (l ++ [(o, Ret a)]))) (length l) true (disk (mkSystem σ (l ++ [(o, Ret a)])))
        = (l ++ [(o, Ret a)], σ)).
      { cbn [threads disk]. clear. induction l as [|[o1 m1] l IH]; cbn [app length advance]; [reflexivity|].
        rewrite IH. destruct m1; reflexivity. }
      rewrite AV. apply (IH (Ret a) l o σ a σ). destruct n; reflexivity.
    + cbn [repeat run] in E. cbn [repeat perform_all fold_left perform threads disk].
      rewrite (advance_last l o _ σ X act k eq_refl). destruct (act true σ) as [x σ1]. cbn [fst snd].
      exact (IH (k x) l o σ1 r σ' E).
Qed.

Lemma can_return : forall acts o, exists n r,
  returned (reached C N (acts ++ Start o :: repeat (Step (length (threads (reached C N acts))) true) n))
    (length (threads (reached C N acts))) o r.
Proof.
  intros acts o. destruct (finishes (program C o) (disk (reached C N acts))) as (n & r & σ' & E).
  exists n, r. rewrite reached_app. cbn [perform_all fold_left perform]. eapply alone_returns; eauto.
Qed.

End Facts.
