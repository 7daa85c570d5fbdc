(** Every answer is the result of an execution. *)
From Coq Require Import String Ascii List Bool Arith NArith ZArith Permutation Lia.
From Verif Require Import Common.Strs Path.Model Describe.Model Executor.Wire Executor.Local Executor.LocalSpec Executor.LocalProofs
  Rehash.Directory Rehash.DirectoryProofs Remote.Names Remote.NamesSpec Remote.NamesProofs Incremental.Model Incremental.Proofs
  Service.Messages Service.MessagesProofs Service.Model Service.Spec Service.Proofs.
Import ListNotations.
Local Open Scope string_scope.
Local Open Scope list_scope.

Section B.
Variable hash : string -> string.
Variable utf8 : string -> bool.
Variable make_tree : store -> digest -> option string.
Variable valid : digest -> option bool.
Variable happens : local_action -> world -> Prop.
Variable text : string -> Prop.
Notation t := GitSHA1.
Hypothesis GH : good_hash hash t utf8 text.
Hypothesis WS : well_stored t text happens.
Notation entries := (populate_entries hash).
Notation history := (history hash t utf8 make_tree valid happens text).
Notation texts_of := (texts_of hash t text).
Notation expressible := (expressible t utf8).
Notation reads := (reads hash utf8 text).

(** The result [r] tells what the run of [b] in [w] left. *)
Definition faithful (r : result) (b : local_action) (w : world) : Prop :=
  exists r' ok, ran t b w r' ok /\ r_exit r = r_exit r' /\ (forall p i, In (p, i) (entries r) -> seen hash w p i) /\
    (forall p, alookup p (entries r) = alookup p (entries r')).
Lemma faithful_ran b w r ok : ran t b w r ok -> faithful r b w.
Proof. intros R. exists r, ok. split; [exact R|]. split; [reflexivity|]. split; [|reflexivity]. exact (proj2 (ran_sound hash t _ _ _ _ R)). Qed.
Lemma faithful_work r a b w : same_work a b -> faithful r a w -> faithful r b w.
Proof. intros S (r' & ok & R & E). exists r', ok. split; [eapply ran_work; eauto|exact E]. Qed.

(** The key [k] stands for the action [a] as the server reads it. *)
Definition named (k : string) (nc : bool) (a : local_action) : Prop :=
  exists c f, text c /\ hash c = k /\ reads c nc f a.
Definition backed (k : string) (nc : bool) (r : result) : Prop :=
  exists a b w, named k nc a /\ same_work a b /\ happens b w /\ faithful r b w.

Definition known (z : system) : Prop := forall k r, alookup k (st_ac (z_store z)) = Some r -> backed k false r.
Definition job_ok (j : job) : Prop :=
  named (d_hash (j_id j)) (j_no_cache j) (j_action j) /\ texts_of (j_action j) /\
  (exists b w, same_work (j_action j) b /\ happens b w /\ faithful (p_result (j_response j)) b w) /\
  (forall w, j_ran j = Some w -> happens (j_action j) w).
Definition fair (z : system) : Prop :=
  (forall c, In c (st_blobs (z_store z)) -> text c) /\ known z /\ (forall j, In j (z_jobs z) -> job_ok j) /\
  (forall id r, In (id, r) (z_answers z) -> exists nc, backed (d_hash id) nc r).

Lemma named_self a x id : usual a -> expressible a -> CreateActionDigest hash t a x = Some id -> texts_of a -> named (d_hash id) x (served a).
Proof.
  intros U E D [T1 T2]. destruct (reads_self hash utf8 text GH a x id U E D T1) as [R K]. eexists _, _. split; [apply (T2 x)|]. split; [symmetry; exact K|exact R].
Qed.
(** A key that an action has stands for it. *)
Lemma named_fun a x id nc b : usual a -> expressible a -> CreateActionDigest hash t a x = Some id -> texts_of a -> named (d_hash id) nc b ->
  b = served a /\ nc = x.
Proof.
  intros U E D T (c & f & Tc & K & R). destruct (reads_self hash utf8 text GH a x id U E D (proj1 T)) as [R' K'].
  assert (c = action_message hash t a x) as -> by (apply (proj1 GH); [exact Tc|apply (proj2 T)|congruence]).
  exact (reads_fun hash utf8 text GH _ _ _ _ _ _ _ R R').
Qed.

Lemma usual_create root command cwd files dirs env props timeout legacy : usual (CreateAction t root command cwd files dirs env props timeout legacy).
Proof. left. repeat eexists. Qed.

Lemma stored_known ac f a w : (forall k r, alookup k ac = Some r -> backed k false r) -> usual a -> texts_of a -> expressible a -> happens a w ->
  forall k r, alookup k (stored hash t f a w ac) = Some r -> backed k false r.
Proof.
  intros K U T E Hw k r L. destruct (stored_spec hash t f a w ac) as [Q|(id & r' & _ & D & R & Q)]; rewrite Q in L; [auto|].
  rewrite ainsert_lookup in L. destruct (String.eqb_spec k (d_hash id)) as [->|N]; [|auto]. injection L as <-.
  exists (served a), a, w. split; [eapply named_self; eauto|]. split; [apply work_sym, served_work|]. split; [exact Hw|]. eapply faithful_ran; eauto.
Qed.

(** ** From the local response to the answer *)
Lemma blob_text s d c : (forall c, In c (st_blobs s) -> text c) -> blob hash s d = Some c -> text c /\ hash c = d_hash d.
Proof. intros B E. apply find_some in E as [I E]. apply String.eqb_eq in E. auto. Qed.

Definition sub (l l' : list (string * object_info)) : Prop := forall p i, In (p, i) l -> In (p, i) l'.
Ltac entries := unfold populate_entries, add_output_link; cbn [add_file add_dir add_flink add_dlink add_link r_files r_dirs r_flinks r_dlinks r_links];
  rewrite ?map_app, ?in_app_iff; cbn [map In fst snd].

Lemma to_result_spec s legacy dirs w : (forall c, In c (st_blobs s) -> text c) ->
  (forall p c st, w_at w p = Some (FLink (Some c) st) -> text c) -> (legacy = true -> dirs <> None) ->
  forall arts r r' new, (forall p i, In (p, i) arts -> seen hash w p i) ->
  to_result hash t make_tree s legacy dirs arts r = Some (r', new) ->
  r_exit r' = r_exit r /\ forall p i, In (p, i) (entries r') <-> In (p, i) (entries r) \/ In (p, i) arts.
Proof.
  intros B TL LD. induction arts as [|[q j] arts IH]; intros r r' new SE E; cbn [to_result] in E.
  - injection E as <- <-. split; [reflexivity|]. intros p i. cbn [In]. tauto.
  - assert (SE' : forall p i, In (p, i) arts -> seen hash w p i) by (intros p i I; apply SE; now right).
    assert (Sj := SE q j (or_introl eq_refl)).
    assert (LJ : i_type j = Symlink -> forall c, blob hash s (i_digest j) = Some c -> j = link_info hash c).
    { intros TY c Q. destruct (blob_text _ _ _ B Q) as [Tc Hc]. destruct Sj as [(x & d & W & ->)|[(y & W & ->)|(d & W & ->)]]; cbn in TY; try discriminate; [destruct x; discriminate|].
      cbn in Hc. assert (c = y) as -> by (apply (proj1 GH); [exact Tc|exact (TL _ _ _ W)|exact Hc]). reflexivity. }
    assert (KJ : i_type j <> Symlink -> j = mkInfo (i_digest j) (i_type j) false).
    { intros NS. destruct Sj as [(x & d & W & ->)|[(y & W & ->)|(d & W & ->)]]; reflexivity. }
    assert (HD : exists r1 new1, to_result hash t make_tree s legacy dirs arts r1 = Some (r', new1) /\ r_exit r1 = r_exit r /\
              forall p i, In (p, i) (entries r1) <-> In (p, i) (entries r) \/ (p, i) = (q, j)).
    { revert E KJ LJ. destruct (i_type j) eqn:TY; intros E KJ LJ.
      - eexists _, _. split; [exact E|]. split; [reflexivity|]. intros p i. rewrite (KJ ltac:(discriminate)). entries. intuition congruence.
      - eexists _, _. split; [exact E|]. split; [reflexivity|]. intros p i. rewrite (KJ ltac:(discriminate)). entries. intuition congruence.
      - unfold ToBazelOutputDirectory in E. destruct (to_result _ _ _ _ _ _ arts _) as [[r1 new1]|] eqn:Q; [|discriminate]. injection E as <- <-.
        eexists _, _. split; [exact Q|]. split; [reflexivity|]. intros p i. rewrite (KJ ltac:(discriminate)). entries. intuition congruence.
      - destruct (blob hash s (i_digest j)) as [c|] eqn:Q; [|discriminate]. rewrite (LJ eq_refl c eq_refl). eexists _, _. split; [exact E|].
        destruct legacy, dirs as [ds|]; try (destruct LD; reflexivity); unfold add_output_link.
        + destruct (mem q ds); (split; [reflexivity|]); intros p i; entries; intuition congruence.
        + destruct (mem q ds); (split; [reflexivity|]); intros p i; entries; intuition congruence.
        + split; [reflexivity|]; intros p i; entries; intuition congruence. }
    destruct HD as (r1 & new1 & Q & EX & EN). destruct (IH _ _ _ SE' Q) as [EX' EN']. split; [congruence|].
    intros p i. rewrite EN', EN. cbn [In]. intuition congruence.
Qed.

Lemma lookup_of_seen w (l l' : list (string * object_info)) : (forall p i, In (p, i) l -> seen hash w p i) -> (forall p i, In (p, i) l' -> seen hash w p i) ->
  (forall p i, In (p, i) l <-> In (p, i) l') -> forall p, alookup p l = alookup p l'.
Proof.
  intros S1 S2 E p. destruct (alookup p l) as [i|] eqn:L.
  - apply alookup_In_pair in L. pose proof (proj1 (E _ _) L) as L'. destruct (alookup_In_key p l') as [i' Q]; [apply in_map_iff; exists (p, i); auto|]. rewrite Q. f_equal.
    apply alookup_In_pair in Q. eapply seen_fun; eauto.
  - destruct (alookup p l') as [i'|] eqn:Q; [|reflexivity]. apply alookup_In_pair, E in Q. destruct (alookup_In_key p l) as [i L']; [apply in_map_iff; exists (p, i'); auto|congruence].
Qed.

Lemma response_faithful s legacy r0 arts r new b w m up : (forall c, In c (st_blobs s) -> text c) -> happens b w -> faithful r0 b w ->
  Populate hash t valid r0 = Some (m, up) -> Permutation m arts ->
  ToBazelExecuteResponse hash t make_tree s legacy r0 arts = Some (r, new) -> faithful r b w.
Proof.
  intros B Hw (r' & ok & R & X & SE & LK) P PM E. unfold ToBazelExecuteResponse in E.
  assert (E' : (legacy = true -> DirectorySymlinks r0 <> None) /\
     to_result hash t make_tree s legacy (DirectorySymlinks r0) arts (mkResult (r_exit r0) [] [] [] [] [] (stream hash s (r_stdout r0)) (stream hash s (r_stderr r0))) = Some (r, new)).
  { destruct legacy, (DirectorySymlinks r0); try discriminate; split; auto; discriminate. }
  clear E. destruct E' as [LD E]. unfold Populate in P. destruct (dirs_upwards _ _ _ _) as [u|]; [|discriminate]. injection P as <- <-.
  assert (AE : forall p i, In (p, i) arts <-> alookup p (entries r0) = Some i).
  { intros p i. rewrite <- artifacts_lookup. assert (SK : sorted_keys (artifacts_of hash r0)) by (apply (fold_aemplace (entries r0) []); constructor). split; intros I.
    - apply (Permutation_in _ (Permutation_sym PM)) in I. revert SK I. generalize (artifacts_of hash r0). induction l as [|[x v] l IH]; intros SK I; [destruct I|].
      cbn [alookup]. inversion SK as [|? ? SK' F]; subst. destruct I as [I|I].
      + injection I as -> ->. now rewrite String.eqb_refl.
      + destruct (String.eqb_spec p x) as [->|N]; [|auto]. rewrite Forall_forall in F. specialize (F _ I). unfold key_lt in F. cbn in F. destruct (str_lt_asym _ _ F F).
    - apply (Permutation_in _ PM). now apply alookup_In_pair. }
  assert (SA : forall p i, In (p, i) arts -> seen hash w p i) by (intros p i I; apply AE, alookup_In_pair in I; auto).
  assert (TL : forall p c st, w_at w p = Some (FLink (Some c) st) -> text c).
  { intros p c st Wc. pose proof (WS b w p Hw) as Q. rewrite Wc in Q. exact Q. }
  destruct (to_result_spec s legacy _ w B TL LD _ _ _ _ SA E) as [EX EN].
  exists r', ok. split; [exact R|]. split; [cbn in EX; congruence|].
  assert (EN' : forall p i, In (p, i) (entries r) <-> In (p, i) arts) by (intros p i; rewrite EN; cbn; tauto).
  split; [intros p i I; apply SA, EN'; exact I|]. intros p. rewrite <- LK. destruct (alookup p (entries r0)) as [i|] eqn:L.
  - apply AE, EN' in L. destruct (alookup_In_key p (entries r)) as [i' Q]; [apply in_map_iff; exists (p, i); auto|]. rewrite Q. apply alookup_In_pair, EN', SA in Q.
    apply EN', SA in L. f_equal. exact (seen_fun hash _ _ _ _ Q L).
  - destruct (alookup p (entries r)) as [i|] eqn:Q; [|reflexivity]. apply alookup_In_pair, EN', AE in Q. congruence.
Qed.

(** ** The invariant *)
Lemma accept_named s d id nc lg f a : (forall c, In c (st_blobs s) -> text c) -> accept hash t utf8 s d = Some (id, nc, lg, f, a) -> named (d_hash id) nc a /\ usual a /\ expressible a /\ f = if nc then DoNotCacheOutput else CacheOutput.
Proof.
  intros B. unfold accept. destruct (FromBazel t d) as [id'|] eqn:F1; [|discriminate]. destruct (ToBazelAction hash t utf8 s id') as [am|] eqn:TA; [|discriminate].
  destruct (ToBazelCommand hash t utf8 s am) as [cm|] eqn:TC; [|discriminate]. destruct (ToIExecutionAction t am cm) as [[f' a']|] eqn:TI; [|discriminate].
  intros E. injection E as <- <- <- <- <-. unfold ToBazelAction in TA. destruct (blob hash s id') as [c|] eqn:Q; [|discriminate].
  destruct (ParseAction utf8 c) as [am'|] eqn:PA; [|discriminate]. destruct (FromBazel t (am_root am')) as [root|]; [|discriminate]. cbv match in TA.
  destruct (has_tree s root); [|discriminate]. injection TA as ->. unfold ToBazelCommand in TC.
  destruct (FromBazel t (am_command am)) as [dc|] eqn:FC; [|discriminate]. destruct (blob hash s dc) as [cc|] eqn:QC; [|discriminate].
  destruct (blob_text _ _ _ B Q) as [T1 H1], (blob_text _ _ _ B QC) as [T2 H2].
  assert (R : reads c (am_no_cache am) f' a') by (exists am, dc, cc, cm; auto 10).
  split; [exists c, f'; auto|]. exact (reads_usual hash utf8 text _ _ _ _ R).
Qed.

Theorem history_fair z : history z -> fair z.
Proof.
  induction 1 as [|z c H (B & K & J & A) T|z h H (B & K & J & A)|z bs ts H (B & K & J & A) I1 I2|z id H (B & K & J & A)
    |z f root command cwd files dirs env props timeout legacy w H (B & K & J & A) a T E Hw
    |z d id nc lg f a w p ac x H (B & K & J & A) AC T E Hx|z j w H (B & K & J & A) Ij Jr|z j m up arts r new H (B & K & J & A) Ij P PM E TN].
  - split; [intros c []|]. split; [intros k r L; discriminate|]. split; [intros j []|intros id r []].
  - split; [intros c' [<-|I]; auto|]. repeat split; auto; apply J; auto.
  - repeat split; auto; apply J; auto.
  - split; [intros c I; auto|]. repeat split; auto; apply J; auto.
  - split; [exact B|]. split; [|split; assumption]. intros k r L. cbn in L. rewrite alookup_filter in L. destruct (String.eqb k id); [discriminate|]. exact (K _ _ L).
  - split; [exact B|]. split; [|split; assumption]. intros k r L. cbn in L. revert L. apply stored_known; auto. apply usual_create.
  - split; [exact B|]. split; [exact K|]. split; [|exact A]. intros j [<-|I]; [|auto]. unfold job_ok. cbn [j_id j_no_cache j_action j_response j_ran].
    destruct (accept_named _ _ _ _ _ _ _ B AC) as (N & U & EX & FL). split; [exact N|]. split; [exact T|]. split.
    + destruct x.
      * destruct (execute_ran hash t _ _ _ _ _ _ E) as (_ & _ & (ok & R) & _). exists a, w. split; [apply work_refl|]. split; [auto|]. eapply faithful_ran; eauto.
      * destruct (execute_hit hash t _ _ _ _ _ _ E) as (_ & _ & _ & id' & D & _ & L & _). destruct (K _ _ L) as (a' & b & v & N' & S' & Hb & FA).
        destruct (named_fun a false id' false a' U EX D T N') as [-> _]. exists b, v. split; [eapply work_trans; [apply served_work|exact S']|]. split; [exact Hb|].
        exact FA.
    + intros v Q. destruct x; [|discriminate]. injection Q as <-. auto.
  - destruct (J j Ij) as ((c & f' & Tc & Kc & R) & T & _ & Hr). destruct (reads_usual hash utf8 text _ _ _ _ R) as (U & EX & _).
    split; [exact B|]. split; [|split; assumption]. intros k r L. cbn in L. revert L. apply stored_known; auto.
  - destruct (J j Ij) as (N & T & (b & w & S & Hb & F) & Hr).
    assert (FR : faithful r b w) by (eapply response_faithful; eauto).
    assert (BK : backed (d_hash (j_id j)) (j_no_cache j) r) by (exists (j_action j), b, w; auto).
    split; [cbn; intros c I; apply in_app_iff in I as [I|I]; auto|]. split; [|split; [exact J|]].
    + intros k r' L. cbn in L. destruct ((r_exit r =? 0)%Z && negb (j_no_cache j)) eqn:C; [|exact (K _ _ L)]. apply andb_true_iff in C as [_ C]. apply negb_true_iff in C.
      rewrite ainsert_lookup in L. destruct (String.eqb_spec k (d_hash (j_id j))) as [->|NE]; [|exact (K _ _ L)]. injection L as <-. rewrite C in BK. exact BK.
    + intros id r' [I|I]; [injection I as <- <-; eauto|eauto].
Qed.

(** ** The client *)
Lemma wire_hash d d' : w_hash (ToBazel t d) = w_hash (ToBazel t d') -> d_hash d = d_hash d'.
Proof. unfold ToBazel, Prefix. cbn. destruct (d_tree d), (d_tree d'); cbn; intros E; injection E; auto; discriminate. Qed.

Lemma responds_backed z f a p : history z -> usual a -> expressible a -> texts_of a -> responds hash t z f a p ->
  exists b w, same_work a b /\ happens b w /\ faithful (p_result p) b w.
Proof.
  intros Hz U EX T R. destruct (history_fair z Hz) as (_ & K & _ & A).
  assert (AN : forall id x r, CreateActionDigest hash t a x = Some id -> answered t z id r -> exists b w, same_work a b /\ happens b w /\ faithful r b w).
  { intros id x r D (id' & I & E). apply wire_hash in E. destruct (A _ _ I) as (nc & a' & b & w & N & S & Hb & F). rewrite E in N.
    destruct (named_fun a x id nc a' U EX D T N) as [-> _]. exists b, w. split; [eapply work_trans; [apply served_work|exact S]|]. auto. }
  destruct R as [id r CE D KN E0 EO|id r EE NP D AR cached|id id' r -> D AR D']; cbn [p_result].
  - destruct (K _ _ KN) as (a' & b & w & N & S & Hb & F). destruct (named_fun a false id false a' U EX D T N) as [-> _].
    exists b, w. split; [eapply work_trans; [apply served_work|exact S]|]. auto.
  - exact (AN _ _ _ D AR).
  - exact (AN _ _ _ D AR).
Qed.

Lemma received_all_ok {A} (f : A -> option (string * object_info)) g l : (forall x, In x l -> f x = Some (g x)) -> received_all f l = Some (map g l).
Proof. induction l as [|x l IH]; intros E; cbn [received_all map]; [reflexivity|]. rewrite (E x (or_introl eq_refl)), IH; auto. intros y I; apply E; now right. Qed.

Lemma client_same r b w : happens b w -> faithful r b w -> client_artifacts hash t r = Some (artifacts_of hash r).
Proof.
  intros Hw (r' & ok & R & _ & SE & _).
  assert (EN : client_entries hash t r = Some (entries r)).
  { unfold client_entries, populate_entries.
    rewrite (received_all_ok _ (fun x : string * (digest * bool) => (fst x, mkInfo (fst (snd x)) (if snd (snd x) then Executable else File) false)) (r_files r)).
    rewrite (received_all_ok _ (fun x : string * digest => (fst x, mkInfo (snd x) Tree false)) (r_dirs r)). reflexivity.
    - intros [p d] I. cbn [fst snd]. assert (S1 : seen hash w p (mkInfo d Tree false)).
      { apply SE. unfold populate_entries. rewrite !in_app_iff. right. right. apply in_map_iff. exists (p, d). auto. }
      unfold received. rewrite from_to; [reflexivity|]. pose proof (WS b w p Hw) as WQ.
      destruct S1 as [(x & d' & W & E)|[(y & W & E)|(d' & W & E)]]; rewrite W in WQ; injection E; intros; subst; try discriminate; try exact WQ.
    - intros [p [d x]] I. cbn [fst snd]. assert (S1 : seen hash w p (mkInfo d (if x then Executable else File) false)).
      { apply SE. unfold populate_entries. rewrite !in_app_iff. left. apply in_map_iff. exists (p, (d, x)). auto. }
      unfold received. rewrite from_to; [reflexivity|]. pose proof (WS b w p Hw) as WQ.
      destruct S1 as [(x' & d' & W & E)|[(y & W & E)|(d' & W & E)]]; rewrite W in WQ; injection E; intros; subst; try exact WQ; destruct x; discriminate. }
  unfold client_artifacts. rewrite EN. reflexivity.
Qed.
Lemma artifacts_same r r' : (forall p, alookup p (entries r) = alookup p (entries r')) -> artifacts_of hash r = artifacts_of hash r'.
Proof.
  intros E. apply sorted_ext; [apply (fold_aemplace (entries r) []); constructor|apply (fold_aemplace (entries r') []); constructor|].
  intros k. rewrite !artifacts_lookup. apply E.
Qed.
End B.
