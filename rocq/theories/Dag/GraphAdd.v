(** Adding actions: what the graph looks like afterwards. *)

From Coq Require Import List Arith Bool ZArith Lia.
From Verif Require Import Async.Lists Dag.Graph Dag.GraphInv.
Import ListNotations.

(** ** Specification of the outputs of a description *)

(** Output files and directories, with the identifiers of their artifacts; a
    tree (overlay) action has one output, a directory without path. *)
Definition out_files (d : desc) : list (nat * aid) :=
  match d_kind d with
  | KCommand _ => map (fun p => (p, AOut (d_id d) p)) (d_files d)
  | _ => []
  end.
Definition out_dirs (d : desc) : list (nat * aid) :=
  match d_kind d with
  | KCommand _ => map (fun p => (p, AOut (d_id d) p)) (d_dirs d)
  | KTree => [(0, ATree (d_id d))]
  | KOverlay => [(0, AOverlay (d_id d))]
  end.
Definition outputs (d : desc) : list aid := map snd (out_files d ++ out_dirs d).

(** There is something to run. *)
Definition runnable (d : desc) : Prop := d_kind d <> KCommand true.

(** ** One action *)

(** The links made for a description *)
Definition ev (s : gstate) (d : desc) : list lev :=
  map (lout true (cidx s (d_id d))) (map (place s) (out_files d)) ++
  map (lout false (cidx s (d_id d))) (map (place s) (out_dirs d)) ++
  map (lin (cidx s (d_id d))) (map (place s) (d_inputs d)).

Definition all_known (s : gstate) (d : desc) : Prop :=
  c_known s (d_id d) /\ (forall x, In x (outputs d) -> a_known s x) /\
  (forall x, In x (d_inputs d) -> a_known s (snd x)).

Definition counted (s : gstate) (h : list lev) : Prop :=
  forall c n, nth_error (acts s) c = Some n -> cn_unav n = Z.of_nat (length (ins_at h c)).

Lemma place_ext : forall s s' l, ext s s' -> (forall x, In x l -> a_known s (snd x)) ->
  map (place s') l = map (place s) l.
Proof.
  intros s s' l X K. apply map_ext_in. intros x J. unfold place. f_equal.
  apply (ext_aidx _ _ _ X (K x J)).
Qed.

Lemma in_outputs : forall d x, In x (out_files d) \/ In x (out_dirs d) -> In (snd x) (outputs d).
Proof. intros d x H. unfold outputs. apply in_map. apply in_app_iff. tauto. Qed.

Lemma ev_ext : forall s s' d, ext s s' -> all_known s d -> ev s' d = ev s d.
Proof.
  intros s s' d X [Kc [Ko Ki]]. unfold ev. rewrite (proj1 (ext_cidx _ _ _ X Kc)).
  rewrite !(place_ext s s'); auto; intros x J; apply Ko; apply in_outputs; auto.
Qed.

Lemma all_known_ext : forall s s' d, ext s s' -> all_known s d -> all_known s' d.
Proof.
  intros s s' d X [Kc [Ko Ki]]. repeat split.
  - apply (ext_cidx _ _ _ X Kc).
  - intros x J. apply (ext_aidx _ _ _ X (Ko x J)).
  - intros x J. apply (ext_aidx _ _ _ X (Ki x J)).
Qed.

Lemma create_nodes_new : forall l s s' ns, create_nodes s l = (s', ns) ->
  act_ids s' = act_ids s /\ forall x, a_known s' x -> a_known s x \/ In x (map snd l).
Proof.
  induction l as [|[p id] l IH]; intros s s' ns H; cbn [create_nodes] in H.
  - injection H as <- <-. auto.
  - destruct (add_artifact s id) as [s1 n] eqn:E1. destruct (create_nodes s1 l) as [s2 ns'] eqn:E2.
    injection H as <- <-. destruct (IH _ _ _ E2) as [A B]. unfold add_artifact in E1.
    destruct (assoc aid_dec (art_ids s) id) as [m|] eqn:E.
    + injection E1 as <- <-. split; [exact A|]. intros x K. cbn [map]. destruct (B x K); [now left|right; now right].
    + injection E1 as <- <-. split; [exact A|]. intros x K. cbn [map snd In]. destruct (B x K) as [[m Q]|Q]; [|auto].
      cbn [art_ids] in Q. rewrite assoc_app in Q. destruct (assoc aid_dec (art_ids s) x) as [k|] eqn:F.
      * left. now exists k.
      * destruct (aid_dec x id) as [->|]; [auto|discriminate].
Qed.

Lemma create_outputs_R : forall s h d s' files dirs, R s h -> create_outputs s d = (s', files, dirs) ->
  R s' h /\ ext s s' /\ acts s' = acts s /\ act_ids s' = act_ids s /\
  files = map (place s') (out_files d) /\ dirs = map (place s') (out_dirs d) /\
  (forall x, In x (outputs d) -> a_known s' x) /\
  (forall x, a_known s' x -> a_known s x \/ In x (outputs d)).
Proof.
  intros s h d s' files dirs V H.
  assert (forall l1 l2, out_files d = l1 -> out_dirs d = l2 ->
    (let '(s1, f) := create_nodes s l1 in let '(s2, g) := create_nodes s1 l2 in (s2, f, g)) = (s', files, dirs) ->
    R s' h /\ ext s s' /\ acts s' = acts s /\ act_ids s' = act_ids s /\
    files = map (place s') (out_files d) /\ dirs = map (place s') (out_dirs d) /\
    (forall x, In x (outputs d) -> a_known s' x) /\
    (forall x, a_known s' x -> a_known s x \/ In x (outputs d))) as K.
  { intros l1 l2 El1 El2 HH. destruct (create_nodes s l1) as [s1 f] eqn:E1.
    destruct (create_nodes s1 l2) as [s2 g] eqn:E2. injection HH as <- <- <-.
    destruct (create_nodes_R _ _ _ _ _ V E1) as [V1 [X1 [A1 [-> K1]]]].
    destruct (create_nodes_R _ _ _ _ _ V1 E2) as [V2 [X2 [A2 [-> K2]]]].
    destruct (create_nodes_new _ _ _ _ E1) as [C1 N1]. destruct (create_nodes_new _ _ _ _ E2) as [C2 N2].
    split; [exact V2|]. split; [eapply ext_trans; eauto|]. split; [congruence|]. split; [congruence|].
    split; [rewrite El1; symmetry; now apply place_ext|]. split; [now rewrite El2|].
    unfold outputs. rewrite El1, El2. split.
    - intros x J. apply in_map_iff in J. destruct J as [y [<- J]]. apply in_app_iff in J. destruct J as [J|J].
      + apply (ext_aidx _ _ _ X2). now apply K1.
      + now apply K2.
    - intros x Q. rewrite map_app. destruct (N2 x Q) as [Q'|Q']; [|right; apply in_app_iff; auto].
      destruct (N1 x Q') as [Q2|Q2]; [auto|right; apply in_app_iff; auto]. }
  unfold create_outputs in H. destruct (d_kind d) eqn:KD.
  - apply (K [] [(0, ATree (d_id d))]); [unfold out_files; now rewrite KD|unfold out_dirs; now rewrite KD|].
    cbn [create_nodes]. destruct (add_artifact s (ATree (d_id d))). exact H.
  - apply (K [] [(0, AOverlay (d_id d))]); [unfold out_files; now rewrite KD|unfold out_dirs; now rewrite KD|].
    cbn [create_nodes]. destruct (add_artifact s (AOverlay (d_id d))). exact H.
  - eapply K; [unfold out_files; now rewrite KD|unfold out_dirs; now rewrite KD|exact H].
Qed.

Lemma builders_app : forall h1 h2 a, builders_at (h1 ++ h2) a = builders_at h1 a ++ builders_at h2 a.
Proof. intros. apply flat_map_app. Qed.
Lemma ins_app : forall h1 h2 c, ins_at (h1 ++ h2) c = ins_at h1 c ++ ins_at h2 c.
Proof. intros. apply flat_map_app. Qed.

Lemma builders_lout : forall b c l a, builders_at (map (lout b c) l) a = [] <-> ~ In a (map snd l).
Proof.
  intros b c l a. induction l as [|x l IH]; cbn [map builders_at flat_map]; [split; auto|].
  change (flat_map _ (map (lout b c) l)) with (builders_at (map (lout b c) l) a).
  unfold lout at 1. destruct (Nat.eqb_spec (snd x) a) as [E|N]; cbn [one app In].
  - split; [discriminate|intros H; exfalso; apply H; now left].
  - rewrite IH. tauto.
Qed.

Lemma ins_lout : forall b c l c', ins_at (map (lout b c) l) c' = [].
Proof. intros b c l c'. induction l; cbn; auto. Qed.

Lemma ins_lin_other : forall c l c', c' <> c -> ins_at (map (lin c) l) c' = [].
Proof.
  intros c l c' N. induction l; cbn; auto. destruct (Nat.eqb_spec c c'); [congruence|]. exact IHl.
Qed.

Lemma nodup_place : forall s h l, R s h -> (forall x, In x l -> a_known s (snd x)) ->
  NoDup (map snd (map (place s) l)) <-> NoDup (map snd l).
Proof.
  intros s h l V. induction l as [|x l IH]; intros K; cbn [map]; [split; constructor|].
  assert (forall y, In y l -> a_known s (snd y)) as K' by (intros; apply K; now right).
  assert (In (snd (place s x)) (map snd (map (place s) l)) <-> In (snd x) (map snd l)) as I.
  { rewrite !in_map_iff. split.
    - intros [y [E J]]. apply in_map_iff in J. destruct J as [z [<- J]]. exists z. split; [|exact J].
      cbn in E. eapply aidx_inj; eauto. apply K. now left.
    - intros [z [E J]]. exists (place s z). split; [cbn; now rewrite E|now apply in_map]. }
  split; intros H; inversion H; subst; constructor; try tauto; now apply IH.
Qed.

Lemma nodup_app : forall {A} (l1 l2 : list A), NoDup (l1 ++ l2) <->
  NoDup l1 /\ NoDup l2 /\ (forall x, In x l2 -> ~ In x l1).
Proof.
  intros A l1 l2. induction l1 as [|a l1 IH]; cbn [app].
  - split; [intros H; repeat split; auto; constructor|tauto].
  - split.
    + intros H. inversion H as [|? ? NI ND]; subst. apply IH in ND. destruct ND as [N1 [N2 D]].
      rewrite in_app_iff in NI. repeat split; auto.
      * constructor; tauto.
      * intros x J [<-|Q]; [tauto|]. now apply (D x).
    + intros [N1 [N2 D]]. inversion N1; subst. constructor.
      * rewrite in_app_iff. intros [Q|Q]; [contradiction|]. apply (D a Q). now left.
      * apply IH. repeat split; auto. intros x J Q. apply (D x J). now right.
Qed.

Lemma add_action_R : forall s h d s' ok, R s h -> add_action s d = (s', ok) ->
  (exists h', R s' (h ++ h')) /\ ext s s' /\
  (ok = true -> R s' (h ++ ev s' d) /\ all_known s' d /\
     (counted s h -> counted s' (h ++ ev s' d)) /\
     (forall id, c_known s' id -> c_known s id \/ id = d_id d) /\
     (forall x, a_known s' x -> a_known s x \/ In x (outputs d) \/ In x (map snd (d_inputs d)))) /\
  (ok = true <-> runnable d /\ outputs d <> [] /\ NoDup (outputs d) /\
     forall x, In x (outputs d) -> builders_at h (aidx s' x) = []).
Proof.
  intros s h d s' ok V H. unfold add_action in H.
  destruct (create_outputs s d) as [[s1 files] dirs] eqn:E1.
  destruct (create_outputs_R _ _ _ _ _ _ V E1) as [V1 [X1 [A1 [C1 [Ef [Ed [K1 N1]]]]]]].
  destruct (create_action s1 d) as [s2 oc] eqn:E2.
  destruct (create_nodes s2 (d_inputs d)) as [s3 ins] eqn:E3.
  destruct oc as [c|].
  2: { injection H as <- <-. unfold create_action in E2. destruct (d_kind d) as [| |[|]] eqn:KD;
         try (destruct (add_action_node s1 (d_id d)); discriminate). injection E2 as <-.
       destruct (create_nodes_R _ _ _ _ _ V1 E3) as [V3 [X3 _]].
       split; [exists []; now rewrite app_nil_r|]. split; [eapply ext_trans; eauto|].
       split; [discriminate|]. split; [discriminate|]. intros [RU _]. now destruct RU. }
  assert (runnable d /\ add_action_node s1 (d_id d) = (s2, c)) as [RU E2'].
  { unfold create_action in E2. unfold runnable. destruct (d_kind d) as [| |[|]]; try discriminate;
      destruct (add_action_node s1 (d_id d)); injection E2 as <- <-; split; auto; discriminate. }
  destruct (add_action_node_R _ _ _ _ _ V1 E2') as [V2 [Kc [X2 [A2 S2]]]].
  destruct (create_nodes_R _ _ _ _ _ V2 E3) as [V3 [X3 [A3 [-> K3]]]].
  destruct (create_nodes_new _ _ _ _ E3) as [C3 N3].
  assert (ext s1 s3) as X13 by (eapply ext_trans; eauto).
  assert (forall x, In x (outputs d) -> a_known s3 x) as KO by (intros x J; apply (ext_aidx _ _ _ X13 (K1 x J))).
  assert (files = map (place s3) (out_files d)) as Ef3.
  { rewrite Ef. symmetry. apply place_ext; auto. intros x J. apply K1, in_outputs. auto. }
  assert (dirs = map (place s3) (out_dirs d)) as Ed3.
  { rewrite Ed. symmetry. apply place_ext; auto. intros x J. apply K1, in_outputs. auto. }
  clear Ef Ed. subst files dirs.
  assert (assoc Nat.eq_dec (act_ids s3) (d_id d) = Some c) as Kc3 by (rewrite C3; exact Kc).
  assert (c < length (acts s3)) as Lc.
  { apply (r_cids _ _ V3) in Kc3. destruct Kc3 as [nd [Q _]]. now apply nth_some_lt in Q. }
  assert (ext s s3) as X03 by (eapply ext_trans; eauto).
  assert (outputs d = [] -> map (place s3) (out_files d) = [] /\ map (place s3) (out_dirs d) = []) as Emp.
  { unfold outputs. intros Q. apply map_eq_nil in Q. apply app_eq_nil in Q. destruct Q as [-> ->]. auto. }
  assert (outputs d <> [] ->
     link s3 (map (place s3) (out_files d)) (map (place s3) (out_dirs d)) c (map (place s3) (d_inputs d)) = (s', ok)) as H'.
  { intros NE. destruct (map (place s3) (out_files d)) eqn:Q1; [|exact H].
    destruct (map (place s3) (out_dirs d)) eqn:Q2; [|exact H].
    exfalso. apply NE. unfold outputs. apply map_eq_nil in Q1. apply map_eq_nil in Q2. now rewrite Q1, Q2. }
  destruct (list_eq_dec aid_dec (outputs d) []) as [OE|NE].
  { destruct (Emp OE) as [Q1 Q2]. rewrite Q1, Q2 in H. injection H as <- <-.
    split; [exists []; now rewrite app_nil_r|]. split; [exact X03|]. split; [discriminate|].
    split; [discriminate|]. intros [_ [Q _]]. contradiction. }
  specialize (H' NE). clear H Emp. unfold link in H'.
  destruct (link_outs true s3 c (map (place s3) (out_files d))) as [s4 ok1] eqn:L1.
  assert (forall x, In x (map (place s3) (out_files d)) -> snd x < length (arts s3)) as B1.
  { intros x J. apply in_map_iff in J. destruct J as [y [<- J]]. cbn. eapply aidx_bound; eauto.
    apply KO, in_outputs; auto. }
  destruct (link_outs_R _ _ _ _ _ _ _ V3 Lc B1 L1) as [pre1 [V4 [S4 [P4 O4]]]].
  destruct ok1; cbn [negb] in H'.
  2: { injection H' as <- <-. split; [eauto|].
       split; [eapply ext_trans; [exact X03|now apply same_ids_ext]|]. split; [discriminate|].
       split; [discriminate|]. intros [_ [_ [ND FR]]]. apply O4. split.
       - eapply nodup_place; eauto. { intros x J. apply KO, in_outputs; auto. }
         unfold outputs in ND. rewrite map_app in ND. apply nodup_app in ND. tauto.
       - intros x J. apply in_map_iff in J. destruct J as [y [<- J]]. cbn.
         rewrite <- (proj1 (ext_aidx s3 s4 (snd y) (same_ids_ext _ _ S4) (KO _ (in_outputs _ _ (or_introl J))))).
         apply FR. apply in_outputs. auto. }
  rewrite (P4 eq_refl) in V4. clear P4 pre1. destruct O4 as [O4 _]. destruct (O4 eq_refl) as [ND1 FR1]. clear O4.
  destruct (link_outs false s4 c (map (place s3) (out_dirs d))) as [s5 ok2] eqn:L2.
  assert (c < length (acts s4)) as Lc4 by now rewrite (same_ids_acts _ _ S4).
  assert (length (arts s4) = length (arts s3)) as LA4 by apply S4.
  assert (forall x, In x (map (place s3) (out_dirs d)) -> snd x < length (arts s4)) as B2.
  { intros x J. rewrite LA4. apply in_map_iff in J. destruct J as [y [<- J]]. cbn. eapply aidx_bound; eauto.
    apply KO, in_outputs; auto. }
  destruct (link_outs_R _ _ _ _ _ _ _ V4 Lc4 B2 L2) as [pre2 [V5 [S5 [P5 O5]]]].
  assert (same_ids s3 s5) as S35 by (eapply same_ids_trans; eauto).
  assert (ext s3 s5) as X35 by now apply same_ids_ext.
  assert (NoDup (outputs d) <-> NoDup (map snd (map (place s3) (out_files d ++ out_dirs d)))) as NDi.
  { unfold outputs. symmetry. eapply nodup_place; eauto. intros x J. apply KO. unfold outputs. now apply in_map. }
  destruct ok2; cbn [negb] in H'.
  2: { injection H' as <- <-. split; [rewrite <- app_assoc in V5; eauto|].
       split; [eapply ext_trans; eauto|]. split; [discriminate|].
       split; [discriminate|]. intros [_ [_ [ND FR]]]. apply O5. apply NDi in ND. rewrite !map_app in ND. split.
       - apply nodup_app in ND. tauto.
       - intros x J. rewrite builders_app. assert (builders_at h (snd x) = []) as ->.
         { apply in_map_iff in J. destruct J as [y [<- J]]. cbn.
           rewrite <- (proj1 (ext_aidx s3 s5 (snd y) X35 (KO _ (in_outputs _ _ (or_intror J))))).
           apply FR. apply in_outputs. auto. }
         cbn [app]. apply builders_lout. intros Q. apply (in_map snd) in J.
         revert ND Q J. generalize (snd x) as z. generalize (map snd (map (place s3) (out_files d))) as u.
         intros u z ND Q J. apply in_split in Q. destruct Q as [u1 [u2 ->]]. rewrite <- app_assoc in ND.
         cbn [app] in ND. apply NoDup_remove_2 in ND. apply ND. rewrite !in_app_iff. auto. }
  rewrite (P5 eq_refl) in V5. clear P5 pre2. destruct O5 as [O5 _]. destruct (O5 eq_refl) as [ND2 FR2]. clear O5.
  injection H' as <- <-.
  assert (c < length (acts s5)) as Lc5 by now rewrite (same_ids_acts _ _ S35).
  assert (forall x, In x (map (place s3) (d_inputs d)) -> snd x < length (arts s5)) as B3.
  { intros x J. destruct S35 as [_ [_ [-> _]]]. apply in_map_iff in J. destruct J as [y [<- J]]. cbn.
    eapply aidx_bound; eauto. }
  destruct (link_ins_R _ _ _ _ V5 Lc5 B3) as [V6 S6].
  set (s6 := link_ins s5 c (map (place s3) (d_inputs d))) in *.
  pose proof (done_R _ _ c V6) as V7.
  assert (same_ids s3 s6) as S36 by (eapply same_ids_trans; eauto).
  assert (art_ids (mod_act s6 c c_done) = art_ids s3 /\ act_ids (mod_act s6 c c_done) = act_ids s3) as [I1 I2].
  { destruct S36 as [Q1 [Q2 _]]. unfold mod_act. destruct (nth_error (acts s6) c); cbn; auto. }
  assert (ext s3 (mod_act s6 c c_done)) as X37 by (split; intros; congruence).
  assert (all_known s3 d) as AK.
  { repeat split; auto. now exists c. }
  assert (((h ++ map (lout true c) (map (place s3) (out_files d))) ++
       map (lout false c) (map (place s3) (out_dirs d))) ++
       map (lin c) (map (place s3) (d_inputs d)) = h ++ ev (mod_act s6 c c_done) d) as EV.
  { rewrite (ev_ext _ _ _ X37 AK). unfold ev. rewrite (cidx_some _ _ _ Kc3). now rewrite <- !app_assoc. }
  rewrite EV in V7, V6.
  split; [eauto|]. split; [eapply ext_trans; eauto|]. split.
  - intros _. split; [exact V7|]. split; [eapply all_known_ext; eauto|]. split; [|split].
    + intros CT c' n Q. unfold mod_act in Q. destruct (nth_error (acts s6) c) as [nc|] eqn:NC.
      2: { apply nth_error_None in NC. rewrite (same_ids_acts _ _ S36) in NC. lia. }
      cbn [acts] in Q. apply nth_upd in Q. destruct Q as [[<- [-> _]]|[NEQ Q]].
      * cbn [c_done cn_unav]. destruct (r_acts _ _ V6 c nc NC) as [_ [_ [_ [_ ->]]]]. reflexivity.
      * rewrite <- EV. rewrite !ins_app, !ins_lout, ins_lin_other, !app_nil_r by congruence.
        assert (nth_error (map cn_unav (acts s3)) c' = Some (cn_unav n)) as QQ.
        { destruct S36 as [_ [_ [_ [<- _]]]]. now apply map_nth_error. }
        rewrite nth_error_map in QQ. destruct (nth_error (acts s3) c') as [n'|] eqn:N'; [|discriminate].
        injection QQ as QQ. rewrite <- QQ. rewrite A3 in N'. destruct S2 as [->|[S2 ->]].
        -- rewrite A1 in N'. now apply CT.
        -- rewrite S2, A1 in N'. apply nth_snoc in N'. destruct N' as [N'|[-> _]]; [now apply CT|].
           rewrite A1 in NEQ. congruence.
    + intros id [m Q]. rewrite I2, C3 in Q. apply (r_cids _ _ V2) in Q. destruct Q as [nd [Q1 Q2]].
      destruct S2 as [->|[S2 ->]].
      * left. exists m. rewrite <- C1. apply (r_cids _ _ V1). eauto.
      * rewrite S2 in Q1. apply nth_snoc in Q1. destruct Q1 as [Q1|[-> ->]]; [|right; now cbn in Q2].
        left. exists m. rewrite <- C1. apply (r_cids _ _ V1). eauto.
    + intros x [m Q]. rewrite I1 in Q. destruct (N3 x (ex_intro _ m Q)) as [[m' Q']|Q']; [|auto].
      assert (a_known s1 x) as Q2.
      { exists m'. apply (r_aids _ _ V1). rewrite <- A2. now apply (r_aids _ _ V2). }
      destruct (N1 x Q2); auto.
  - split; [|reflexivity]. intros _. split; [exact RU|]. split; [exact NE|]. split.
    + apply NDi. rewrite map_app, map_app. clear - ND1 ND2 FR2.
      assert (forall y, In y (map snd (map (place s3) (out_dirs d))) -> ~ In y (map snd (map (place s3) (out_files d)))) as DJ.
      { intros y J. apply in_map_iff in J. destruct J as [x [<- J]]. specialize (FR2 x J).
        rewrite builders_app in FR2. apply app_eq_nil in FR2. destruct FR2 as [_ FR2].
        now apply builders_lout in FR2. }
      revert ND1 DJ. generalize (map snd (map (place s3) (out_files d))) as u. intros u. induction u as [|z u IH]; intros ND1 DJ.
      * exact ND2.
      * cbn [app]. inversion ND1; subst. constructor.
        -- rewrite in_app_iff. intros [Q|Q]; [contradiction|]. apply (DJ z Q). now left.
        -- apply IH; auto. intros y Q1 Q2. apply (DJ y Q1). now right.
    + intros x J. rewrite (proj1 (ext_aidx _ _ _ X37 (KO x J))). unfold outputs in J. rewrite map_app in J.
      apply in_app_iff in J. destruct J as [J|J]; apply in_map_iff in J; destruct J as [y [<- J]].
      * apply (FR1 (place s3 y)). now apply in_map.
      * pose proof (FR2 (place s3 y) (in_map _ _ _ J)) as Q. rewrite builders_app in Q.
        now apply app_eq_nil in Q.
Qed.

(** ** Many actions *)

(** [xs] are the artifacts added on their own. *)
Record Full {xs : list aid} (s : gstate) (ds : list desc) : Prop := {
  f_R : R s (flat_map (ev s) ds);
  f_known : forall d, In d ds -> all_known s d;
  f_counted : counted s (flat_map (ev s) ds);
  f_acts : forall id, c_known s id -> In id (map d_id ds);
  f_arts : forall x, a_known s x -> In x xs \/ exists d, In d ds /\ (In x (outputs d) \/ In x (map snd (d_inputs d)));
  f_nodup : NoDup (flat_map outputs ds)
}.

Lemma full_empty : @Full [] empty_graph [].
Proof.
  constructor; cbn [flat_map map].
  - apply empty_R.
  - intros d [].
  - intros c n H. destruct c; discriminate.
  - intros id [n H]. discriminate.
  - intros x [n H]. discriminate.
  - constructor.
Qed.

Lemma ev_all_ext : forall s s' ds, ext s s' -> (forall d, In d ds -> all_known s d) ->
  flat_map (ev s') ds = flat_map (ev s) ds.
Proof.
  intros s s' ds X K. induction ds as [|d ds IH]; cbn [flat_map]; [reflexivity|].
  rewrite IH by (intros; apply K; now right). f_equal. apply ev_ext; auto. apply K. now left.
Qed.

Lemma builders_ev : forall s h ds x, R s h -> (forall d, In d ds -> all_known s d) -> a_known s x ->
  (builders_at (flat_map (ev s) ds) (aidx s x) = [] <-> ~ In x (flat_map outputs ds)).
Proof.
  intros s h ds x V K Kx. induction ds as [|d ds IH]; cbn [flat_map]; [split; auto|].
  specialize (IH (fun d' J => K d' (or_intror J))).
  destruct (K d (or_introl eq_refl)) as [Kc [Ko Ki]].
  rewrite builders_app.
  assert (builders_at (ev s d) (aidx s x) = [] <-> ~ In x (outputs d)) as E.
  { unfold ev. rewrite !builders_app.
    assert (forall c l, builders_at (map (lin c) l) (aidx s x) = []) as ->
      by (intros c l; induction l; cbn; auto).
    rewrite app_nil_r.
    assert (forall l, (forall y, In y l -> a_known s (snd y)) ->
       (In (aidx s x) (map snd (map (place s) l)) <-> In x (map snd l))) as P.
    { intros l KL. rewrite !in_map_iff. split.
      - intros [y [Q J]]. apply in_map_iff in J. destruct J as [z [<- J]]. exists z. split; [|exact J].
        cbn in Q. eapply aidx_inj; eauto.
      - intros [z [Q J]]. exists (place s z). split; [cbn; now rewrite Q|now apply in_map]. }
    unfold outputs. rewrite map_app, in_app_iff. split.
    - intros Q. apply app_eq_nil in Q. destruct Q as [Q1 Q2]. apply builders_lout in Q1. apply builders_lout in Q2.
      intros [J|J].
      + apply Q1. apply P; [intros y Jy; apply Ko, in_outputs; auto|exact J].
      + apply Q2. apply P; [intros y Jy; apply Ko, in_outputs; auto|exact J].
    - intros Q. assert (forall l1 l2 : list nat, l1 = [] -> l2 = [] -> l1 ++ l2 = []) as AP by (intros ? ? -> ->; auto).
      apply AP; apply builders_lout; intros J; apply Q; [left|right];
        (apply P; [intros y Jy; apply Ko, in_outputs; auto|exact J]). }
  rewrite in_app_iff. split.
  - intros Q. apply app_eq_nil in Q. destruct Q as [Q1 Q2]. apply E in Q1. apply IH in Q2. tauto.
  - intros Q. assert (builders_at (ev s d) (aidx s x) = []) as -> by (apply E; tauto). cbn. apply IH. tauto.
Qed.

Lemma add_action_full : forall xs s ds d s' ok, @Full xs s ds -> add_action s d = (s', ok) ->
  (ok = true -> @Full xs s' (ds ++ [d])) /\
  (ok = true <-> runnable d /\ outputs d <> [] /\ NoDup (flat_map outputs (ds ++ [d]))).
Proof.
  intros xs s ds d s' ok F H. destruct (add_action_R _ _ _ _ _ (f_R _ _ F) H) as [[h' V'] [X [S I]]].
  assert (flat_map (ev s') ds = flat_map (ev s) ds) as EE by (apply ev_all_ext; auto; apply F).
  assert (forall d', In d' ds -> all_known s' d') as K' by (intros d' J; eapply all_known_ext; eauto; now apply F).
  assert ((forall x, In x (outputs d) -> a_known s' x) -> NoDup (outputs d) ->
    ((forall x, In x (outputs d) -> builders_at (flat_map (ev s) ds) (aidx s' x) = []) <->
     NoDup (flat_map outputs (ds ++ [d])))) as ND.
  { intros KO NDO. rewrite flat_map_snoc, nodup_app. rewrite <- EE. split.
    - intros FR. split; [apply F|]. split; [exact NDO|]. intros x J. eapply builders_ev; eauto.
    - intros [_ [_ D]] x J. eapply builders_ev; eauto. }
  assert (ok = true -> @Full xs s' (ds ++ [d])) as FS.
  { intros OK. destruct (S OK) as [V1 [K1 [C1 [Q1 Q2]]]]. destruct I as [I _]. destruct (I OK) as [RU [NE [NDO FR]]].
    assert (flat_map (ev s') (ds ++ [d]) = flat_map (ev s) ds ++ ev s' d) as EA by now rewrite flat_map_snoc, EE.
    constructor; rewrite ?EA; auto.
    - intros d' J. apply in_app_iff in J. destruct J as [J|[<-|[]]]; auto.
    - apply C1. apply F.
    - intros id Kid. rewrite map_app. apply in_app_iff. destruct (Q1 id Kid) as [J| ->]; [left; now apply F|right; now left].
    - intros x Kx. destruct (Q2 x Kx) as [J|J].
      + destruct (f_arts _ _ F x J) as [J0|[d' [J1 J2]]]; [now left|]. right. exists d'. split; [apply in_app_iff; auto|exact J2].
      + right. exists d. split; [apply in_app_iff; right; now left|exact J].
    - apply ND; auto. apply K1. }
  split; [exact FS|]. split.
  - intros OK. pose proof (f_nodup _ _ (FS OK)). apply I in OK. tauto.
  - intros [RU [NE NDA]]. apply I. split; [exact RU|]. split; [exact NE|].
    assert (NoDup (outputs d)) as NDO by (rewrite flat_map_snoc, nodup_app in NDA; tauto).
    split; [exact NDO|]. intros x J.
    (* whatever happened, [x] is known or has no links *)
    destruct (builders_at (flat_map (ev s) ds) (aidx s' x)) as [|b bs] eqn:B; [reflexivity|exfalso].
    assert (a_known s' x) as Kx.
    { (* the outputs are created in any case *)
      unfold add_action in H. destruct (create_outputs s d) as [[s1 files] dirs] eqn:E1.
      destruct (create_outputs_R _ _ _ _ _ _ (f_R _ _ F) E1) as [V1 [X1 [_ [_ [_ [_ [KO _]]]]]]].
      destruct (KO x J) as [n Q]. 
      assert (ext s1 s') as XX; [|exists n; now apply XX].
      destruct (create_action s1 d) as [s2 oc] eqn:E2. destruct (create_nodes s2 (d_inputs d)) as [s3 ins] eqn:E3.
      assert (R s2 (flat_map (ev s) ds) /\ ext s1 s2) as [V2 X2].
      { unfold create_action in E2. destruct (d_kind d) as [| |[|]];
          try (injection E2 as <- <-; split; [exact V1|apply ext_refl]);
          destruct (add_action_node s1 (d_id d)) as [s2' m] eqn:AA; injection E2 as <- <-;
          destruct (add_action_node_R _ _ _ _ _ V1 AA) as [? [? [? _]]]; auto. }
      destruct (create_nodes_R _ _ _ _ _ V2 E3) as [V3 [X3 _]].
      eapply ext_trans; [exact X2|]. eapply ext_trans; [exact X3|].
      assert (forall file c l u u' b, link_outs file u c l = (u', b) -> art_ids u' = art_ids u /\ act_ids u' = act_ids u) as LO.
      { intros file c l. induction l as [|[p a] l IH]; intros u u' b' Q'; cbn [link_outs] in Q'.
        - injection Q' as <- _. auto.
        - destruct (add_builder u a c) as [u1|] eqn:AB; [|injection Q' as <- _; auto].
          apply IH in Q'. destruct Q' as [-> ->]. unfold mod_act. 
          assert (art_ids u1 = art_ids u /\ act_ids u1 = act_ids u) as [Z1 Z2].
          { unfold add_builder, mod_art in AB. destruct (nth_error (arts u) a) as [na|]; [|discriminate].
            destruct (an_children na); [|discriminate]. injection AB as <-. auto. }
          destruct (nth_error (acts u1) c); cbn; auto. }
      assert (forall c l u, art_ids (link_ins u c l) = art_ids u /\ act_ids (link_ins u c l) = act_ids u) as LI.
      { intros c l. induction l as [|[p a] l IH]; intros u; cbn [link_ins]; [auto|].
        destruct (IH (mod_act (mod_art u a (a_add_parent c)) c (c_add_dep p a))) as [-> ->].
        unfold mod_act, mod_art. destruct (nth_error (arts u) a); cbn; destruct (nth_error (acts u) c); auto. }
      assert (art_ids s' = art_ids s3 /\ act_ids s' = act_ids s3) as [Z1 Z2]; [|split; intros; congruence].
      assert (forall c f g i, link s3 f g c i = (s', ok) -> art_ids s' = art_ids s3 /\ act_ids s' = act_ids s3) as LK.
      { intros c f g i L. unfold link in L.
        destruct (link_outs true s3 c f) as [t1 o1] eqn:L1. apply LO in L1.
        destruct o1; cbn [negb] in L; [|injection L as <- _; auto].
        destruct (link_outs false t1 c g) as [t2 o2] eqn:L2. apply LO in L2. destruct L1, L2.
        destruct o2; cbn [negb] in L; [|injection L as <- _; split; congruence].
        injection L as <- _. destruct (LI c i t2) as [Y1 Y2]. unfold mod_act.
        destruct (nth_error (acts (link_ins t2 c i)) c); cbn; split; congruence. }
      destruct oc as [c|]; [|injection H as <- _; auto].
      destruct files; [destruct dirs; [injection H as <- _; auto|]|]; eapply LK; eauto. }
    rewrite <- EE in B.
    assert (builders_at (flat_map (ev s') ds) (aidx s' x) = []); [|congruence].
    eapply builders_ev; eauto. rewrite flat_map_snoc, nodup_app in NDA. now apply NDA.
Qed.

Lemma add_full : forall l xs ds s s' ok, @Full xs s ds -> add s l = (s', ok) ->
  (ok = true -> @Full xs s' (ds ++ l)) /\
  (ok = true <-> (forall d, In d l -> runnable d /\ outputs d <> []) /\ NoDup (flat_map outputs (ds ++ l))).
Proof.
  induction l as [|d l IH]; intros xs ds s s' ok F H; cbn [add] in H.
  - injection H as <- <-. rewrite app_nil_r. split; [auto|]. split; [|reflexivity]. intros _.
    split; [intros d []|apply F].
  - destruct (add_action s d) as [s1 ok1] eqn:E. destruct (add_action_full _ _ _ _ _ _ F E) as [F1 I1].
    assert (ds ++ d :: l = (ds ++ [d]) ++ l) as EQ by now rewrite <- app_assoc.
    destruct ok1.
    + destruct (IH _ _ _ _ _ (F1 eq_refl) H) as [F2 I2]. rewrite EQ. split; [exact F2|]. rewrite I2.
      destruct I1 as [I1 _]. destruct (I1 eq_refl) as [RU [NE _]]. split.
      * intros [A B]. split; [|exact B]. intros d' [<-|J]; auto.
      * intros [A B]. split; [|exact B]. intros d' J. apply A. now right.
    + injection H as <- <-. split; [discriminate|]. split; [discriminate|]. intros [A B].
      exfalso. assert (false = true); [|discriminate]. apply I1. destruct (A d (or_introl eq_refl)) as [RU NE].
      split; [exact RU|]. split; [exact NE|]. rewrite EQ, flat_map_app, nodup_app in B. apply B.
Qed.
