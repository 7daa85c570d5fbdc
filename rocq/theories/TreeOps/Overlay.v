From Coq Require Import String Ascii List Bool NArith Arith Sorted Permutation Lia.
From Verif Require Import Common.Strs Hex.Model Hex.Proofs GitTree.Model GitTree.Spec TreeOps.Model TreeOps.Spec TreeOps.Proofs.
Import ListNotations.
Local Open Scope string_scope.
Local Open Scope list_scope.

(** ** The overlay as a directory *)
Fixpoint merge (a b : node) {struct a} : node :=
  match a, b with
  | Dir ea, Dir eb =>
      Dir ((fix go (l : list (string * node)) : list (string * node) :=
              match l with
              | [] => eb
              | (x, c) :: r => ainsert x (match alookup x eb with Some d => merge c d | None => c end) (go r)
              end) ea)
  | _, _ => b
  end.
Fixpoint merge_es (ea eb : list (string * node)) : list (string * node) :=
  match ea with
  | [] => eb
  | (x, c) :: r => ainsert x (match alookup x eb with Some d => merge c d | None => c end) (merge_es r eb)
  end.
Lemma merge_dir ea eb : merge (Dir ea) (Dir eb) = Dir (merge_es ea eb).
Proof. cbn [merge]. f_equal. induction ea as [|[x c] r IH]; auto. cbn [merge_es]. now rewrite <- IH. Qed.

Lemma merge_lookup ea eb x : alookup x (merge_es ea eb) =
  match alookup x ea, alookup x eb with
  | Some c, Some d => Some (merge c d)
  | Some c, None => Some c
  | None, o => o
  end.
Proof.
  induction ea as [|[y c] r IH]; cbn [merge_es alookup]; auto.
  rewrite ainsert_lookup. destruct (String.eqb_spec x y) as [->|]; auto. now destruct (alookup y eb).
Qed.
Lemma merge_sorted ea eb : sorted_keys eb -> sorted_keys (merge_es ea eb).
Proof. induction ea as [|[y c] r IH]; cbn; auto. intros. apply ainsert_sorted; auto. Qed.

Lemma merge_wf a : forall b, wf a -> wf b -> wf (merge a b).
Proof.
  induction a as [t id|ea IH] using node_ind'; intros [t' id'|eb] Wa Wb; auto.
  rewrite merge_dir. apply wf_dir in Wa as [Sa Wa]. apply wf_dir in Wb as [Sb Wb]. apply wf_dir. rewrite Forall_forall in IH.
  split; [now apply merge_sorted|]. intros x n Hn. apply sorted_alookup_In in Hn; [|now apply merge_sorted].
  rewrite merge_lookup in Hn. destruct (alookup x ea) as [c|] eqn:Ea, (alookup x eb) as [d|] eqn:Eb; try discriminate; injection Hn as <-;
    try apply alookup_In in Ea; try apply alookup_In in Eb.
  - split; [apply (Wa _ _ Ea)|]. apply (IH _ Ea); [apply (Wa _ _ Ea)|apply (Wb _ _ Eb)].
  - now apply Wa.
  - now apply Wb.
Qed.

Lemma merge_refl a : wf a -> merge a a = a.
Proof.
  induction a as [t id|ea IH] using node_ind'; auto. intros W. rewrite merge_dir. f_equal. apply wf_dir in W as [S W].
  apply sorted_ext; auto; [now apply merge_sorted|]. intros x. rewrite merge_lookup. destruct (alookup x ea) as [c|] eqn:E; auto.
  apply alookup_In in E. f_equal. rewrite Forall_forall in IH. apply (IH _ E). apply (W _ _ E).
Qed.

Lemma shadowed_dir eb x p : shadowed (view (Dir eb)) (x :: p) <-> exists d, alookup x eb = Some d /\ shadowed (view d) p.
Proof.
  split.
  - intros ([|y q] & r & t & id & E & Hr & Hq); [discriminate|]. cbn in E. injection E as <- ->. cbn [view] in Hq.
    destruct (alookup x eb) as [d|]; [|discriminate]. exists d. split; auto. exists q, r, t, id. auto.
  - intros (d & Ed & q & r & t & id & -> & Hr & Hq). exists (x :: q), r, t, id. split; [reflexivity|]. split; auto. cbn [view]. now rewrite Ed.
Qed.

Lemma merge_view a : forall b, overlay_view (view a) (view b) (view (merge a b)).
Proof.
  induction a as [t id|ea IH] using node_ind'; intros [t' id'|eb] p.
  - split; [auto|split; auto]. destruct p; [discriminate|]. intros _. cbn. auto.
  - split; [auto|split; auto]. destruct p; [discriminate|]. intros E _. cbn [merge]. rewrite E. reflexivity.
  - split; [auto|split; auto]. destruct p as [|x p]; [discriminate|]. intros _ N. destruct N.
    exists [], (x :: p), t', id'. split; [reflexivity|]. split; [discriminate|reflexivity].
  - rewrite merge_dir. destruct p as [|x p]; [split; [auto|split; discriminate]|]. cbn [view]. rewrite merge_lookup. rewrite Forall_forall in IH.
    rewrite !shadowed_dir. destruct (alookup x ea) as [c|] eqn:Ea, (alookup x eb) as [d|] eqn:Eb.
    + apply alookup_In in Ea. specialize (IH _ Ea d p) as (I1 & I2 & I3). cbn [snd] in *. split; [auto|split].
      * intros Hn (d' & [= <-] & Hs). auto.
      * intros Hn Hs. apply I3; auto. intros Hs'. apply Hs. eauto.
    + split; [discriminate|]. split; [intros _ (d & ? & _); discriminate|auto].
    + split; [auto|split; auto].
    + split; [discriminate|]. auto.
Qed.

Lemma otype_eqb_eq a b : otype_eqb a b = true <-> a = b.
Proof. destruct a, b; cbn; split; congruence. Qed.
Lemma info_eqb_eq a b : info_eqb a b = true <-> a = b.
Proof.
  destruct a, b. unfold info_eqb. cbn [fst snd]. rewrite andb_true_iff, String.eqb_eq, otype_eqb_eq. split; [intros []|intros [=]]; subst; auto.
Qed.
Lemma info_eqb_neq a b : info_eqb a b = false -> a <> b.
Proof. intros E ->. assert (info_eqb b b = true) by now apply info_eqb_eq. congruence. Qed.

Section H.
Variable H : string -> string.
Hypothesis HL : raw_ids H.
Variable disjoint : bool.

Notation nid := (nid H).
Notation node_info := (node_info H).
Notation infos := (infos H).
Notation stored := (stored H).
Notation uniform := (uniform H).
Notation no_collision := (no_collision H).

Definition dirs (c d : node) : Prop := ntype c = Tree /\ ntype d = Tree.

Lemma loop_spec eb : forall l ov ks, NoDup (keys l) ->
  (forall x, In x (keys l) -> alookup x ov = option_map node_info (alookup x eb)) ->
  match overlay_loop disjoint (infos l) ov ks with
  | None => disjoint = true /\ exists x c d, In (x, c) l /\ alookup x eb = Some d /\ node_info c <> node_info d /\ ~ dirs c d
  | Some (ov', ks') =>
      exists new, ks' = ks ++ new /\ (sorted_keys ov -> sorted_keys ov') /\
      (forall x, alookup x ov' = match alookup x l, alookup x eb with Some c, None => Some (node_info c) | _, _ => alookup x ov end) /\
      NoDup (map fst new) /\
      (forall x i j, In (x, (i, j)) new <-> exists c d, In (x, c) l /\ alookup x eb = Some d /\
          i = node_info c /\ j = node_info d /\ node_info c <> node_info d /\ dirs c d) /\
      (disjoint = true -> forall x c d, In (x, c) l -> alookup x eb = Some d -> node_info c = node_info d \/ dirs c d)
  end.
Proof.
  induction l as [|[n c] l IH]; intros ov ks Nd Hov; cbn [TreeOps.Proofs.infos map overlay_loop].
  - exists []. rewrite app_nil_r. split; auto. split; auto. split; auto. split; [constructor|]. split.
    + intros x i j. split; [intros []|intros (? & ? & [] & _)].
    + intros _ ? ? ? [].
  - change (map (fun p => match p with (x, c) => (x, node_info c) end) l) with (infos l).
    inversion Nd as [|? ? Hn Nd']; subst. rewrite (Hov n) by now left.
    assert (Hl : alookup n l = None) by now apply alookup_None.
    assert (Hne : forall x, In x (keys l) -> x <> n) by (intros x Hx ->; auto).
    destruct (alookup n eb) as [d|] eqn:Ed; cbn [option_map].
    2:{ specialize (IH (ainsert n (node_info c) ov) ks Nd'). destruct (overlay_loop disjoint (infos l) _ ks) as [[ov' ks']|].
        - destruct IH as (new & I1 & I2 & I3 & I4 & I5 & I6).
          { intros x Hx. rewrite ainsert_lookup. destruct (String.eqb_spec x n) as [->|]; [now destruct (Hne n Hx)|]. apply Hov. now right. }
          exists new. split; auto. split; [intros; apply I2; now apply ainsert_sorted|]. split; [|split; auto; split].
          + intros x. rewrite I3. cbn [alookup]. rewrite ainsert_lookup. destruct (String.eqb_spec x n) as [->|]; auto. rewrite Hl, Ed. reflexivity.
          + intros x i j. rewrite I5. split; intros (c' & d' & Hc & R); exists c', d'.
            * split; auto. now right.
            * destruct Hc as [Hc|Hc]; [|split; auto]. injection Hc as -> ->. destruct R as [R _]. congruence.
          + intros D x c' d' [Hc|Hc] R; [injection Hc as -> ->; congruence|eauto].
        - destruct IH as (D & x & c' & d' & Hc & R).
          { intros x Hx. rewrite ainsert_lookup. destruct (String.eqb_spec x n) as [->|]; [now destruct (Hne n Hx)|]. apply Hov. now right. }
          split; auto. exists x, c', d'. split; auto. now right. }
    assert (Hov' : forall x, In x (keys l) -> alookup x ov = option_map node_info (alookup x eb)) by (intros; apply Hov; now right).
    destruct (info_eqb (node_info d) (node_info c)) eqn:Ei.
    { apply info_eqb_eq in Ei. specialize (IH ov ks Nd' Hov'). destruct (overlay_loop disjoint (infos l) ov ks) as [[ov' ks']|].
      - destruct IH as (new & I1 & I2 & I3 & I4 & I5 & I6). exists new. split; auto. split; auto. split; [|split; auto; split].
        + intros x. rewrite I3. cbn [alookup]. destruct (String.eqb_spec x n) as [->|]; auto. now rewrite Hl, Ed.
        + intros x i j. rewrite I5. split; intros (c' & d' & Hc & R); exists c', d'.
          * split; auto. now right.
          * destruct Hc as [Hc|Hc]; [|split; auto]. injection Hc as -> ->. destruct R as (R & _ & _ & R' & _). congruence.
        + intros D x c' d' [Hc|Hc] R; [injection Hc as -> ->; left; congruence|eauto].
      - destruct IH as (D & x & c' & d' & Hc & R). split; auto. exists x, c', d'. split; auto. now right. }
    assert (Ene : node_info c <> node_info d) by (apply info_eqb_neq in Ei; congruence).
    cbn [snd Spec.node_info]. unfold IsTreeObject.
    destruct (otype_eqb (ntype c) Tree && otype_eqb (ntype d) Tree)%bool eqn:Et.
    { apply andb_true_iff in Et as [Et1 Et2]. apply otype_eqb_eq in Et1. apply otype_eqb_eq in Et2.
      specialize (IH ov (ks ++ [(n, (node_info c, node_info d))]) Nd' Hov').
      match goal with |- context [overlay_loop disjoint (infos l) ov ?k] => change k with (ks ++ [(n, (node_info c, node_info d))]) end.
      destruct (overlay_loop disjoint (infos l) ov _) as [[ov' ks']|].
      - destruct IH as (new & I1 & I2 & I3 & I4 & I5 & I6). exists ((n, (node_info c, node_info d)) :: new).
        split; [now rewrite I1, <- app_assoc|]. split; auto. split; [|split; [|split]].
        + intros x. rewrite I3. cbn [alookup]. destruct (String.eqb_spec x n) as [->|]; auto. now rewrite Hl, Ed.
        + cbn [map fst]. constructor; auto. intros Hi. apply in_map_iff in Hi as ([x [i j]] & <- & Hi). apply I5 in Hi as (c' & d' & Hc & _).
          apply Hn. apply in_map_iff. exists (x, c'). auto.
        + intros x i j. cbn [In]. rewrite I5. split.
          * intros [E|(c' & d' & Hc & R)]; [injection E as <- <- <-; exists c, d; repeat split; auto|exists c', d'; split; auto].
          * intros (c' & d' & [Hc|Hc] & R); [left; injection Hc as -> ->; destruct R as (R & -> & -> & _); congruence|right; eauto].
        + intros D x c' d' [Hc|Hc] R; [injection Hc as -> ->; right; split; congruence|eauto].
      - destruct IH as (D & x & c' & d' & Hc & R). split; auto. exists x, c', d'. split; auto. now right. }
    assert (Nd2 : ~ dirs c d).
    { intros [E1 E2]. rewrite E1, E2 in Et. discriminate. }
    destruct (Bool.bool_dec disjoint true) as [D|D].
    { rewrite D. split; auto. exists n, c, d. split; [now left|]. auto. }
    replace (if disjoint then None else overlay_loop disjoint (infos l) ov ks) with (overlay_loop disjoint (infos l) ov ks) by now destruct disjoint.
    specialize (IH ov ks Nd' Hov'). destruct (overlay_loop disjoint (infos l) ov ks) as [[ov' ks']|].
    + destruct IH as (new & I1 & I2 & I3 & I4 & I5 & I6). exists new. split; auto. split; auto. split; [|split; auto; split].
      * intros x. rewrite I3. cbn [alookup]. destruct (String.eqb_spec x n) as [->|]; auto. now rewrite Hl, Ed.
      * intros x i j. rewrite I5. split; intros (c' & d' & Hc & R); exists c', d'.
        -- split; auto. now right.
        -- destruct Hc as [Hc|Hc]; [|split; auto]. injection Hc as -> ->. destruct R as (R & _ & _ & _ & R'). rewrite Ed in R. injection R as ->. now destruct Nd2.
      * intros D'. congruence.
    + destruct IH as (D' & _). congruence.
Qed.

Definition good (st : store) (a b : node) (r : store * outcome) : Prop :=
  incl st (fst r) /\
  (no_collision (fst r) ->
   match snd r with
   | Value i => i = node_info (merge a b) /\ stored (fst r) (merge a b) /\ (disjoint = true -> ~ conflict (view a) (view b))
   | Fatal => disjoint = true /\ conflict (view a) (view b)
   | NoFuel => False
   end).

Lemma no_collision_incl st st' : incl st st' -> no_collision st' -> no_collision st.
Proof. intros Hi N x y Hx Hy. apply N; auto. Qed.

Lemma keys_spec (f : store -> info -> info -> store * outcome) (P : string -> node -> node -> Prop) : forall ks st ov,
  (forall x i j, In (x, (i, j)) ks -> exists c d, P x c d /\ i = node_info c /\ j = node_info d /\ forall st', incl st st' -> good st' c d (f st' i j)) ->
  (forall x c d c' d', P x c d -> P x c' d' -> c = c' /\ d = d') -> NoDup (map fst ks) ->
  match merge_keys f st ks ov with
  | (st', Some ov', _) => incl st st' /\ (no_collision st' -> (sorted_keys ov -> sorted_keys ov') /\
      (forall x c d, P x c d -> In x (map fst ks) -> alookup x ov' = Some (node_info (merge c d)) /\ stored st' (merge c d) /\
         (disjoint = true -> ~ conflict (view c) (view d))) /\
      (forall x, ~ In x (map fst ks) -> alookup x ov' = alookup x ov))
  | (st', None, e) => incl st st' /\ (no_collision st' -> e = Fatal /\ disjoint = true /\ exists x c d, P x c d /\ conflict (view c) (view d))
  end.
Proof.
  induction ks as [|[n [i j]] ks IH]; intros st ov Hks Pu Nd; cbn [merge_keys].
  - split; [apply incl_refl|]. intros _. split; auto. split; [intros ? ? ? _ []|auto].
  - inversion Nd as [|? ? Hn Nd']; subst. destruct (Hks n i j (or_introl eq_refl)) as (c & d & Pcd & -> & -> & G).
    destruct (G st (incl_refl _)) as [G1 G2]. destruct (f st (node_info c) (node_info d)) as [st1 o]. cbn [fst snd] in *.
    assert (Efail : forall e, match e with Value _ => False | _ => True end -> (no_collision st1 -> match e with
              | Value i => i = node_info (merge c d) /\ stored st1 (merge c d) /\ (disjoint = true -> ~ conflict (view c) (view d))
              | Fatal => disjoint = true /\ conflict (view c) (view d) | NoFuel => False end) ->
              incl st st1 /\ (no_collision st1 -> e = Fatal /\ disjoint = true /\ exists x c d, P x c d /\ conflict (view c) (view d))).
    { intros e He Hx. split; auto. intros N. specialize (Hx N). destruct e; try contradiction. destruct Hx. split; auto. split; auto. exists n, c, d. auto. }
    destruct o as [v| |]; [|apply Efail; cbn; auto|apply Efail; cbn; auto]. clear Efail.
    specialize (IH st1 (ainsert n v ov)). destruct (merge_keys f st1 ks (ainsert n v ov)) as [[st' [ov'|]] e].
    + destruct IH as [I1 I2]; auto.
      { intros x i j Hi. destruct (Hks x i j (or_intror Hi)) as (c' & d' & P' & Ei & Ej & G'). exists c', d'. split; auto. split; auto. split; auto. intros st2 Hst2. apply G'. eapply incl_tran; [exact G1|exact Hst2]. }
      split; [eapply incl_tran; eauto|]. intros N. destruct (I2 N) as (J1 & J2 & J3). destruct (G2 (no_collision_incl _ _ I1 N)) as (-> & Sm & Nc).
      split; [intros; apply J1; now apply ainsert_sorted|]. split.
      * intros x c' d' P' [E|Hx]; [|now apply J2]. cbn in E. subst x. destruct (Pu _ _ _ _ _ P' Pcd) as [-> ->].
        rewrite J3 by auto. rewrite ainsert_lookup, String.eqb_refl. split; auto. split; auto. eapply stored_mono; eauto.
      * intros x Hx. cbn in Hx. rewrite J3 by tauto. rewrite ainsert_lookup. destruct (String.eqb_spec x n) as [->|]; auto. destruct Hx. now left.
    + destruct IH as [I1 I2]; auto.
      { intros x i j Hi. destruct (Hks x i j (or_intror Hi)) as (c' & d' & P' & Ei & Ej & G'). exists c', d'. split; auto. split; auto. split; auto. intros st2 Hst2. apply G'. eapply incl_tran; [exact G1|exact Hst2]. }
      split; [eapply incl_tran; eauto|auto].
Qed.

Fixpoint depth (n : node) : nat :=
  match n with
  | Blob _ _ => 0
  | Dir es => S (fold_right (fun p m => Nat.max (match p with (_, c) => depth c end) m) 0 es)
  end.
Lemma depth_in es x c : In (x, c) es -> depth c < depth (Dir es).
Proof.
  cbn [depth]. induction es as [|[y d] es IH]; [intros []|]. cbn [fold_right]. intros [E|Hi]; [injection E as -> ->|specialize (IH Hi)]; lia.
Qed.

Lemma conflict_dir ea eb x c d : alookup x ea = Some c -> alookup x eb = Some d -> conflict (view c) (view d) -> conflict (view (Dir ea)) (view (Dir eb)).
Proof. intros Ea Eb (p & u & v & H1 & H2 & H3). exists (x :: p), u, v. cbn [view]. rewrite Ea, Eb. auto. Qed.

Lemma merge_keys_incl f : (forall st i j, incl st (fst (f st i j))) -> forall ks st ov, incl st (fst (fst (merge_keys f st ks ov))).
Proof.
  intros Hf. induction ks as [|[n [i j]] ks IH]; intros st ov; cbn [merge_keys]; [apply incl_refl|].
  specialize (Hf st i j). destruct (f st i j) as [st1 [v| |]]; auto. eapply incl_tran; [exact Hf|apply IH].
Qed.
Lemma overlay_incl fuel : forall st i j, incl st (fst (overlay H disjoint fuel st i j)).
Proof.
  induction fuel as [|f IH]; intros st i j; cbn [overlay]; [apply incl_refl|].
  destruct (_ || _)%bool; [apply incl_refl|]. destruct (info_eqb i j); [apply incl_refl|].
  destruct (ReadTreeInfo H st i); [|apply incl_refl]. destruct (ReadTreeInfo H st j); [|apply incl_refl].
  destruct (overlay_loop _ _ _ _) as [[ov ks]|]; [|apply incl_refl].
  pose proof (merge_keys_incl _ IH ks st ov) as M. destruct (merge_keys _ st ks ov) as [[st' [ov'|]] e]; auto.
  unfold WriteTree. destruct (SerializeGitTree H ov'); auto. cbn [fst] in *. now apply incl_appl.
Qed.

Lemma overlay_good a : forall fuel b st, ntype a = Tree -> ntype b = Tree -> depth a <= fuel -> wf a -> wf b -> uniform a -> uniform b ->
  stored st a -> stored st b -> good st a b (overlay H disjoint fuel st (node_info a) (node_info b)).
Proof.
  induction a as [t id|ea IH] using node_ind'; intros fuel [t' id'|eb] st Ta Tb Hf Wa Wb Ua Ub Sa Sb;
    try (cbn in Ta, Tb; subst; first [destruct Wa as [Wa _]; congruence|destruct Wb as [Wb _]; congruence]).
  rewrite Forall_forall in IH. destruct fuel as [|fuel]; [cbn in Hf; lia|]. cbn [overlay Spec.node_info snd ntype IsTreeObject otype_eqb negb orb].
  change (ToHexString (nid (Dir ea)), Tree) with (node_info (Dir ea)). change (ToHexString (nid (Dir eb)), Tree) with (node_info (Dir eb)).
  destruct (info_eqb (node_info (Dir ea)) (node_info (Dir eb))) eqn:Ei.
  { apply info_eqb_eq in Ei. split; cbn [fst snd]; [apply incl_refl|]. intros N.
    assert (Dir ea = Dir eb) as E.
    { injection Ei as Ei. apply hex_encode_injective in Ei. apply (stored_inj H HL st N); auto. }
    rewrite <- E. rewrite merge_refl by auto. split; auto. split; auto. intros _ (p & u & v & H1 & H2 & H3). congruence. }
  pose proof (overlay_incl (S fuel) st (node_info (Dir ea)) (node_info (Dir eb))) as Inc.
  cbn [overlay Spec.node_info snd ntype IsTreeObject otype_eqb negb orb] in Inc.
  change (ToHexString (nid (Dir ea)), Tree) with (node_info (Dir ea)) in Inc. change (ToHexString (nid (Dir eb)), Tree) with (node_info (Dir eb)) in Inc.
  rewrite Ei in Inc. split; [exact Inc|]. intros N. pose proof (no_collision_incl _ _ Inc N) as NN. revert N. clear Inc.
  rewrite !read_info by auto.
  pose proof (proj1 (wf_dir _) Wa) as [Sra Wra]. pose proof (proj1 (wf_dir _) Wb) as [Srb Wrb].
  pose proof (proj1 (stored_dir _ _ _) Sa) as [_ Sca]. pose proof (proj1 (stored_dir _ _ _) Sb) as [_ Scb].
  pose proof (proj1 (uniform_dir _ _) Ua) as [_ Uca]. pose proof (proj1 (uniform_dir _ _) Ub) as [_ Ucb].
  pose proof (loop_spec eb ea (infos eb) []) as L. destruct (overlay_loop disjoint (infos ea) (infos eb) []) as [[ov ks]|].
  2:{ destruct L as (D & x & c & d & Hc & Hd & Hi & Hn).
      { now apply sorted_NoDup. } { intros. apply (alookup_map (fun _ => node_info)). }
      cbn [fst snd]. intros _. split; auto. apply (conflict_dir ea eb x c d); auto; [now apply sorted_alookup_In|].
      exists [], (match c with Blob t id => Content t id | Dir _ => Folder end), (match d with Blob t id => Content t id | Dir _ => Folder end).
      split; [now destruct c|]. split; [now destruct d|]. unfold dirs in Hn. destruct c, d; cbn in *; intros E; try discriminate; [|tauto].
      injection E as -> ->. congruence. }
  destruct L as (new & -> & L2 & L3 & L4 & L5 & L6).
  { now apply sorted_NoDup. } { intros. apply (alookup_map (fun _ => node_info)). }
  cbn [app]. set (P := fun x c d => In (x, c) ea /\ alookup x eb = Some d).
  assert (Heq : forall x c d, In (x, c) ea -> alookup x eb = Some d -> node_info c = node_info d -> c = d).
  { intros x c d Hc Hd E. apply alookup_In in Hd. injection E as E1 E2. apply hex_encode_injective in E1.
    apply (stored_inj H HL st NN); eauto; [apply (Wra _ _ Hc)|apply (Wrb _ _ Hd)]. }
  pose proof (keys_spec (overlay H disjoint fuel) P new st ov) as K.
  destruct (merge_keys (overlay H disjoint fuel) st new ov) as [[st' [ov'|]] e].
  - destruct K as [K1 K2]; auto.
    { intros x i j Hi. apply L5 in Hi as (c & d & Hc & Hd & Ei1 & Ei2 & Hne & Dc & Dd). exists c, d. split; [split; auto|]. split; auto. split; auto. intros st2 Hst2.
      rewrite Ei1, Ei2; pose proof (alookup_In _ _ _ Hd) as Hd'; pose proof (depth_in _ _ _ Hc); apply (IH _ Hc); cbn [snd]; auto; try lia;
      first [apply (Wra _ _ Hc)|apply (Wrb _ _ Hd')|apply (Uca _ _ Hc)|apply (Ucb _ _ Hd')|eapply stored_mono; eauto]. }
    { intros x c d c' d' [Hc Hd] [Hc' Hd']. apply (sorted_alookup_In _ _ _ Sra) in Hc, Hc'. split; congruence. }
    assert (Eov : no_collision st' -> ov' = infos (merge_es ea eb)).
    { intros N. destruct (K2 N) as (J1 & J2 & J3). apply sorted_ext.
      - apply J1, L2. now apply (sorted_map (fun _ => node_info)).
      - apply (sorted_map (fun _ => node_info)). now apply merge_sorted.
      - intros x. unfold TreeOps.Proofs.infos. rewrite (alookup_map (fun _ => node_info)), merge_lookup.
        assert (Hin : forall c d, alookup x ea = Some c -> alookup x eb = Some d -> In x (map fst new) <-> node_info c <> node_info d /\ dirs c d).
        { intros c d Hc Hd. split.
          - intros Hx. apply in_map_iff in Hx as ([y [i j]] & <- & Hi). apply L5 in Hi as (c' & d' & Hc' & Hd' & _ & _ & R). cbn [fst] in *.
            apply (sorted_alookup_In _ _ _ Sra) in Hc'. assert (c = c') as -> by congruence. assert (d = d') as -> by congruence. auto.
          - intros [R1 R2]. apply in_map_iff. exists (x, (node_info c, node_info d)). split; auto. apply L5. exists c, d.
            repeat split; auto; try apply R2. now apply alookup_In. }
        destruct (in_dec string_dec x (map fst new)) as [Hx|Hx].
        + apply in_map_iff in Hx as ([y [i j]] & E & Hi). cbn in E. subst y. pose proof Hi as Hi'. apply L5 in Hi as (c & d & Hc & Hd & _).
          destruct (J2 x c d) as [-> _]; [split; auto|apply in_map_iff; eexists; split; [|exact Hi']; auto|].
          rewrite (sorted_alookup_In _ _ _ Sra Hc), Hd. reflexivity.
        + rewrite J3, L3 by auto. unfold TreeOps.Proofs.infos. rewrite (alookup_map (fun _ => node_info)).
          destruct (alookup x ea) as [c|] eqn:Ec, (alookup x eb) as [d|] eqn:Ed; auto. cbn [option_map]. f_equal.
          destruct (info_eqb (node_info c) (node_info d)) eqn:Eq.
          * apply info_eqb_eq in Eq. apply alookup_In in Ec. rewrite (Heq x c d) by auto.
            rewrite merge_refl; auto. apply alookup_In in Ed. apply (Wrb _ _ Ed).
          * assert (~ dirs c d) as Hnd.
            { intros D. apply Hx, (Hin c d); auto. split; auto. now apply info_eqb_neq. }
            destruct c, d; auto. destruct Hnd. split; reflexivity. }
    unfold WriteTree. destruct (SerializeGitTree H ov') as [dd|] eqn:Es; cbn [fst snd]; intros N.
    2:{ exfalso. rewrite (Eov N) in Es. pose proof (merge_wf _ _ Wa Wb) as Wm. rewrite merge_dir in Wm. rewrite serialize_dir in Es by auto. discriminate. }
    assert (N' : no_collision st') by (eapply no_collision_incl; [|exact N]; apply incl_appl, incl_refl).
    rewrite (Eov N') in Es. pose proof (merge_wf _ _ Wa Wb) as Wm. rewrite merge_dir in *. rewrite serialize_dir in Es by auto. injection Es as <-.
    destruct (K2 N') as (J1 & J2 & J3). split; [reflexivity|]. split.
    + apply stored_dir. split; [apply in_or_app; right; now left|]. intros x n Hn.
      apply (sorted_alookup_In _ _ _ (merge_sorted _ _ Srb)) in Hn. rewrite merge_lookup in Hn.
      apply (stored_mono H n st'); [apply incl_appl, incl_refl|].
      destruct (alookup x ea) as [c|] eqn:Ec; [pose proof (alookup_In _ _ _ Ec) as Hc|]; (destruct (alookup x eb) as [d|] eqn:Ed; [pose proof (alookup_In _ _ _ Ed) as Hd|]); try discriminate; injection Hn as <-.
      * destruct (in_dec string_dec x (map fst new)) as [Hx|Hx].
        -- apply (J2 x c d); auto. split; auto.
        -- destruct (info_eqb (node_info c) (node_info d)) eqn:Eq.
           ++ apply info_eqb_eq in Eq. rewrite (Heq x c d) by auto. rewrite merge_refl by apply (Wrb _ _ Hd). eapply stored_mono; eauto.
           ++ assert (merge c d = d) as ->.
              { destruct c, d; auto. destruct Hx. apply in_map_iff. exists (x, (node_info (Dir es), node_info (Dir es0))). split; auto.
                apply L5. eexists _, _. repeat split; eauto. now apply info_eqb_neq. }
              eapply stored_mono; eauto.
      * eapply stored_mono; eauto.
      * eapply stored_mono; eauto.
    + intros D (p & u & v & Hu & Hv & Huv). destruct p as [|x p]; [cbn in Hu, Hv; congruence|]. cbn [view] in Hu, Hv.
      destruct (alookup x ea) as [c|] eqn:Ec; [|discriminate]. destruct (alookup x eb) as [d|] eqn:Ed; [|discriminate].
      pose proof (alookup_In _ _ _ Ec) as Hc.
      destruct (info_eqb (node_info c) (node_info d)) eqn:Eq.
      * apply info_eqb_eq in Eq. rewrite (Heq x c d) in Hu by auto. congruence.
      * destruct (L6 D x c d Hc Ed) as [E|[D1 D2]].
        -- apply info_eqb_neq in Eq. congruence.
        -- destruct (J2 x c d) as (_ & _ & J); [split; auto| |].
           ++ apply in_map_iff. exists (x, (node_info c, node_info d)). split; auto. apply L5. exists c, d. repeat split; auto.
              now apply info_eqb_neq.
           ++ apply J; auto. exists p, u, v. auto.
  - destruct K as [K1 K2]; auto.
    { intros x i j Hi. apply L5 in Hi as (c & d & Hc & Hd & Ei1 & Ei2 & Hne & Dc & Dd). exists c, d. split; [split; auto|]. split; auto. split; auto. intros st2 Hst2.
      rewrite Ei1, Ei2; pose proof (alookup_In _ _ _ Hd) as Hd'; pose proof (depth_in _ _ _ Hc); apply (IH _ Hc); cbn [snd]; auto; try lia;
      first [apply (Wra _ _ Hc)|apply (Wrb _ _ Hd')|apply (Uca _ _ Hc)|apply (Ucb _ _ Hd')|eapply stored_mono; eauto]. }
    { intros x c d c' d' [Hc Hd] [Hc' Hd']. apply (sorted_alookup_In _ _ _ Sra) in Hc, Hc'. split; congruence. }
    cbn [fst snd]. intros N. destruct (K2 N) as (-> & D & x & c & d & [Hc Hd] & Hcf). split; auto.
    apply (conflict_dir ea eb x c d); auto. now apply sorted_alookup_In.
Qed.

End H.
