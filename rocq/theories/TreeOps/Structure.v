From Coq Require Import String Ascii List Bool NArith Arith Sorted Permutation Lia.
From Verif Require Import Common.Strs Hex.Model Hex.Proofs GitTree.Model GitTree.Spec GitTree.Proofs TreeOps.Model TreeOps.Spec TreeOps.Proofs TreeOps.Overlay.
Import ListNotations.
Local Open Scope string_scope.
Local Open Scope list_scope.

(** ** Directories are determined by what is found in them *)
Lemma view_ext a : forall b, wf a -> wf b -> (forall p, view a p = view b p) -> a = b.
Proof.
  induction a as [t id|es IH] using node_ind'; intros [t' id'|es'] Wa Wb E.
  - specialize (E []). cbn in E. congruence.
  - specialize (E []). discriminate.
  - specialize (E []). discriminate.
  - f_equal. apply wf_dir in Wa as [Sa Wa]. apply wf_dir in Wb as [Sb Wb]. rewrite Forall_forall in IH.
    apply sorted_ext; auto. intros x.
    assert (Ex : forall p, view (Dir es) (x :: p) = view (Dir es') (x :: p)) by auto. cbn [view] in Ex.
    destruct (alookup x es) as [c|] eqn:Ec, (alookup x es') as [d|] eqn:Ed; auto.
    + f_equal. apply alookup_In in Ec. apply alookup_In in Ed. apply (IH _ Ec); [apply (Wa _ _ Ec)|apply (Wb _ _ Ed)|auto].
    + specialize (Ex []). destruct c; discriminate.
    + specialize (Ex []). destruct d; discriminate.
Qed.

Section H.
Variable H : string -> string.
Hypothesis HL : raw_ids H.

Notation nid := (nid H).
Notation content := (content H).
Notation stored := (stored H).
Notation no_collision := (no_collision H).

Fixpoint skel (n : node) : node :=
  match n with
  | Blob t _ => Blob t (blob_id H "")
  | Dir es => Dir (map (fun p => match p with (x, c) => (x, skel c) end) es)
  end.
Definition skels (es : list (string * node)) := map (fun p => match p with (x, c) => (x, skel c) end) es.

Lemma skel_type n : ntype (skel n) = ntype n.
Proof. now destruct n. Qed.

Lemma skel_wf n : wf n -> wf (skel n).
Proof.
  induction n as [t id|es IH] using node_ind'.
  - intros [? _]. split; auto. apply HL.
  - intros W. apply wf_dir in W as [S W]. cbn [skel]. apply wf_dir. split; [now apply (sorted_map (fun _ => skel))|].
    intros x c Hc. apply in_map_iff in Hc as ([y d] & E & Hd). injection E as -> <-. rewrite Forall_forall in IH.
    split; [apply (W _ _ Hd)|]. apply (IH _ Hd). apply (W _ _ Hd).
Qed.

Lemma skel_view p : forall n, view (skel n) p = match view n p with Some (Content t _) => Some (Content t (blob_id H "")) | o => o end.
Proof.
  induction p as [|x p IH]; intros [t id|es]; cbn [view skel]; auto.
  rewrite (alookup_map (fun _ => skel)). destruct (alookup x es); cbn [option_map]; auto.
Qed.

Definition cache_ok (st : store) (c : scache) : Prop :=
  forall k v, alookup k c = Some v -> exists es, wf (Dir es) /\ stored st (Dir es) /\ k = ToHexString (nid (Dir es)) /\
    v = ToHexString (nid (skel (Dir es))) /\ stored st (skel (Dir es)).

Lemma cache_ok_mono st st' c : incl st st' -> cache_ok st c -> cache_ok st' c.
Proof. intros Hi Hc k v E. destruct (Hc k v E) as (es & ? & ? & ? & ? & ?). exists es. split; auto. split; [eapply stored_mono; eauto|]. split; auto. split; auto. eapply stored_mono; eauto. Qed.

(** ** The store only grows *)
Lemma step_incl rec : (forall st c t, incl st (fst (fst (rec st c t)))) -> forall L acc, incl (fst (fst acc)) (fst (fst (fold_left (structure_step H rec) L acc))).
Proof.
  intros Hr. induction L as [|[raw e] L IH]; intros [[st c] [se|]]; cbn [fold_left]; try apply incl_refl.
  - eapply incl_tran; [|apply IH]. cbn [structure_step fst]. specialize (Hr st c (ToHexString raw)).
    destruct (IsTreeObject (snd e)); [destruct (digest_ok _); [destruct (rec st c _) as [[st' c'] [hex|]]; [destruct (FromHexString hex)|]|]|rewrite hex_decode_encode]; cbn; auto using incl_refl.
  - cbn [structure_step]. apply (IH (st, c, None)).
Qed.
Lemma Compute_incl fuel : forall st c t, incl st (fst (fst (Compute H fuel st c t))).
Proof.
  induction fuel as [|f IH]; intros st c t; cbn [Compute]; [apply incl_refl|].
  destruct (alookup t c); [apply incl_refl|]. destruct (retrieve H st _) as [d|]; [|apply incl_refl].
  destruct (ReadTreeData H _ d t) as [g|]; [|apply incl_refl].
  pose proof (step_incl _ IH (concat (map (fun gr => map (fun e => (fst gr, e)) (snd gr)) g)) (st, c, Some [])) as S.
  destruct (fold_left _ _ _) as [[st1 c1] [se|]]; auto. cbn [fst] in S. destruct (alookup t c1); cbn [fst]; now apply incl_appl.
Qed.

(** ** Correctness *)
Definition good (st : store) (n : node) (r : store * scache * option string) : Prop :=
  no_collision (fst (fst r)) ->
  snd r = Some (ToHexString (nid (skel n))) /\ stored (fst (fst r)) (skel n) /\ cache_ok (fst (fst r)) (snd (fst r)).

Definition skel_item (es : list (string * node)) (x : string * entry) : item :=
  (fst (snd x), (snd (snd x), match alookup (fst (snd x)) es with Some c => nid (skel c) | None => "" end)).

Lemma steps_good rec es : wf (Dir es) -> (forall st c t, incl st (fst (fst (rec st c t)))) ->
  (forall x c st sc, In (x, c) es -> ntype c = Tree -> stored st c -> cache_ok st sc -> good st c (rec st sc (ToHexString (nid c)))) ->
  forall L st sc se, stored st (Dir es) -> cache_ok st sc ->
  (forall raw e, In (raw, e) L -> exists c, In (fst e, c) es /\ raw = nid c /\ snd e = ntype c) ->
  let r := fold_left (structure_step H rec) L (st, sc, Some se) in
  no_collision (fst (fst r)) ->
  exists se', snd r = Some se' /\ cache_ok (fst (fst r)) (snd (fst r)) /\
    Permutation (items se') (items se ++ map (skel_item es) L) /\
    (forall raw e c, In (raw, e) L -> In (fst e, c) es -> stored (fst (fst r)) (skel c)).
Proof.
  intros W Hinc Hrec. pose proof (proj1 (wf_dir _) W) as [So Wc].
  induction L as [|[raw e] L IH]; intros st sc se Hst Hsc HL' r N.
  - exists se. subst r. cbn [fold_left fst snd map] in *. rewrite app_nil_r. repeat split; auto. intros ? ? ? [].
  - subst r. cbn [fold_left] in *. destruct (HL' raw e (or_introl eq_refl)) as (c & Hc & -> & Et).
    pose proof (proj1 (stored_dir _ _ _) Hst) as [_ Hch].
    unfold structure_step at 2 in N. unfold structure_step at 2 4 6 8.
    destruct (IsTreeObject (snd e)) eqn:IsT.
    + assert (Hty : ntype c = Tree) by (apply otype_eqb_eq in IsT; congruence).
      rewrite (hex_len (nid c)) in * by (apply nid_length; auto; apply (Wc _ _ Hc)).
      pose proof (Hrec _ _ st sc Hc Hty (Hch _ _ Hc) Hsc) as G. pose proof (Hinc st sc (ToHexString (nid c))) as I1.
      destruct (rec st sc (ToHexString (nid c))) as [[st1 c1] o]. unfold good in G. cbn [fst snd] in *.
      assert (N1 : no_collision st1).
      { destruct o as [hex|]; [destruct (FromHexString hex)|]; eapply no_collision_incl; try exact N;
        match goal with |- incl st1 (fst (fst (fold_left _ _ ?a))) => exact (step_incl rec Hinc L a) end. }
      destruct (G N1) as (-> & Ss & Hc1). rewrite hex_decode_encode in *.
      destruct (IH st1 c1 (emplace_back (nid (skel c)) e se)) as (se' & E & Hc' & P & Hs); auto.
      { eapply stored_mono; eauto. } { intros. apply HL'. now right. }
      exists se'. split; auto. split; auto. split.
      * rewrite P, emplace_back_perm. cbn [app map]. unfold skel_item at 2. cbn [fst snd]. rewrite (sorted_alookup_In _ _ _ So Hc). apply Permutation_middle.
      * intros raw' e' c' [Hx|Hx] Hc2; [|eapply Hs; eauto]. injection Hx as <- <-. assert (c = c') as <-.
        { apply (sorted_alookup_In _ _ _ So) in Hc, Hc2. congruence. }
        eapply stored_mono; [|exact Ss].
        match goal with |- incl st1 (fst (fst (fold_left _ _ ?a))) => exact (step_incl rec Hinc L a) end.
    + rewrite hex_decode_encode in *.
      destruct (IH st sc (emplace_back (blob_id H "") e se)) as (se' & E & Hc' & P & Hs); auto.
      { intros. apply HL'. now right. }
      assert (Hb : exists t id, c = Blob t id) by (destruct c; eauto; rewrite Et in IsT; discriminate). destruct Hb as (t & id & ->).
      exists se'. split; auto. split; auto. split.
      * rewrite P, emplace_back_perm. cbn [app map]. unfold skel_item at 2. cbn [fst snd]. rewrite (sorted_alookup_In _ _ _ So Hc). apply Permutation_middle.
      * intros raw' e' c' [Hx|Hx] Hc2; [|eapply Hs; eauto]. injection Hx as <- <-. assert (Blob t id = c') as <-.
        { apply (sorted_alookup_In _ _ _ So) in Hc, Hc2. congruence. }
        exact I.
Qed.

Lemma flat_items g : map (fun x : string * entry => (fst (snd x), (snd (snd x), fst x))) (concat (map (fun gr => map (fun e => (fst gr, e)) (snd gr)) g)) = items g.
Proof.
  unfold items. rewrite concat_map, map_map. f_equal. apply map_ext. intros [r l]. cbn [fst snd]. rewrite map_map. reflexivity.
Qed.

Lemma Compute_good a : forall fuel st c, ntype a = Tree -> depth a <= fuel -> wf a -> stored st a -> cache_ok st c ->
  good st a (Compute H fuel st c (ToHexString (nid a))).
Proof.
  induction a as [t id|es IH] using node_ind'; intros fuel st c Ta Hf W Hs Hc.
  { cbn in Ta. destruct W as [W _]. congruence. }
  rewrite Forall_forall in IH. destruct fuel as [|f]; [cbn in Hf; lia|]. unfold good. intros N.
  pose proof (no_collision_incl _ _ _ (Compute_incl (S f) st c (ToHexString (nid (Dir es)))) N) as N0. revert N. cbn [Compute].
  destruct (alookup (ToHexString (nid (Dir es))) c) as [v|] eqn:Ec.
  { intros N. cbn [fst snd] in *. destruct (Hc _ _ Ec) as (es' & W' & S' & E & -> & Ss). apply hex_encode_injective in E.
    assert (Dir es = Dir es') as -> by (apply (stored_inj H HL st N); auto). auto. }
  change (ToHexString (nid (Dir es)), Tree) with (node_info H (Dir es)). rewrite retrieve_dir; auto; [|now apply stored_dir in Hs].
  destruct (read_dir H HL es W) as (g & -> & Ng & P & Ne). set (L := concat _).
  pose proof (proj1 (wf_dir _) W) as [So Wc]. pose proof (proj1 (stored_dir _ _ _) Hs) as [_ Sc].
  assert (HLL : forall raw e, In (raw, e) L -> exists c, In (fst e, c) es /\ raw = nid c /\ snd e = ntype c).
  { intros raw e Hi. assert (Hx : In (fst e, (snd e, raw)) (items g)).
    { rewrite <- flat_items. apply in_map_iff. exists (raw, e). auto. }
    apply (Permutation_in _ P), in_ditems in Hx as (ch & ? & ? & ?). eauto. }
  pose proof (steps_good (Compute H f) es W (Compute_incl f)) as SG.
  specialize (fun A => SG A L st c [] Hs Hc HLL). cbv zeta in SG.
  destruct (fold_left (structure_step H (Compute H f)) L (st, c, Some [])) as [[st1 c1] o] eqn:EF. cbn [fst snd] in SG.
  assert (Hrec : forall x c0 st0 sc, In (x, c0) es -> ntype c0 = Tree -> stored st0 c0 -> cache_ok st0 sc -> good st0 c0 (Compute H f st0 sc (ToHexString (nid c0)))).
  { intros x c0 st0 sc Hin Ht0 Hs0 Hc0. pose proof (depth_in _ _ _ Hin). apply (IH _ Hin); auto; cbn [snd]; [lia|apply (Wc _ _ Hin)]. }
  specialize (SG Hrec). match type of SG with Spec.no_collision _ (fst (fst ?t)) -> _ => replace t with (st1, c1, o) in SG by (symmetry; exact EF) end. cbn [fst snd] in SG.
  intros N. assert (N1 : no_collision st1).
  { destruct o as [se|]; [destruct (alookup _ c1)|]; cbn [fst snd] in N; eapply no_collision_incl; try exact N; try (apply incl_appl); apply incl_refl. }
  destruct (SG N1) as (se & -> & Hc1 & Pse & Hst). cbn [items map concat app] in Pse.
  assert (Econt : snd (CreateShallowTree H se) = content (skels es)).
  { unfold CreateShallowTree. cbn [snd]. rewrite content_groups. pose proof (skel_wf _ W) as Wk. cbn [skel] in Wk.
    pose proof (ditems_valid H HL _ Wk) as [V1 V2].
    assert (HI : forall i, In i (items se) <-> In i (ditems H (skels es))).
    { intros i. transitivity (In i (map (skel_item es) L)); [split; apply Permutation_in; auto; now symmetry|].
      rewrite in_map_iff. split.
      - intros ([raw e] & <- & Hi). destruct (HLL _ _ Hi) as (ch & Hch & -> & Et). unfold skel_item. cbn [fst snd].
        rewrite (sorted_alookup_In _ _ _ So Hch). apply in_ditems. exists (skel ch). split; [|rewrite skel_type; auto].
        apply in_map_iff. exists (fst e, ch). auto.
      - destruct i as [x [t raw]]. intros Hi. apply in_ditems in Hi as (sc & Hsc & -> & ->). apply in_map_iff in Hsc as ([y ch] & E & Hch). injection E as -> <-.
        exists (nid ch, (x, ntype ch)). unfold skel_item. cbn [fst snd]. rewrite (sorted_alookup_In _ _ _ So Hch), skel_type. split; auto.
        assert (Hx : In (x, (ntype ch, nid ch)) (items g)).
        { apply (Permutation_in _ (Permutation_sym P)), in_ditems. eauto. }
        rewrite <- flat_items in Hx. apply in_map_iff in Hx as ([r [n t]] & E & Hx). cbn [fst snd] in E. injection E as -> -> ->. exact Hx. }
    apply tree_content_order; [|rewrite items_groups; split; auto|intros i; rewrite items_groups; auto].
    split.
    - apply (Permutation_NoDup (l:=map fst (map (skel_item es) L))); [apply Permutation_map; now symmetry|].
      rewrite map_map. cbn [fst skel_item].
      pose proof (ditems_valid H HL _ W) as [V _]. apply (Permutation_NoDup (Permutation_sym (Permutation_map fst P))) in V.
      rewrite <- flat_items, map_map in V. exact V.
    - apply Forall_forall. intros i Hi. apply HI in Hi. rewrite Forall_forall in V2. auto. }
  rewrite Econt in *.
  assert (Ev : hex_tree_id H (content (skels es)) = ToHexString (nid (skel (Dir es)))) by reflexivity.
  assert (Sk : forall st2, incl (st1 ++ [content (skels es)]) st2 -> stored st2 (skel (Dir es))).
  { intros st2 Hi. cbn [skel]. apply stored_dir. split; [apply Hi, in_or_app; right; now left|]. intros x c0 Hc0.
    apply in_map_iff in Hc0 as ([y ch] & E & Hch). injection E as -> <-.
    apply (stored_mono H _ st1); [eapply incl_tran; [apply incl_appl, incl_refl|exact Hi]|].
    assert (Hx : In (x, (ntype ch, nid ch)) (items g)).
    { apply (Permutation_in _ (Permutation_sym P)), in_ditems. eauto. }
    rewrite <- flat_items in Hx. apply in_map_iff in Hx as ([r [n t]] & E & Hx). cbn [fst snd] in E. injection E as -> -> ->.
    apply (Hst (nid ch) (x, ntype ch) ch); auto. }
  assert (I1 : incl st st1).
  { pose proof (step_incl _ (Compute_incl f) L (st, c, Some [])) as S1. rewrite EF in S1. exact S1. }
  rewrite Ev in *. destruct (alookup (ToHexString (nid (Dir es))) c1) as [w|] eqn:Ew; cbn [fst snd] in *.
  - destruct (Hc1 _ _ Ew) as (es' & W' & S' & E & -> & Ss). apply hex_encode_injective in E.
    assert (Dir es = Dir es') as <-.
    { apply (stored_inj H HL st1 N1); auto. eapply stored_mono; eauto. }
    rewrite String.eqb_refl. split; auto. split; [apply Sk, incl_refl|]. eapply cache_ok_mono; [|exact Hc1]. apply incl_appl, incl_refl.
  - split; auto. split; [apply Sk, incl_refl|]. intros k v. rewrite ainsert_lookup. destruct (String.eqb_spec k (ToHexString (nid (Dir es)))) as [->|].
    + intros [= <-]. exists es. split; auto. split; [|split; auto; split; auto; apply Sk, incl_refl]. eapply stored_mono; [|exact Hs]. eapply incl_tran; [exact I1|]. apply incl_appl, incl_refl.
    + intros E. eapply cache_ok_mono; [|exact Hc1|exact E]. apply incl_appl, incl_refl.
Qed.

Lemma compute_all_incl fuel ts : forall st c, incl st (fst (fst (compute_all H fuel st c ts))).
Proof.
  induction ts as [|t ts IH]; intros st c; cbn [compute_all]; [apply incl_refl|].
  pose proof (Compute_incl fuel st c t) as I1. destruct (Compute H fuel st c t) as [[st1 c1] v].
  specialize (IH st1 c1). destruct (compute_all H fuel st1 c1 ts) as [[st2 c2] vs]. cbn [fst] in *. eapply incl_tran; eauto.
Qed.

Lemma compute_all_good Ts : forall fuel st c, Forall (fun T => ntype T = Tree /\ depth T <= fuel /\ wf T /\ stored st T) Ts -> cache_ok st c ->
  let r := compute_all H fuel st c (map (fun T => ToHexString (nid T)) Ts) in
  no_collision (fst (fst r)) ->
  snd r = map (fun T => Some (ToHexString (nid (skel T)))) Ts /\ Forall (fun T => stored (fst (fst r)) (skel T)) Ts.
Proof.
  induction Ts as [|T Ts IH]; intros fuel st c F Hc; cbn [map compute_all]; [cbn; auto|].
  inversion F as [|? ? (Ty & D & W & S) F']; subst. pose proof (Compute_good T fuel st c Ty D W S Hc) as G.
  pose proof (Compute_incl fuel st c (ToHexString (nid T))) as I1.
  destruct (Compute H fuel st c (ToHexString (nid T))) as [[st1 c1] v]. unfold good in G. cbn [fst snd] in *.
  pose proof (compute_all_incl fuel (map (fun T => ToHexString (nid T)) Ts) st1 c1) as I2.
  assert (F1 : Forall (fun T => ntype T = Tree /\ depth T <= fuel /\ wf T /\ stored st1 T) Ts).
  { eapply Forall_impl; [|exact F']. cbn beta. intros T' (? & ? & ? & ?). split; auto. split; auto. split; auto. eapply stored_mono; eauto. }
  specialize (fun A => IH fuel st1 c1 F1 A). cbv zeta in IH.
  destruct (compute_all H fuel st1 c1 _) as [[st2 c2] vs] eqn:E. cbn [fst snd] in *.
  intros N. destruct (G (no_collision_incl _ _ _ I2 N)) as (-> & Ss & Hc1). destruct (IH Hc1 N) as [-> Fs].
  split; auto. constructor; auto. eapply stored_mono; eauto.
Qed.

End H.

Lemma same_structure (H : string -> string) (HL : raw_ids H) st A B : no_collision H st -> wf A -> wf B ->
  stored H st (skel H A) -> stored H st (skel H B) -> ntype A = Tree -> ntype B = Tree ->
  (Some (ToHexString (nid H (skel H A))) = Some (ToHexString (nid H (skel H B))) <-> forall p, kind A p = kind B p).
Proof.
  intros N WA WB SA SB TA TB. split.
  - intros E p. injection E as E. apply hex_encode_injective in E.
    assert (Es : skel H A = skel H B) by (apply (stored_inj H HL st N); auto using skel_wf; rewrite !skel_type; congruence).
    assert (Ep : view (skel H A) p = view (skel H B) p) by now rewrite Es.
    rewrite !skel_view in Ep. unfold kind. destruct (view A p) as [[]|], (view B p) as [[]|]; congruence.
  - intros E. do 2 f_equal. f_equal. apply view_ext; auto using skel_wf. intros p. specialize (E p). rewrite !skel_view. unfold kind in E.
    assert (T : forall n, wf n -> forall q t id, view n q = Some (Content t id) -> t <> Tree).
    { clear. intros n W q. revert n W. induction q as [|x q IH]; intros [t0 id0|es] W t id; cbn [view]; try discriminate.
      - intros [= <- <-]. apply W.
      - destruct (alookup x es) as [c|] eqn:Ec; [|discriminate]. intros Hv. apply alookup_In in Ec. apply wf_dir in W as [_ W].
        eapply IH; eauto. apply (W _ _ Ec). }
    destruct (view A p) as [[]|] eqn:Ea, (view B p) as [[]|] eqn:Eb; try congruence;
    [apply T in Ea; auto; congruence|apply T in Eb; auto; congruence].
Qed.
