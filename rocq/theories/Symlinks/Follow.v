(** Facts about following paths. *)
From Coq Require Import String Ascii List Bool Lia.
From Verif Require Import Path.Model Path.Spec Symlinks.Model Symlinks.Spec Symlinks.Paths.
Import ListNotations.
Local Open Scope string_scope.
Local Open Scope list_scope.

Scheme resolved_mind := Induction for resolved Sort Prop
  with resolved_entries_mind := Induction for resolved_entries Sort Prop.
Combined Scheme resolved_both from resolved_mind, resolved_entries_mind.

Lemma snoc_inj {A} (a b : list A) x y : a ++ [x] = b ++ [y] -> a = b /\ x = y.
Proof. apply app_inj_tail. Qed.

Lemma at_app t p r : at_path t (p ++ r) = match at_path t p with Some n => at_path n r | None => None end.
Proof.
  unfold at_path. revert t. induction p as [|f p IH]; intros t; [reflexivity|].
  cbn [app entry_bypath]. destruct t; try reflexivity. destruct (entry_of f entries); [apply IH|reflexivity].
Qed.

Lemma at_snoc t p f : at_path t (p ++ [f]) =
  match at_path t p with Some (Dir es) => entry_of f es | _ => None end.
Proof.
  rewrite at_app. destruct (at_path t p) as [n|]; [|reflexivity]. cbn. destruct n; try reflexivity.
  destruct (entry_of f entries); reflexivity.
Qed.

Lemma entry_of_In f es n : entry_of f es = Some n -> In (f, n) es.
Proof.
  induction es as [|[g m] es IH]; cbn; [discriminate|]. destruct (String.eqb_spec g f).
  - intros E. injection E as ->. subst. now left.
  - intros E. right. auto.
Qed.

Lemma entry_of_NoDup f es n : NoDup (map fst es) -> In (f, n) es -> entry_of f es = Some n.
Proof.
  induction es as [|[g m] es IH]; cbn; intros N H; [contradiction|]. inversion N; subst.
  destruct H as [E|H].
  - injection E as -> ->. now rewrite String.eqb_refl.
  - destruct (String.eqb_spec g f); [|auto]. subst. exfalso. apply H2. apply in_map_iff. now exists (f, n).
Qed.

Lemma proper_at t p n : proper t -> at_path t p = Some n -> proper n.
Proof.
  unfold at_path. revert t. induction p as [|f p IH]; intros t P E; cbn in E; [congruence|].
  destruct t as [| |es]; try discriminate. destruct (entry_of f es) as [m|] eqn:F; [|discriminate].
  apply entry_of_In in F. inversion P; subst. eauto.
Qed.

Lemma plain_at t p n : proper t -> at_path t p = Some n -> Forall plain p.
Proof.
  unfold at_path. revert t. induction p as [|f p IH]; intros t P E; cbn in E; [constructor|].
  destruct t as [| |es]; try discriminate. destruct (entry_of f es) as [m|] eqn:F; [|discriminate].
  apply entry_of_In in F. inversion P; subst. constructor; eauto.
Qed.

Section Root.
  Context (root : node) (PR : proper root) (NL : is_link root = false).

  Lemma leads_at p q n : leads root p q n -> at_path root q = Some n.
  Proof.
    induction 1 as [|p q es f n L IH E N|p q es f c t q' n L IH E T L' IH']; [reflexivity| |exact IH'].
    rewrite at_snoc, IH. exact E.
  Qed.

  Lemma leads_real p n : at_path root p = Some n -> is_link n = false -> leads root p p n.
  Proof.
    revert n. induction p as [|f p IH] using rev_ind; intros n E N; [injection E as <-; constructor|].
    rewrite at_snoc in E. destruct (at_path root p) as [[| |es]|] eqn:F; try discriminate.
    eapply leads_entry; [apply IH; reflexivity|exact E|exact N].
  Qed.

  Lemma leads_not_link p q n : leads root p q n -> is_link n = false.
  Proof. induction 1; assumption. Qed.

  Lemma leads_inv p f q' n' : leads root (p ++ [f]) q' n' ->
    exists q es, leads root p q (Dir es) /\
      ((entry_of f es = Some n' /\ is_link n' = false /\ q' = q ++ [f]) \/
       exists c t, entry_of f es = Some (Link c) /\ target_path q c = Some t /\ leads root t q' n').
  Proof.
    intros H. inversion H as [E|p0 q es f0 n L E N E0|p0 q es f0 c t q0 n L E T L' E0].
    - destruct p; discriminate.
    - apply snoc_inj in E0. destruct E0; subst. exists q, es. split; [assumption|left; auto].
    - apply snoc_inj in E0. destruct E0; subst. exists q, es. split; [assumption|right; eauto].
  Qed.

  Lemma leads_nil q n : leads root [] q n -> q = [] /\ n = root.
  Proof.
    intros H. inversion H as [E|p0 q0 es f0 n0 L E N E0|p0 q0 es f0 c t q1 n0 L E T L' E0]; [auto| |];
      destruct p0; discriminate.
  Qed.

  Lemma leads_det p q n : leads root p q n -> forall q' n', leads root p q' n' -> q' = q /\ n' = n.
  Proof.
    induction 1 as [|p q es f n L IH E N|p q es f c t q1 n L IH E T L' IH']; intros q' n' H.
    - now apply leads_nil.
    - apply leads_inv in H. destruct H as (q0 & es0 & H & D). apply IH in H. destruct H as [-> H].
      injection H as ->. destruct D as [(F & _ & ->)|(c & t & F & _)].
      + split; congruence.
      + rewrite E in F. injection F as ->. discriminate.
    - apply leads_inv in H. destruct H as (q0 & es0 & H & D). apply IH in H. destruct H as [-> H].
      injection H as ->. destruct D as [(F & N & ->)|(c' & t' & F & T' & H)].
      + rewrite E in F. injection F as <-. discriminate.
      + rewrite E in F. injection F as <-. rewrite T in T'. injection T' as <-. auto.
  Qed.

  (** A path may be replaced by the path it leads to. *)
  Lemma leads_shift p q es f q' n' : leads root p q (Dir es) ->
    (leads root (p ++ [f]) q' n' <-> leads root (q ++ [f]) q' n').
  Proof.
    intros L. pose proof (leads_at _ _ _ L) as A. pose proof (leads_real q (Dir es) A eq_refl) as R.
    split; intros H; apply leads_inv in H; destruct H as (q0 & es0 & H & D).
    - destruct (leads_det _ _ _ L _ _ H) as [-> E]. injection E as ->.
      destruct D as [(F & N & ->)|(c & t & F & T & H')]; [eapply leads_entry|eapply leads_link]; eauto.
    - destruct (leads_det _ _ _ R _ _ H) as [-> E]. injection E as ->.
      destruct D as [(F & N & ->)|(c & t & F & T & H')]; [eapply leads_entry|eapply leads_link]; eauto.
  Qed.

  Lemma leads_plain p q n : leads root p q n -> Forall plain p.
  Proof.
    induction 1 as [|p q es f n L IH E N|p q es f c t q' n L IH E T L' IH']; [constructor| |];
      (apply Forall_app; split; [exact IH|]; constructor; [|constructor];
       apply leads_at in L; eapply plain_at with (p := q ++ [f]) in PR;
       [apply Forall_app in PR; destruct PR as [_ X]; inversion X; eassumption|
        rewrite at_snoc, L; exact E]).
  Qed.

  Definition means (p : list string) (m : node) : Prop :=
    exists q n, leads root p q n /\ resolved root q n m.

  Lemma resolved_entries_det_aux :
    (forall q n m, resolved root q n m -> forall m', resolved root q n m' -> m' = m) /\
    (forall q es ms, resolved_entries root q es ms -> forall ms', resolved_entries root q es ms' -> ms' = ms).
  Proof.
    apply (resolved_both root
      (fun q n m _ => forall m', resolved root q n m' -> m' = m)
      (fun q es ms _ => forall ms', resolved_entries root q es ms' -> ms' = ms)).
    - intros q x c m' H. inversion H. reflexivity.
    - intros q es ms R IH m' H. inversion H; subst. f_equal. auto.
    - intros q ms' H. inversion H. reflexivity.
    - intros q f n es q' n' m ms L R IH RS IHS ms' H.
      inversion H as [|q0 f0 n0 es0 q1 n1 m1 ms1 L1 R1 RS1]; subst.
      destruct (leads_det _ _ _ L _ _ L1) as [-> ->]. f_equal; [f_equal|]; auto.
  Qed.

  Lemma resolved_det q n m m' : resolved root q n m -> resolved root q n m' -> m' = m.
  Proof. intros H. apply (proj1 resolved_entries_det_aux); assumption. Qed.

  Lemma means_det p m m' : means p m -> means p m' -> m' = m.
  Proof.
    intros (q & n & L & R) (q' & n' & L' & R'). destruct (leads_det _ _ _ L _ _ L') as [-> ->].
    eapply resolved_det; eassumption.
  Qed.

  Lemma resolved_names q es ms : resolved_entries root q es ms -> map fst ms = map fst es.
  Proof.
    intros H. induction H using resolved_entries_mind
      with (P := fun _ _ _ _ => True); cbn; auto. f_equal. exact IHresolved_entries0.
  Qed.

  Lemma resolved_entry q es ms f m : resolved_entries root q es ms -> In (f, m) ms ->
    exists q' n', leads root (q ++ [f]) q' n' /\ resolved root q' n' m.
  Proof.
    revert es. induction ms as [|[g m0] ms IH]; intros es R H; [contradiction|].
    inversion R as [|q0 f0 n0 es0 q1 n1 m1 ms1 L1 R1 RS1]; subst.
    destruct H as [E|H]; [injection E as -> ->; eauto|eauto].
  Qed.

  Lemma means_entry p ms f m : means p (Dir ms) -> In (f, m) ms -> means (p ++ [f]) m.
  Proof.
    intros (q & n & L & R) H. inversion R as [|q0 es ms0 RS]; subst.
    destruct (resolved_entry _ _ _ _ _ RS H) as (q' & n' & L' & R').
    exists q', n'. split; [|exact R']. eapply leads_shift; eassumption.
  Qed.

  Lemma means_names p ms : means p (Dir ms) ->
    NoDup (map fst ms) /\ (forall f m, In (f, m) ms -> plain f).
  Proof.
    intros (q & n & L & R). inversion R as [|q0 es ms0 RS]; subst.
    pose proof (proper_at _ _ _ PR (leads_at _ _ _ L)) as P. inversion P as [| |es0 N PL PS]; subst.
    pose proof (resolved_names _ _ _ RS) as E. rewrite E. split; [exact N|].
    intros f m H. assert (In f (map fst es)) as I'.
    { rewrite <- E. apply in_map_iff. now exists (f, m). }
    apply in_map_iff in I'. destruct I' as ([g o] & <- & I'). cbn. eauto.
  Qed.

  Lemma means_no_link p c : ~ means p (Link c).
  Proof. intros (q & n & L & R). inversion R. Qed.

  Lemma means_real p es ms : at_path root p = Some (Dir es) ->
    map fst ms = map fst es -> (forall f m, In (f, m) ms -> means (p ++ [f]) m) -> means p (Dir ms).
  Proof.
    intros A E H. exists p, (Dir es). split; [now apply leads_real|]. constructor.
    clear A. revert es E. induction ms as [|[f m] ms IH]; intros [|[g n] es] E; try discriminate; [constructor|].
    cbn in E. injection E as <- E. destruct (H f m ltac:(now left)) as (q' & n' & L & R).
    econstructor; [exact L|exact R|]. apply IH; [|exact E]. intros f0 m0 H0. apply H. now right.
  Qed.
End Root.
