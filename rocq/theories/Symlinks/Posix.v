(** Following links in one go and component by component. *)
From Coq Require Import String Ascii List Bool Lia.
From Verif Require Import Common.Strs Path.Model Path.Spec Path.Proofs Path.Proofs2 Symlinks.Model Symlinks.Spec Symlinks.Paths
  Symlinks.Follow.
Import ListNotations.
Local Open Scope string_scope.
Local Open Scope list_scope.

Lemma usual_split c : usual c -> exists k names, Forall plain names /\ split_slash c = repeat ".." k ++ names /\
  is_absolute c = false.
Proof.
  intros (k & ns & P & NE & ->). exists k, ns. split; [exact P|].
  assert (Forall goodname (repeat ".." k ++ ns)) as G.
  { apply Forall_app. split; [|now apply plain_goods].
    apply Forall_forall. intros x Hx. apply repeat_spec in Hx. subst. split; [discriminate|reflexivity]. }
  split; [apply split_join; [exact NE|now apply goodname_sfree]|].
  pose proof (is_absolute_pre false (repeat ".." k ++ ns) "" NE G) as A. cbn [pre] in A.
  cbn in A. rewrite app_str_nil_r in A. exact A.
Qed.

(** Going [k] steps up. *)
Fixpoint climb (k : nat) (cur : list string) : option (list string) :=
  match k with
  | 0 => Some cur
  | S k => match cur with [] => None | _ => climb k (removelast cur) end
  end.

Lemma go_names cur ns : Forall plain ns -> go cur ns = Some (cur ++ ns).
Proof.
  intros H. revert cur. induction H as [|f ns P H IH]; intros cur; [now rewrite app_nil_r|].
  cbn [go]. destruct P as (P1 & P2 & P3 & _).
  destruct (String.eqb_spec f ""); [contradiction|]. destruct (String.eqb_spec f "."); [contradiction|].
  destruct (String.eqb_spec f ".."); [contradiction|]. cbn [orb]. rewrite IH, <- app_assoc. reflexivity.
Qed.

Lemma go_usual k cur ns : Forall plain ns ->
  go cur (repeat ".." k ++ ns) = match climb k cur with Some a => Some (a ++ ns) | None => None end.
Proof.
  intros H. revert cur. induction k as [|k IH]; intros cur; [now apply go_names|].
  cbn [repeat app go climb]. cbn [String.eqb Ascii.eqb Bool.eqb orb]. destruct cur; [reflexivity|]. apply IH.
Qed.

Section Root.
  Context (root : node) (PR : proper root) (NL : is_link root = false) (UL : usual_links root).

  Lemma at_prefix a b n : at_path root (a ++ b) = Some n -> b <> [] -> exists es, at_path root a = Some (Dir es).
  Proof.
    intros E NE. rewrite at_app in E. destruct (at_path root a) as [t|] eqn:A; [|discriminate].
    destruct b as [|f b]; [congruence|]. cbn in E. destruct t; try discriminate. eauto.
  Qed.

  Lemma at_removelast cur n : cur <> [] -> at_path root cur = Some n ->
    exists es, at_path root (removelast cur) = Some (Dir es).
  Proof.
    intros NE A. destruct (exists_last NE) as (l & x & ->). rewrite removelast_last.
    eapply at_prefix; [exact A|discriminate].
  Qed.

  Lemma climb_dir k : forall cur es a, at_path root cur = Some (Dir es) -> climb k cur = Some a ->
    exists es', at_path root a = Some (Dir es').
  Proof.
    induction k as [|k IH]; intros cur es a A C; cbn in C; [injection C as <-; eauto|].
    destruct cur as [|f r] eqn:E; [discriminate|]. rewrite <- E in *.
    destruct (at_removelast cur _ ltac:(congruence) A) as (es' & A'). eauto.
  Qed.

  Lemma walks_climb k cs q n : forall cur es a, at_path root cur = Some (Dir es) -> climb k cur = Some a ->
    (walks root cur (repeat ".." k ++ cs) q n <-> walks root a cs q n).
  Proof.
    induction k as [|k IH]; intros cur es a A C; cbn in C; [injection C as <-; reflexivity|].
    destruct cur as [|f r] eqn:E; [discriminate|]. rewrite <- E in *.
    assert (cur <> []) as NE by congruence.
    destruct (at_removelast cur _ NE A) as (es' & A'). rewrite <- (IH _ _ _ A' C). cbn [repeat app]. split.
    - intros W. inversion W; subst.
      + match goal with H : _ \/ _ |- _ => destruct H; discriminate end.
      + assumption.
      + match goal with H : plain ".." |- _ => destruct H as (_ & _ & H & _); congruence end.
      + match goal with H : plain ".." |- _ => destruct H as (_ & _ & H & _); congruence end.
    - intros W. eapply walks_up; eassumption.
  Qed.

  Lemma walks_climb_out k cs q n : forall cur, climb k cur = None -> ~ walks root cur (repeat ".." k ++ cs) q n.
  Proof.
    induction k as [|k IH]; intros cur C; cbn in C; [discriminate|]. cbn [repeat app]. intros W.
    inversion W; subst.
    - match goal with H : _ \/ _ |- _ => destruct H; discriminate end.
    - destruct cur as [|f r]; [congruence|]. eapply IH; eassumption.
    - match goal with H : plain ".." |- _ => destruct H as (_ & _ & H & _); congruence end.
    - match goal with H : plain ".." |- _ => destruct H as (_ & _ & H & _); congruence end.
  Qed.

  Lemma walks_at cur cs q n : walks root cur cs q n -> at_path root q = Some n.
  Proof. induction 1; assumption. Qed.

  Lemma walks_app a b q n c q' n' : walks root a b q n -> walks root q c q' n' -> walks root a (b ++ c) q' n'.
  Proof.
    intros W W'. induction W; cbn [app].
    - exact W'.
    - eapply walks_stay; eauto.
    - eapply walks_up; eauto.
    - eapply walks_entry; eauto.
    - eapply walks_link; eauto. rewrite app_assoc. auto.
  Qed.

  Lemma leads_walks p q n : leads root p q n -> forall a b, p = a ++ b ->
    (exists es, at_path root a = Some (Dir es)) \/ b = [] /\ at_path root a = Some n -> walks root a b q n.
  Proof.
    induction 1 as [|p q es f n L IH E N|p q es f c t q' n L IH E T L' IH']; intros a b EP A.
    - symmetry in EP. apply app_eq_nil in EP. destruct EP as [-> ->]. apply walks_end. reflexivity.
    - assert (plain f) as Pf.
      { pose proof (leads_at _ _ _ _ L) as AQ. apply proper_at in AQ; [|exact PR]. inversion AQ; subst.
        apply entry_of_In in E. eauto. }
      destruct b as [|x b' _] using rev_ind.
      + rewrite app_nil_r in EP. subst a.
        assert (exists m, at_path root (p ++ [f]) = Some m /\ is_link m = false) as (m & AM & NM).
        { destruct A as [[es' A]|[_ A]]; eexists; split; try exact A; [reflexivity|exact N]. }
        pose proof (leads_real root _ _ AM NM) as R.
        destruct (leads_det _ _ _ _ R (q ++ [f]) n) as [-> ->]; [eapply leads_entry; eassumption|].
        now apply walks_end.
      + rewrite app_assoc in EP. apply snoc_inj in EP. destruct EP as [-> ->].
        destruct A as [A|[A _]]; [|destruct b'; discriminate].
        eapply walks_app; [apply IH; [reflexivity|left; exact A]|].
        pose proof (leads_at _ _ _ _ L) as AQ.
        eapply walks_entry; [exact Pf|exact AQ|exact E|exact N|]. apply walks_end. rewrite at_snoc, AQ. exact E.
    - assert (plain f) as Pf.
      { pose proof (leads_at _ _ _ _ L) as AQ. apply proper_at in AQ; [|exact PR]. inversion AQ; subst.
        apply entry_of_In in E. eauto. }
      destruct b as [|x b' _] using rev_ind.
      + rewrite app_nil_r in EP. subst a.
        assert (exists m, at_path root (p ++ [f]) = Some m /\ is_link m = false) as (m & AM & NM).
        { destruct A as [[es' A]|[_ A]]; eexists; split; try exact A; [reflexivity|].
          eapply leads_not_link; [exact NL|exact L']. }
        pose proof (leads_real root _ _ AM NM) as R.
        destruct (leads_det _ _ _ _ R q' n) as [-> ->]; [eapply leads_link; eassumption|].
        now apply walks_end.
      + rewrite app_assoc in EP. apply snoc_inj in EP. destruct EP as [-> ->].
        destruct A as [A|[A _]]; [|destruct b'; discriminate].
        eapply walks_app; [apply IH; [reflexivity|left; exact A]|].
        pose proof (leads_at _ _ _ _ L) as AQ.
        assert (at_path root (q ++ [x]) = Some (Link c)) as AL by (rewrite at_snoc, AQ; exact E).
        destruct (usual_split c (UL _ _ AL)) as (k & ns & PN & SC & AC).
        eapply walks_link; [exact Pf|exact AQ|exact E|exact AC|]. rewrite app_nil_r, SC.
        unfold target_path in T. rewrite AC, SC, go_usual in T by exact PN.
        destruct (climb k q) as [a0|] eqn:C; [|discriminate]. injection T as <-.
        apply (walks_climb k ns q' n q es a0 AQ C). apply IH'; [reflexivity|]. left.
        eapply climb_dir; eassumption.
  Qed.

  (** Replacing a beginning of a path by one that leads to the same objects. *)
  Lemma leads_subst t p : (forall q n, leads root t q n -> leads root p q n) ->
    forall r q n, leads root (t ++ r) q n -> leads root (p ++ r) q n.
  Proof.
    intros H r. induction r as [|f r IH] using rev_ind; intros q n L; [rewrite app_nil_r in *; auto|].
    rewrite app_assoc in *. apply leads_inv in L. destruct L as (q0 & es & L & D). apply IH in L.
    destruct D as [(E & N & ->)|(c & t' & E & T & L')]; [eapply leads_entry|eapply leads_link]; eassumption.
  Qed.

  Lemma walks_leads cur cs q n : walks root cur cs q n -> is_link n = false ->
    (cs = [] \/ exists es, at_path root cur = Some (Dir es)) ->
    forall k ns, cs = repeat ".." k ++ ns -> Forall plain ns ->
    exists a, climb k cur = Some a /\ leads root (a ++ ns) q n.
  Proof.
    intros W N. induction W as [cur n A|cur es c cs q n D A W IH|cur es cs q n A NE W IH
      |cur es f m cs q n Pf A E NM W IH|cur es f c cs q n Pf A E AC W IH]; intros DD k ns EC P.
    - destruct k; [|discriminate]. cbn in EC. subst ns. exists cur. split; [reflexivity|].
      rewrite app_nil_r. now apply leads_real.
    - exfalso. destruct k as [|k]; cbn in EC.
      + destruct ns as [|g ns]; [discriminate|]. injection EC as -> _. inversion P as [|? ? Pg _]; subst.
        destruct Pg as (P1 & P2 & _). destruct D; contradiction.
      + injection EC as -> _. destruct D; discriminate.
    - destruct (at_removelast cur _ NE A) as (es' & A').
      destruct k as [|k]; cbn in EC.
      + destruct ns as [|g ns]; [discriminate|]. injection EC as <- _. inversion P as [|? ? Pg _]; subst.
        destruct Pg as (_ & _ & P3 & _). congruence.
      + injection EC as EC. destruct (IH N ltac:(right; eauto) k ns EC P) as (a & C & L).
        exists a. split; [|exact L]. cbn. destruct cur; [congruence|exact C].
    - destruct k as [|k]; cbn in EC.
      + subst ns. inversion P as [|? ? Pg P']; subst. exists cur. split; [reflexivity|].
        assert (at_path root (cur ++ [f]) = Some m) as AF by (rewrite at_snoc, A; exact E).
        assert (cs = [] \/ exists es0, at_path root (cur ++ [f]) = Some (Dir es0)) as DD'.
        { destruct cs as [|g cs]; [now left|]. right. inversion W; subst; eauto. }
        destruct (IH N DD' 0 cs eq_refl P') as (a & C & L). cbn in C. injection C as <-.
        rewrite <- app_assoc in L. exact L.
      + injection EC as -> _. destruct Pf as (_ & _ & P3 & _). congruence.
    - destruct k as [|k]; cbn in EC.
      + subst ns. inversion P as [|? ? Pg P']; subst. exists cur. split; [reflexivity|].
        assert (at_path root (cur ++ [f]) = Some (Link c)) as AL by (rewrite at_snoc, A; exact E).
        destruct (usual_split c (UL _ _ AL)) as (k & ns & PN & SC & _).
        destruct (IH N ltac:(right; eauto) k (ns ++ cs)) as (a & C & L).
        * rewrite SC, <- app_assoc. reflexivity.
        * apply Forall_app. split; assumption.
        * change (f :: cs) with ([f] ++ cs). rewrite app_assoc. revert L. rewrite app_assoc.
          apply leads_subst. intros q0 n0 L0.
          eapply leads_link; [apply leads_real; [exact A|reflexivity]|exact E| |exact L0].
          unfold target_path. rewrite AC, SC, go_usual, C by exact PN. reflexivity.
      + injection EC as -> _. destruct Pf as (_ & _ & P3 & _). congruence.
  Qed.

  Theorem leads_iff_walks p q n : Forall plain p -> is_link n = false ->
    (leads root p q n <-> walks root [] p q n).
  Proof.
    intros P N. split.
    - intros L. eapply leads_walks; [exact L|reflexivity|]. destruct p as [|f p].
      + right. split; [reflexivity|]. apply leads_nil in L. destruct L as [_ ->]. reflexivity.
      + left. destruct (at_path root []) as [t|] eqn:E; [|discriminate]. injection E as <-.
        assert (exists q0 es, leads root [] q0 (Dir es)) as (q0 & es & L0).
        { clear - L NL. remember (f :: p) as l eqn:El. revert f p El.
          induction L as [|p q es f n L IH E N|p q es f c t q' n L IH E T L' IH']; intros g r El.
          - discriminate.
          - destruct p as [|h p]; [eauto|]. eapply IH. reflexivity.
          - destruct p as [|h p]; [eauto|]. eapply IH. reflexivity. }
        apply leads_nil in L0. destruct L0 as [_ <-]. exists es. reflexivity.
    - intros W. destruct (walks_leads [] p q n W N) with (k := 0) (ns := p) as (a & C & L); auto.
      + destruct p as [|f p]; [now left|]. right. inversion W; subst; eauto.
      + cbn in C. injection C as <-. exact L.
  Qed.
End Root.
