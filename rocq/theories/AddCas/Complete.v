(** A directory that means something is imported. *)
From Coq Require Import String Ascii List Bool Arith Lia Permutation.
From Verif Require Import Hex.Model Path.Model Path.Spec GitTree.Model.
From Verif Require Symlinks.Spec Symlinks.Paths Symlinks.PartialMode GitTree.Spec GitTree.Proofs TreeOps.Spec.
From Verif Require Import AddCas.Model AddCas.Spec AddCas.Proofs AddCas.Sound.
Import ListNotations.
Local Open Scope string_scope.
Local Open Scope list_scope.
Local Open Scope nat_scope.

Scheme means_ind2 := Induction for means Sort Prop
  with means_entries_ind2 := Induction for means_entries Sort Prop.

Fixpoint size (m : item) : nat :=
  match m with
  | IDir ms => S (fold_right (fun p n => (match p with (_, c) => size c end) + n) 0 ms)
  | _ => 1
  end.

Lemma size_entry x c ms : In (x, c) ms -> size c < size (IDir ms).
Proof.
  cbn [size]. induction ms as [|[y d] ms IH]; [intros []|]. intros [E|I]; cbn [fold_right].
  - injection E as -> ->. lia.
  - specialize (IH I). lia.
Qed.

Section Import.
  Context (H : string -> string) (fs : entry) (limit : nat) (same : bool) (root : path) (md : mode) (st0 : state).
  Context (RH : TreeOps.Spec.raw_ids H) (PF : proper fs) (RD : exists es, at_path fs root = Some (Dir es)).
  Let ns := inodes st0.
  Context (WI : forall p i, at_path fs p = Some (Reg i) -> nth_error ns i <> None).
  Context (LB : forall p e, at_path fs p = Some e -> List.length p < limit).
  Context (SF : same = true) (FI : fine fs root md).

  Lemma points_fun d c t t' : points_to root md d c t -> points_to root md d c t' -> t = t'.
  Proof.
    unfold points_to.
    assert (K : (exists r u, d = root ++ r /\ Symlinks.Spec.target_path r c = Some u /\ t = root ++ u) ->
                (exists r u, d = root ++ r /\ Symlinks.Spec.target_path r c = Some u /\ t' = root ++ u) -> t = t').
    { intros (r & u & -> & T & ->) (r' & u' & E & T' & ->). apply app_inv_head in E. congruence. }
    destruct md as [[]|]; try exact K. congruence.
  Qed.

  Inductive chain : nat -> path -> string -> path -> entry -> Prop :=
  | chain_end d c t e : points_to root md d c t -> at_path fs t = Some e -> usual e = true -> chain 1 d c t e
  | chain_more n d c d' f' c' q e : points_to root md d c (d' ++ [f']) -> at_path fs (d' ++ [f']) = Some (Lnk c') ->
      chain n d' c' q e -> chain (S n) d c q e.

  Lemma chain_det n d c q e : chain n d c q e -> forall n' q' e', chain n' d c q' e' -> n = n' /\ q = q' /\ e = e'.
  Proof.
    induction 1 as [d c t e PT A U|n d c d' f' c' q e PT A C IH]; intros n' q' e' C'.
    - inversion C' as [? ? t' ? PT' A' U'|n2 ? ? d2 f2 c2 ? ? PT' A' C2]; subst; pose proof (points_fun _ _ _ _ PT PT') as ->.
      + repeat split; congruence.
      + assert (e = Lnk c2) as -> by congruence. discriminate.
    - inversion C' as [? ? t' ? PT' A' U'|n2 ? ? d2 f2 c2 ? ? PT' A' C2]; subst; pose proof (points_fun _ _ _ _ PT PT') as E.
      + rewrite <- E in A'. assert (e' = Lnk c') as -> by congruence. discriminate.
      + apply app_inj_tail in E. destruct E as [<- <-]. assert (c2 = c') as -> by congruence.
        destruct (IH _ _ _ C2) as (-> & -> & ->). auto.
  Qed.

  Definition clear_path (t : path) : Prop := forall a b c, t = a ++ b -> b <> [] -> at_path fs a <> Some (Lnk c).

  Lemma leads_chain t q e : straight fs root md -> leads fs root md t q e -> clear_path t -> usual e = true ->
    (at_path fs t = Some e /\ q = t) \/
    (exists n d f c, t = d ++ [f] /\ at_path fs t = Some (Lnk c) /\ chain n d c q e).
  Proof.
    intros ST L. induction L as [|p q es f e L IH F N|p q es f c t q' e L IH F PT L2 IH2]; intros C U.
    - left. auto.
    - assert (C' : clear_path p).
      { intros a b c -> Nb. apply (C a (b ++ [f])); [now rewrite app_assoc|]. destruct b; discriminate. }
      destruct (IH C' eq_refl) as [[A ->]|(n & d & g & c & -> & A & _)].
      + left. split; [|reflexivity]. now rewrite at_snoc, A.
      + exfalso. apply (C (d ++ [g]) [f] c); [reflexivity|discriminate|exact A].
    - assert (C' : clear_path p).
      { intros a b c' -> Nb. apply (C a (b ++ [f])); [now rewrite app_assoc|]. destruct b; discriminate. }
      destruct (IH C' eq_refl) as [[A ->]|(n & d & g & c' & -> & A & _)].
      + assert (A' : at_path fs (p ++ [f]) = Some (Lnk c)) by now rewrite at_snoc, A.
        assert (Ct : clear_path t) by (intros a b c' E Nb; exact (ST p f c t a b c' A' PT E Nb)).
        right. destruct (IH2 Ct U) as [[At ->]|(n & d & g & c' & -> & At & CH)].
        * exists 1, p, f, c. split; [reflexivity|]. split; [exact A'|]. now constructor.
        * exists (S n), p, f, c. split; [reflexivity|]. split; [exact A'|]. eapply chain_more; eauto.
      + exfalso. apply (C (d ++ [g]) [f] c'); [reflexivity|discriminate|exact A].
  Qed.

  Lemma link_chain d f c t q e : straight fs root md -> at_path fs (d ++ [f]) = Some (Lnk c) ->
    points_to root md d c t -> leads fs root md t q e -> usual e = true -> exists n, chain n d c q e.
  Proof.
    intros ST A PT L U. assert (Ct : clear_path t) by (intros a b c' E Nb; exact (ST d f c t a b c' A PT E Nb)).
    destruct (leads_chain t q e ST L Ct U) as [[At ->]|(n & d' & g & c' & -> & At & CH)].
    - exists 1. now constructor.
    - exists (S n). eapply chain_more; eauto.
  Qed.

  Lemma inside_parent d f c : at_path fs (d ++ [f]) = Some (Lnk c) -> inside root md (d ++ [f]) -> inside root md d.
  Proof.
    intros At. unfold inside.
    assert (K : (exists r, d ++ [f] = root ++ r) -> exists r, d = root ++ r).
    { intros [r E]. destruct r as [|x r _] using rev_ind.
      - rewrite app_nil_r in E. rewrite E in At. destruct RD as [es R]. congruence.
      - rewrite app_assoc in E. apply app_inj_tail in E. destruct E as [-> _]. eauto. }
    destruct md as [[]|]; auto.
  Qed.

  Definition following : Prop := md = Some TreeUpwards \/ md = Some TreeAll \/ md = Some All.

  Lemma chain_at n d c q e f : following -> chain n d c q e -> inside root md d -> at_path fs (d ++ [f]) = Some (Lnk c) ->
    at_path fs q = Some e /\ usual e = true /\ inside root md q.
  Proof.
    intros M C. revert f. induction C as [d c t e PT A U|n d c d' f' c' q e PT A C IH]; intros f I At.
    - split; [exact A|]. split; [exact U|]. exact (proj2 (proj2 (target_points fs root md PF d f c I At M) t PT)).
    - apply (IH f'); [|exact A]. apply (inside_parent d' f' c' A).
      exact (proj2 (proj2 (target_points fs root md PF d f c I At M) _ PT)).
  Qed.

  Lemma lookup_at p e : at_path fs p = Some e -> lookup fs limit p = Some e.
  Proof.
    intros A. apply os_complete; [exact (proj2 (proper_at _ _ _ PF A))|exact A|exact (LB _ _ A)].
  Qed.

  Lemma follow_complete n d c q e : following -> chain n d c q e -> forall f fuel visited, n <= fuel ->
    inside root md d -> at_path fs (d ++ [f]) = Some (Lnk c) ->
    (forall v, In v visited -> exists d' f' c', v = d' ++ [f'] /\ at_path fs v = Some (Lnk c') /\
       forall n' q' e', chain n' d' c' q' e' -> n <= n') ->
    follow fs limit root md fuel (d ++ [f]) c visited = Some (q, e).
  Proof.
    intros M C. induction C as [d c t e PT A U|n d c d' f' c' q e PT A C IH]; intros f fuel visited L I At V;
      (destruct fuel as [|fuel]; [lia|]); cbn [follow];
      destruct (target_points fs root md PF d f c I At M) as [T1 T2]; rewrite (proj2 T1 (ex_intro _ _ PT)), (proj1 (T2 _ PT)),
        (lookup_at _ _ A).
    - assert (NV : mem t visited = false).
      { apply mem_false. intros X. destruct (V _ X) as (d1 & f1 & c1 & -> & A1 & _). assert (e = Lnk c1) as -> by congruence. discriminate. }
      destruct e as [i|c1| |es]; try discriminate U; now rewrite NV.
    - assert (NV : mem (d' ++ [f']) visited = false).
      { apply mem_false. intros X. destruct (V _ X) as (d1 & f1 & c1 & E1 & A1 & LE). apply app_inj_tail in E1. destruct E1 as [<- <-].
        assert (c1 = c') as -> by congruence. specialize (LE _ _ _ C). lia. }
      rewrite NV. apply IH; [lia| |exact A|].
      + apply (inside_parent d' f' c' A). exact (proj2 (T2 _ PT)).
      + intros v [<-|X].
        * exists d', f', c'. split; [reflexivity|]. split; [exact A|]. intros n' q' e' C'. destruct (chain_det _ _ _ _ _ C _ _ _ C'). lia.
        * destruct (V _ X) as (d1 & f1 & c1 & E1 & A1 & LE). exists d1, f1, c1. split; [exact E1|]. split; [exact A1|].
          intros n' q' e' C'. specialize (LE _ _ _ C'). lia.
  Qed.

  Lemma kept_replaced c : kept_link md c -> replaced_link md c -> False.
  Proof. intros [[->| ->] D] [[E ND]|[E|E]]; try discriminate; auto. Qed.

  Lemma replaced_following c : replaced_link md c -> following /\ straight fs root md.
  Proof.
    intros R. assert (F : following) by (destruct R as [[E _]|[E|E]]; unfold following; auto). split; [exact F|].
    destruct FI as [E|[E|E]]; [| |exact E]; destruct F as [F|[F|F]]; congruence.
  Qed.

  (** *** What a directory means is unique *)
  Lemma means_det q e m (M : means ns fs root md q e m) :
    at_path fs q = Some e -> forall m', means ns fs root md q e m' -> m = m'.
  Proof.
    revert q e m M.
    apply (means_ind2 ns fs root md
      (fun q e m _ => at_path fs q = Some e -> forall m', means ns fs root md q e m' -> m = m')
      (fun q es ms _ => (forall f e, In (f, e) es -> at_path fs (q ++ [f]) = Some e) ->
         forall ms', means_entries ns fs root md q es ms' -> ms = ms')).
    - intros q i n E A m' M. inversion M. congruence.
    - intros q es ms M IH A m' M'. inversion M'; subst. f_equal. apply IH; [|assumption].
      intros f e X. rewrite at_snoc, A. apply In_entry_of; [|exact X].
      destruct (proper_at _ _ _ PF A) as [P _]. now inversion P.
    - intros q A ms' M. now inversion M.
    - intros q f e m es ms U ME IHE M IH A ms' M'. inversion M'; subst; try discriminate U.
      + f_equal; [|apply IH; [intros; apply A; now right|assumption]]. f_equal.
        apply IHE; [apply A; now left|assumption].
      + congruence.
    - intros q f e es ms E U M IH A ms' M'. inversion M'; subst.
      + congruence.
      + apply IH; [intros; apply A; now right|assumption].
      + match goal with X : kept_link _ _ |- _ => destruct X as [[X|X] _]; congruence end.
      + match goal with X : replaced_link _ _ |- _ => destruct X as [[X _]|[X|X]]; congruence end.
    - intros q f c es ms K M IH A ms' M'. inversion M'; subst.
      + discriminate.
      + destruct K as [[X|X] _]; congruence.
      + f_equal. apply IH; [intros; apply A; now right|assumption].
      + exfalso. eapply kept_replaced; eauto.
    - intros q f c t q' e m es ms R PT L U ME IHE M IH A ms' M'. destruct (replaced_following c R) as [F ST].
      assert (Al : at_path fs (q ++ [f]) = Some (Lnk c)) by (apply A; now left).
      inversion M' as [|? ? ? ? ? ? U2|? ? ? ? ? E2|? ? ? ? ? K2|? ? ? t2 q2 e2 m2 ? ms2 R2 PT2 L2 U2 ME2 M2]; subst.
      + discriminate.
      + destruct R as [[X _]|[X|X]]; congruence.
      + exfalso. eapply kept_replaced; eauto.
      + f_equal; [|apply IH; [intros; apply A; now right|assumption]]. f_equal.
        destruct (link_chain q f c t q' e ST Al PT L U) as [n1 C1]. destruct (link_chain q f c t2 q2 e2 ST Al PT2 L2 U2) as [n2 C2].
        destruct (chain_det _ _ _ _ _ C1 _ _ _ C2) as (_ & <- & <-). apply IHE; [|exact ME2].
        clear - C1. induction C1; assumption.
  Qed.

  (** *** The import *)
  Definition stack_ok (k : nat) (stack : list path) : Prop :=
    forall p es m, In p stack -> at_path fs p = Some (Dir es) -> means ns fs root md p (Dir es) m -> k < size m.

  Definition ready (st : state) (known : known_paths) : Prop :=
    sane H st /\ grows st0 st /\ good_known H fs root md st0 st known.

  Definition goes (q : path) (e : entry) (m : item) : Prop :=
    usual e = true -> at_path fs q = Some e -> inside root md q -> exists N, forall fuel stack st known acc name orig,
      N <= fuel -> stack_ok (size m) stack -> ready st known ->
      exists st' known' acc',
        process H same (create H fs limit same root md fuel stack) st known acc name orig q e = (st', known', Some acc').

  Definition runs (q : path) (es : list (string * entry)) (ms : list (string * item)) : Prop :=
    (forall f e, In (f, e) es -> at_path fs (q ++ [f]) = Some e) -> inside root md q ->
    exists N, forall fuel stack st known acc, N <= fuel -> (forall x m, In (x, m) ms -> stack_ok (size m) stack) -> ready st known ->
      exists st' known' acc',
        read_dir H fs limit same root md (create H fs limit same root md fuel stack) fuel q st known acc es = (st', known', Some acc').

  Lemma step_runs q f e es ms0 ms :
    ((at_path fs (q ++ [f]) = Some e) -> inside root md q ->
     exists N, forall fuel stack st known acc, N <= fuel -> (forall x m, In (x, m) ms0 -> stack_ok (size m) stack) -> ready st known ->
       exists st' known' acc',
        read_entry H fs limit same root md (create H fs limit same root md fuel stack) fuel q st known acc f e = (st', known', Some acc')) ->
    runs q es ms -> runs q ((f, e) :: es) (ms0 ++ ms).
  Proof.
    intros A B AT I. destruct (A (AT _ _ (or_introl eq_refl)) I) as [N1 K1].
    destruct (B (fun g x X => AT g x (or_intror X)) I) as [N2 K2]. exists (N1 + N2). intros fuel stack st known acc L SO R.
    cbn [read_dir].
    destruct (K1 fuel stack st known acc) as (s1 & k1 & a1 & E1); [lia|intros x m X; apply (SO x); apply in_or_app; now left|exact R|].
    rewrite E1. destruct R as (S & G & GK).
    destruct (read_entry_sound H fs limit same root md st0 PF RD WI _ fuel q st known acc f e s1 k1 _ FI
      (create_sound H fs limit same root md st0 RH PF RD WI FI fuel stack) S G GK I (AT _ _ (or_introl eq_refl)) E1) as (S1 & G1 & GK1 & _).
    apply K2; [lia|intros x m X; apply (SO x); apply in_or_app; now right|].
    split; [exact S1|]. split; [exact (grows_trans _ _ _ G G1)|exact GK1].
  Qed.

  Theorem import_runs q e m (M : means ns fs root md q e m) : goes q e m.
  Proof.
    revert q e m M. apply (means_ind2 ns fs root md (fun q e m _ => goes q e m) (fun q es ms _ => runs q es ms)).
    - intros q i n E U A I. exists 0. intros fuel stack st known acc name orig _ _ (S & G & GK). cbn [process].
      destruct (proj1 G _ _ E) as (n' & E' & _ & _). rewrite E'.
      destruct (store_link H same (if i_exec n' then Executable else File) i st) as [s1 o] eqn:SL.
      destruct (store_link_spec H same _ i n' st s1 o S E' eq_refl SL) as (_ & _ & _ & NN). specialize (NN SF).
      destruct o; [eauto|congruence].
    - intros q es ms M IH U A I.
      assert (AT : forall f e, In (f, e) es -> at_path fs (q ++ [f]) = Some e).
      { intros f e X. rewrite at_snoc, A. apply In_entry_of; [|exact X]. destruct (proper_at _ _ _ PF A) as [P _]. now inversion P. }
      destruct (IH AT I) as [N K]. exists (S N). intros fuel stack st known acc name orig L SO R.
      destruct fuel as [|fuel]; [lia|]. cbn [process create]. rewrite (lookup_at _ _ A).
      assert (MD : means ns fs root md q (Dir es) (IDir ms)) by now constructor.
      assert (NS : mem q stack = false).
      { apply mem_false. intros X. specialize (SO _ _ _ X A MD). lia. }
      rewrite NS. destruct (K fuel (q :: stack) st known []) as (s1 & k1 & a1 & E1); [lia| |exact R|].
      + intros x m X p es' m' [<-|Y] A' M'.
        * assert (es' = es) as -> by congruence. rewrite <- (means_det _ _ _ MD A _ M'). now apply size_entry with x.
        * specialize (SO _ _ _ Y A' M'). pose proof (size_entry _ _ _ X). lia.
      + rewrite E1. destruct (store_bytes H Tree (tree_content a1) s1) as [s2 id]. eauto.
    - intros q AT I. exists 0. intros fuel stack st known acc _ _ _. cbn [read_dir]. eauto.
    - intros q f e m es ms U ME IHE M IH. apply (step_runs q f e es [(f, m)] ms); [|exact IH]. intros A I.
      destruct (IHE U A (inside_snoc root md q f I)) as [N K]. exists N. intros fuel stack st known acc L SO R.
      assert (SO' : stack_ok (size m) stack) by exact (SO f m (or_introl eq_refl)).
      destruct e as [i|c| |es']; try discriminate U; cbn [read_entry];
        (destruct (find_known (q ++ [f]) known) as [[id t]|]; [eauto|now apply K]).
    - intros q f e es ms E U M IH. apply (step_runs q f e es [] ms); [|exact IH]. intros A I. exists 0.
      intros fuel stack st known acc L SO R. destruct e; try discriminate U; cbn [read_entry]; rewrite E; cbn; eauto.
    - intros q f c es ms KL M IH. apply (step_runs q f (Lnk c) es [(f, ILink c)] ms); [|exact IH]. intros A I. exists 0.
      intros fuel stack st known acc L SO R. cbn [read_entry].
      destruct KL as [KM KD]. apply Symlinks.PartialMode.nonupwards_downward in KD.
      assert (MI : is_mode md Ignore = false) by (destruct KM as [->| ->]; reflexivity). rewrite MI.
      destruct (find_known (q ++ [f]) known) as [[id t]|]; [eauto|]. rewrite KD.
      assert (B : (match md with None => true | Some _ => false end || is_mode md TreeUpwards) && true = true)
        by (destruct KM as [->| ->]; reflexivity).
      rewrite B. destruct (store_bytes H File c st). eauto.
    - intros q f c t q' e m es ms R PT LE U ME IHE M IH. apply (step_runs q f (Lnk c) es [(f, m)] ms); [|exact IH]. intros A I.
      destruct (replaced_following c R) as [F ST]. destruct (link_chain q f c t q' e ST A PT LE U) as [n C].
      destruct (chain_at n q c q' e f F C I A) as (A' & _ & I'). destruct (IHE U A' I') as [N K]. exists (n + N).
      intros fuel stack st known acc L SO RR. assert (SO' : stack_ok (size m) stack) by exact (SO f m (or_introl eq_refl)).
      cbn [read_entry]. assert (MI : is_mode md Ignore = false) by (destruct F as [->|[->| ->]]; reflexivity). rewrite MI.
      destruct (find_known (q ++ [f]) known) as [[id t']|]; [eauto|].
      assert (B : (match md with None => true | Some _ => false end || is_mode md TreeUpwards) && PathIsNonUpwards c = false).
      { destruct R as [[-> ND]|[->| ->]]; cbn; try reflexivity. destruct (PathIsNonUpwards c) eqn:X; [|reflexivity].
        apply Symlinks.PartialMode.nonupwards_downward in X. tauto. }
      rewrite B.
      assert (FC : follow fs limit root md fuel (q ++ [f]) c [q ++ [f]] = Some (q', e)).
      { apply (follow_complete n q c q' e F C); [lia|exact I|exact A|]. intros v [<-|[]]. exists q, f, c.
        split; [reflexivity|]. split; [exact A|]. intros n' q2 e2 C2. destruct (chain_det _ _ _ _ _ C _ _ _ C2). lia. }
      assert (X : exists md', md = Some md') by (destruct F as [F|[F|F]]; rewrite F; eauto). destruct X as [md' X].
      match goal with |- context [match md with Some _ => ?a | None => ?b end] =>
        replace (match md with Some _ => a | None => b end) with a by (rewrite X; reflexivity) end.
      rewrite FC. apply K; [lia|exact SO'|exact RR].
  Qed.
End Import.
