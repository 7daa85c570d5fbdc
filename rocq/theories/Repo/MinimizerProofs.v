(** The minimiser computes bisimilarity. *)
From Coq Require Import List Arith Bool Lia Permutation Sorted.
From Verif.Repo Require Import Minimizer Bisim BisimProofs.
Import ListNotations.

(** ** Pairs *)

Lemma key_eqb_eq k k' : key_eqb k k' = true <-> k = k'.
Proof.
  destruct k, k'. unfold key_eqb. cbn. rewrite andb_true_iff, !Nat.eqb_eq.
  split; [intros [-> ->]; auto|intros [= -> ->]; auto].
Qed.

Lemma mem_key_In k l : mem_key k l = true <-> In k l.
Proof.
  unfold mem_key. rewrite existsb_exists. split.
  - intros (x & H & E). apply key_eqb_eq in E. now subst.
  - intros H. exists k. split; auto. now apply key_eqb_eq.
Qed.

Lemma mem_key_false k l : mem_key k l = false <-> ~ In k l.
Proof.
  rewrite <- mem_key_In. destruct (mem_key k l); intuition congruence.
Qed.

Lemma mkpair_comm a b : mkpair a b = mkpair b a.
Proof.
  unfold mkpair. destruct (Nat.ltb_spec a b), (Nat.ltb_spec b a); auto; try lia.
  f_equal; lia.
Qed.

Lemma mkpair_cases a b : mkpair a b = (a, b) \/ mkpair a b = (b, a).
Proof. unfold mkpair. destruct (a <? b); auto. Qed.

Lemma mkpair_lt a b : a <> b -> fst (mkpair a b) < snd (mkpair a b).
Proof. unfold mkpair. destruct (Nat.ltb_spec a b); cbn; lia. Qed.

Lemma mkpair_id a b : a < b -> mkpair a b = (a, b).
Proof. unfold mkpair. destruct (Nat.ltb_spec a b); auto; lia. Qed.

Lemma bucket_pairs_In k before rest :
  NoDup (before ++ rest) ->
  (In k (bucket_pairs before rest) <->
   exists a b, k = mkpair a b /\ a <> b /\ In a rest /\ In b (before ++ rest)).
Proof.
  revert before. induction rest as [|n r IH]; cbn; intros before ND.
  - split; [tauto|]. intros (a & b & _ & _ & [] & _).
  - rewrite in_app_iff, IH by (now rewrite <- app_assoc).
    rewrite <- app_assoc. cbn. split.
    + intros [H|(a & b & -> & Hn & Ha & Hb)].
      * apply in_map_iff in H as (b & <- & Hb). exists n, b.
        split; auto. split; [|split; [auto|apply in_or_app; auto]].
        intros ->. apply NoDup_remove_2 in ND. apply ND, in_or_app. auto.
      * exists a, b. auto.
    + intros (a & b & -> & Hn & [->|Ha] & Hb).
      * apply in_app_iff in Hb as [Hb|[->|Hb]].
        -- left. apply in_map_iff. eauto.
        -- congruence.
        -- right. exists b, a. rewrite mkpair_comm. repeat split; auto.
           apply in_or_app. right. now left.
      * right. exists a, b. auto.
Qed.

(** ** Marking *)

Lemma parents_of_In p k par : In p (parents_of k par) <-> In (k, p) par.
Proof.
  unfold parents_of. rewrite in_map_iff. split.
  - intros ([k' p'] & E & H). apply filter_In in H as [H Hk]. cbn in *.
    apply key_eqb_eq in Hk. now subst.
  - intros H. exists (k, p). split; auto. apply filter_In. split; auto.
    cbn. now apply key_eqb_eq.
Qed.

Section Mark.
Variable par : list (pair_key * pair_key).

Definition mark_fold f :=
  fun acc p =>
    match acc with
    | None => None
    | Some M' => if mem_key p M' then Some M' else mark f par p M'
    end.

Lemma mark_S f d M : mark (S f) par d M = fold_left (mark_fold f) (parents_of d par) (Some (d :: M)).
Proof. reflexivity. Qed.

Lemma mark_fold_None f l : fold_left (mark_fold f) l None = None.
Proof. induction l; cbn; auto. Qed.

(** What marking does: it keeps marks, marks [d], and the parents of whatever
    it marks. *)
Lemma mark_spec f : forall d M M',
  mark f par d M = Some M' ->
  incl M M' /\ In d M' /\
  (forall p, In p M' -> In p M \/ p = d \/ exists c, In c M' /\ In (c, p) par) /\
  (forall p, In p M' -> (In p M /\ p <> d) \/ (forall q, In (p, q) par -> In q M')).
Proof.
  induction f as [|f IH]; intros d M M' H; [discriminate|].
  rewrite mark_S in H.
  assert (G : forall l M0 M1, fold_left (mark_fold f) l (Some M0) = Some M1 ->
      incl M0 M1 /\ (forall p, In p l -> In p M1) /\
      (forall p, In p M1 -> In p M0 \/ In p l \/ exists c, In c M1 /\ In (c, p) par) /\
      (forall p, In p M1 -> In p M0 \/ (forall q, In (p, q) par -> In q M1))).
  { induction l as [|p l IHl]; intros M0 M1 E; cbn in E.
    - injection E as ->. repeat split; auto. intros x Hx; auto. intros p [].
    - destruct (mem_key p M0) eqn:Em.
      + destruct (IHl _ _ E) as (I1 & I2 & I3 & I4). repeat split; auto.
        * intros x [->|Hx]; auto. apply I1. now apply mem_key_In.
        * intros x Hx. destruct (I3 x Hx) as [|[|]]; cbn; auto.
      + destruct (mark f par p M0) as [Ma|] eqn:Ema;
          [|rewrite mark_fold_None in E; discriminate].
        destruct (IH _ _ _ Ema) as (K1 & K2 & K3 & K4).
        destruct (IHl _ _ E) as (I1 & I2 & I3 & I4). repeat split.
        * intros x Hx. auto.
        * intros x [->|Hx]; auto.
        * intros x Hx. destruct (I3 x Hx) as [Hx'|[Hx'|Hx']]; cbn; auto.
          destruct (K3 x Hx') as [|[->|(c & Hc & Hp)]]; auto.
          right. right. exists c. auto.
        * intros x Hx. destruct (I4 x Hx) as [Hx'|Hx']; auto.
          destruct (K4 x Hx') as [[]|Hq]; auto. }
  destruct (G _ _ _ H) as (I1 & I2 & I3 & I4).
  assert (Hd : In d M') by (apply I1; now left).
  repeat split; auto.
  - intros x Hx. apply I1. now right.
  - intros p Hp. destruct (I3 p Hp) as [[->|]|[Hp'|]]; auto.
    apply parents_of_In in Hp'. eauto.
  - intros p Hp.
    assert (C : p = d \/ p <> d).
    { destruct (key_eqb p d) eqn:E; [left; now apply key_eqb_eq|].
      right. intros ->. rewrite (proj2 (key_eqb_eq d d) eq_refl) in E. discriminate. }
    destruct C as [->|C].
    + right. intros q Hq. apply I2. now apply parents_of_In.
    + destruct (I4 p Hp) as [[->|]|]; auto. congruence.
Qed.

(** Only distinguishable pairs get marked. *)
Lemma mark_sound (D : pair_key -> Prop) :
  (forall c p, In (c, p) par -> D c -> D p) ->
  forall f d M M', mark f par d M = Some M' -> D d -> (forall k, In k M -> D k) ->
    forall k, In k M' -> D k.
Proof.
  intros HD. induction f as [|f IH]; intros d M M' H Hd HM; [discriminate|].
  rewrite mark_S in H.
  assert (G : forall l M0 M1, fold_left (mark_fold f) l (Some M0) = Some M1 ->
      (forall p, In p l -> D p) -> (forall k, In k M0 -> D k) -> forall k, In k M1 -> D k).
  { induction l as [|p l IHl]; intros M0 M1 E Hl H0; cbn in E.
    - injection E as ->. auto.
    - destruct (mem_key p M0).
      + eapply IHl; eauto. intros; apply Hl; now right.
      + destruct (mark f par p M0) as [Ma|] eqn:Ema;
          [|rewrite mark_fold_None in E; discriminate].
        eapply IHl; eauto. intros; apply Hl; now right.
        eapply IH; eauto. apply Hl. now left. }
  apply (G _ _ _ H).
  - intros p Hp. apply parents_of_In in Hp. eauto.
  - intros k [->|Hk]; auto.
Qed.

(** The depth of the recursion is bounded by the number of unmarked pairs. *)
Definition unmarked (ps M : list pair_key) : list pair_key :=
  filter (fun k => negb (mem_key k M)) ps.

Lemma unmarked_incl ps M M' : incl M M' -> length (unmarked ps M') <= length (unmarked ps M).
Proof.
  intros H. unfold unmarked. induction ps as [|k r IH]; cbn [filter]; auto.
  destruct (mem_key k M) eqn:E; cbn.
  - replace (mem_key k M') with true; cbn; auto. symmetry.
    apply mem_key_In, H. now apply mem_key_In.
  - destruct (mem_key k M'); cbn; lia.
Qed.

Lemma unmarked_lt ps d M : In d ps -> ~ In d M ->
  length (unmarked ps (d :: M)) < length (unmarked ps M).
Proof.
  intros Hd Hm. induction ps as [|k r IH]; [destruct Hd|].
  change (unmarked (k :: r) (d :: M)) with
    (if negb (mem_key k (d :: M)) then k :: unmarked r (d :: M) else unmarked r (d :: M)).
  change (unmarked (k :: r) M) with
    (if negb (mem_key k M) then k :: unmarked r M else unmarked r M).
  pose proof (unmarked_incl r M (d :: M) (fun x Hx => or_intror Hx)) as L.
  destruct Hd as [->|Hd].
  - rewrite (proj2 (mem_key_In d (d :: M)) (or_introl eq_refl)).
    rewrite (proj2 (mem_key_false d M) Hm). cbn. lia.
  - specialize (IH Hd). destruct (mem_key k M) eqn:E.
    + assert (E' : mem_key k (d :: M) = true)
        by (apply mem_key_In; right; now apply mem_key_In).
      rewrite E'. cbn. exact IH.
    + destruct (mem_key k (d :: M)); cbn; lia.
Qed.

Lemma mark_total ps :
  (forall c p, In (c, p) par -> In p ps) ->
  forall f d M, length (unmarked ps (d :: M)) < f -> exists M', mark f par d M = Some M'.
Proof.
  intros HP. induction f as [|f IH]; intros d M L; [lia|].
  rewrite mark_S.
  assert (G : forall l M0, (forall p, In p l -> In p ps) -> length (unmarked ps M0) <= f ->
     exists M1, fold_left (mark_fold f) l (Some M0) = Some M1).
  { induction l as [|p l IHl]; intros M0 Hl L0; cbn; eauto.
    destruct (mem_key p M0) eqn:E.
    - apply IHl; auto. intros; apply Hl; now right.
    - destruct (IH p M0) as (Ma & Ema).
      + pose proof (unmarked_lt ps p M0 (Hl p (or_introl eq_refl)) (proj1 (mem_key_false _ _) E)). lia.
      + rewrite Ema. apply IHl; [intros; apply Hl; now right|].
        apply mark_spec in Ema as (K & _). apply (unmarked_incl ps) in K. lia. }
  apply G; [|lia]. intros p Hp. apply parents_of_In in Hp. eauto.
Qed.

Lemma unmarked_length ps M : length (unmarked ps M) <= length ps.
Proof. unfold unmarked. induction ps as [|k r IH]; cbn; auto. destruct (negb _); cbn; lia. Qed.

End Mark.

(** ** The main loop *)

Section Loop.
Variable A : automaton.
Hypothesis WF : well_formed A.
Variable bs : list bucket.
Variable by_state : list (nat * (nat * list nat)).
Variable ps : list pair_key.

(** Two states that start in the same bucket. *)
Definition candidate (a b : nat) : Prop :=
  exists ta tb c, In (a, ta, c) A /\ In (b, tb, c) A /\ map fst ta = map fst tb.

Hypothesis H_ps : forall k, In k ps <-> fst k < snd k /\ candidate (fst k) (snd k).
Hypothesis H_by : forall n t c, In (n, t, c) A -> assoc n by_state = Some (c, map fst t).
Hypothesis H_bs : forall n t c, In (n, t, c) A ->
  exists bk, find_bucket c (map fst t) bs = Some bk /\ b_symbols bk = map fst t /\
             forall n' t', In (n', t', c) A -> map fst t' = map fst t ->
                           assoc n' (b_states bk) = Some t'.

Lemma in_ps a b : a <> b -> (In (mkpair a b) ps <-> candidate a b).
Proof.
  intros N. rewrite H_ps. destruct (mkpair_cases a b) as [E|E]; rewrite E; cbn [fst snd].
  - pose proof (mkpair_lt a b N) as L. rewrite E in L. cbn in L. tauto.
  - pose proof (mkpair_lt a b N) as L. rewrite E in L. cbn in L.
    split.
    + intros (_ & ta & tb & c & H1 & H2 & H3). exists tb, ta, c. auto.
    + intros (ta & tb & c & H1 & H2 & H3). split; auto. exists tb, ta, c. auto.
Qed.

Lemma bisimilar_candidate a b : bisimilar A a b -> a <> b -> candidate a b.
Proof.
  intros H N. destruct (bisimilar_step A a b H) as [|G]; [congruence|].
  pose proof G as (ta & tb & c & H1 & H2 & _).
  destruct (agree_symbols A WF _ _ _ _ _ _ _ G H1 H2). exists ta, tb, c. auto.
Qed.

(** [edge k rs]: the pair [rs] is reached from [k] by one symbol. *)
Definition edge (k rs : pair_key) : Prop :=
  exists ta tb c sym r s,
    In (fst k, ta, c) A /\ In (snd k, tb, c) A /\
    assoc sym ta = Some r /\ assoc sym tb = Some s /\ r <> s /\ rs = mkpair r s.

Definition distinct (k : pair_key) : Prop := ~ bisimilar A (fst k) (snd k).

Lemma distinct_mkpair a b : distinct (mkpair a b) <-> ~ bisimilar A a b.
Proof.
  unfold distinct. destruct (mkpair_cases a b) as [->| ->]; cbn; [tauto|].
  split; intros H G; apply H, bisimilar_sym, G.
Qed.

Lemma edge_distinct k rs : fst k <> snd k -> edge k rs -> distinct rs -> distinct k.
Proof.
  intros Nk (ta & tb & c & sym & r & s & Ha & Hb & Hr & Hs & N & ->) D H.
  apply (proj1 (distinct_mkpair r s)) in D. apply D.
  destruct (bisimilar_step A _ _ H) as [|(ta' & tb' & c' & Ha' & Hb' & G)]; [congruence|].
  destruct (state_unique A _ _ _ _ _ WF Ha Ha') as [-> ->].
  destruct (state_unique A _ _ _ _ _ WF Hb Hb') as [-> _].
  specialize (G sym). rewrite Hr, Hs in G. exact G.
Qed.

(** The invariant of the main loop. *)
Record inv (T : table) : Prop := {
  i_marked_ps : forall k, In k (t_marked T) -> In k ps;
  i_sound : forall k, In k (t_marked T) -> distinct k;
  i_parents : forall c p, In (c, p) (t_parents T) -> In p ps /\ In c ps /\ edge p c;
  i_closed : forall c p, In (c, p) (t_parents T) -> In c (t_marked T) -> In p (t_marked T)
}.

(** The symbol [sym] of the pair [k] has been dealt with. *)
Definition dealt (T : table) (k : pair_key) (ta tb : transitions) (sym : nat) : Prop :=
  forall r s, assoc sym ta = Some r -> assoc sym tb = Some s ->
    r = s \/ In k (t_marked T) \/
    (In (mkpair r s) ps /\ In (mkpair r s, k) (t_parents T)).

Definition grows (T T' : table) : Prop :=
  incl (t_marked T) (t_marked T') /\ incl (t_parents T) (t_parents T').

Lemma dealt_grows T T' k ta tb sym : grows T T' -> dealt T k ta tb sym -> dealt T' k ta tb sym.
Proof. intros [G1 G2] D r s Hr Hs. destruct (D r s Hr Hs) as [|[|[]]]; auto. Qed.

Lemma grows_refl T : grows T T.
Proof. split; intros x; auto. Qed.

Lemma grows_trans T1 T2 T3 : grows T1 T2 -> grows T2 T3 -> grows T1 T3.
Proof. intros [] []. split; intros x; auto. Qed.

Lemma symbols_spec k ta tb c :
  In k ps -> In (fst k, ta, c) A -> In (snd k, tb, c) A -> map fst ta = map fst tb ->
  forall syms T, (forall x, In x syms -> In x (map fst ta)) -> inv T ->
  exists T', pair_symbols ps k ta tb syms T = Some T' /\ inv T' /\ grows T T' /\
             forall sym, In sym syms -> dealt T' k ta tb sym.
Proof.
  intros Hk Ha Hb Hab.
  assert (Nk : fst k <> snd k) by (apply H_ps in Hk; lia).
  induction syms as [|sym rest IH]; intros T Hs I; cbn [pair_symbols].
  - exists T. split; [|split; [|split]]; auto using grows_refl. intros ? [].
  - destruct (assoc_Some_dom sym ta) as (r & Er); [apply Hs; now left|].
    destruct (assoc_Some_dom sym tb) as (s & Es); [rewrite <- Hab; apply Hs; now left|].
    rewrite Er, Es.
    assert (Hs' : forall x, In x rest -> In x (map fst ta)) by (intros; apply Hs; now right).
    destruct (Nat.eqb_spec r s) as [->|N].
    { destruct (IH T Hs' I) as (T' & E & I' & G & D). exists T'. repeat (split; auto).
      intros x [->|Hx]; auto. intros r' s' Hr' Hs''. left. congruence. }
    assert (Ek : edge k (mkpair r s)).
    { exists ta, tb, c, sym, r, s. auto 10. }
    destruct (negb (mem_key (mkpair r s) ps) || mem_key (mkpair r s) (t_marked T)) eqn:Em.
    + destruct (mark_total (t_parents T) ps (fun c p H => proj1 (i_parents T I c p H))
                  (S (length ps)) k (t_marked T)) as (M & EM).
      { pose proof (unmarked_length ps (k :: t_marked T)). lia. }
      rewrite EM.
      destruct (mark_spec _ _ _ _ _ EM) as (M1 & M2 & M3 & M4).
      assert (Dk : distinct k).
      { apply orb_true_iff in Em as [Em|Em].
        - apply negb_true_iff, mem_key_false in Em.
          apply (edge_distinct k (mkpair r s)); auto.
          apply (proj2 (distinct_mkpair r s)). intros Hbi. apply Em. apply in_ps; auto.
          now apply bisimilar_candidate.
        - apply mem_key_In in Em. apply (edge_distinct k (mkpair r s)); auto.
          now apply (i_sound T I). }
      assert (I2 : inv (mkTab M (t_parents T))).
      { constructor; cbn [t_marked t_parents].
        - intros x Hx. destruct (M3 x Hx) as [Hx'|[->|(c' & _ & Hp)]]; auto.
          + now apply (i_marked_ps T I).
          + now apply (i_parents T I) in Hp as (? & _).
        - apply (mark_sound (t_parents T) distinct) with (f := S (length ps)) (d := k) (M := t_marked T); auto.
          + intros c' p Hp D. destruct (i_parents T I _ _ Hp) as (Hp1 & Hp2 & Hp3).
            apply (edge_distinct p c'); auto. apply H_ps in Hp1. lia.
          + apply (i_sound T I).
        - apply (i_parents T I).
        - intros c' p Hp Hc. destruct (M4 c' Hc) as [[Hc' _]|Hq]; auto.
          apply M1. now apply (i_closed T I c' p). }
      destruct (IH _ Hs' I2) as (T' & E & I' & G & D). exists T'.
      assert (G0 : grows T (mkTab M (t_parents T))) by (split; [exact M1|intros x; auto]).
      split; [|split; [|split]]; auto.
      { eapply grows_trans; eauto. }
      intros x [->|Hx]; auto. apply dealt_grows with (1 := G). intros ? ? _ _. right. left. exact M2.
    + apply orb_false_iff in Em as [Em1 Em2].
      apply negb_false_iff, mem_key_In in Em1. apply mem_key_false in Em2.
      set (T1 := mkTab (t_marked T) (t_parents T ++ [(mkpair r s, k)])).
      assert (I2 : inv T1).
      { constructor; cbn [T1 t_marked t_parents].
        - apply (i_marked_ps T I).
        - apply (i_sound T I).
        - intros c' p Hp. apply in_app_iff in Hp as [Hp|[[= <- <-]|[]]]; auto.
          now apply (i_parents T I).
        - intros c' p Hp Hc. apply in_app_iff in Hp as [Hp|[[= <- <-]|[]]].
          + eapply (i_closed T I); eauto.
          + contradiction. }
      destruct (IH _ Hs' I2) as (T' & E & I' & G & D). exists T'.
      assert (G0 : grows T T1).
      { split; cbn [T1 t_marked t_parents]; intros x Hx; auto. apply in_or_app. auto. }
      split; [|split; [|split]]; auto.
      { eapply grows_trans; eauto. }
      intros x [->|Hx]; auto. apply dealt_grows with (1 := G).
      intros r' s' Hr' Hs''. rewrite Hr' in Er. rewrite Hs'' in Es.
      injection Er as ->. injection Es as ->.
      right. right. split; auto. cbn. apply in_or_app. right. now left.
Qed.

(** A pair has been dealt with. *)
Definition done (T : table) (k : pair_key) : Prop :=
  forall ta tb c sym, In (fst k, ta, c) A -> In (snd k, tb, c) A -> dealt T k ta tb sym.

Lemma pairs_spec todo : forall T, incl todo ps -> inv T ->
  exists T', process_pairs bs by_state ps todo T = Some T' /\ inv T' /\ grows T T' /\
             forall k, In k todo -> done T' k.
Proof.
  induction todo as [|k rest IH]; intros T Hi I; cbn [process_pairs].
  - exists T. split; [|split; [|split]]; auto using grows_refl. intros ? [].
  - assert (Hk : In k ps) by (apply Hi; now left).
    pose proof (proj1 (H_ps k) Hk) as (L & ta & tb & c & Ha & Hb & Hab).
    unfold process_pair. rewrite (H_by _ _ _ Ha).
    destruct (H_bs _ _ _ Ha) as (bk & Ef & Esy & Est). rewrite Ef.
    rewrite (Est _ _ Ha eq_refl), (Est _ _ Hb (eq_sym Hab)).
    destruct (symbols_spec k ta tb c Hk Ha Hb Hab (b_symbols bk) T) as (T1 & E1 & I1 & G1 & D1); auto.
    { intros x. now rewrite Esy. }
    rewrite E1.
    destruct (IH T1) as (T' & E & I' & G & D); auto.
    { intros x Hx. apply Hi. now right. }
    exists T'. split; [|split; [|split]]; auto.
    { eapply grows_trans; eauto. }
    intros x [<-|Hx]; auto.
    intros ta' tb' c' sym Ha' Hb'.
    destruct (state_unique A _ _ _ _ _ WF Ha Ha') as [<- <-].
    destruct (state_unique A _ _ _ _ _ WF Hb Hb') as [<- _].
    intros r s Hr Hs. refine (dealt_grows T1 T' k ta tb sym G (D1 sym _) r s Hr Hs).
    rewrite Esy. now apply assoc_dom in Hr.
Qed.

Lemma inv_empty : inv (mkTab [] []).
Proof. constructor; cbn; tauto. Qed.

(** After the loop: unmarked means bisimilar. *)
Theorem marks_correct :
  exists T, process_pairs bs by_state ps ps (mkTab [] []) = Some T /\
    forall a b, candidate a b -> a <> b ->
      (mem_key (mkpair a b) (t_marked T) = false <-> bisimilar A a b).
Proof.
  destruct (pairs_spec ps (mkTab [] []) (fun x H => H) inv_empty) as (T & E & I & _ & D).
  exists T. split; auto. intros a b C N. rewrite mem_key_false. split.
  - intros Hm.
    apply (bisimilar_coind A (fun a b => a <> b /\ candidate a b /\ ~ In (mkpair a b) (t_marked T))); auto.
    clear a b C N Hm. intros a b (N & C & Hm). right.
    pose proof C as (ta & tb & c & Ha & Hb & Hab). exists ta, tb, c.
    split; [|split]; auto. intros sym.
    destruct (assoc sym ta) as [r|] eqn:Er.
    2:{ destruct (assoc sym tb) eqn:Es; auto. apply assoc_None in Er. apply Er.
        rewrite Hab. now apply assoc_dom in Es. }
    destruct (assoc_Some_dom sym tb) as (s & Es).
    { rewrite <- Hab. now apply assoc_dom in Er. }
    rewrite Es.
    assert (Hp : In (mkpair a b) ps) by (now apply in_ps).
    destruct (Nat.eq_dec r s) as [->|Nrs]; [left; apply bisimilar_refl|].
    right. split; auto.
    destruct (mkpair_cases a b) as [Eab|Eab].
    + assert (DD : dealt T (mkpair a b) ta tb sym).
      { apply (D (mkpair a b) Hp ta tb c sym); rewrite Eab; auto. }
      destruct (DD r s Er Es) as [|[|(Hrs & Hpar)]]; try contradiction.
      split; [now apply in_ps|]. intros Hmm. apply Hm. now apply (i_closed T I _ _ Hpar).
    + assert (DD : dealt T (mkpair a b) tb ta sym).
      { apply (D (mkpair a b) Hp tb ta c sym); rewrite Eab; auto. }
      destruct (DD s r Es Er) as [|[|(Hrs & Hpar)]]; try congruence; try contradiction.
      rewrite mkpair_comm in Hrs, Hpar.
      split; [now apply in_ps|]. intros Hmm. apply Hm. now apply (i_closed T I _ _ Hpar).
  - intros Hb Hm. apply (i_sound T I) in Hm. apply (proj1 (distinct_mkpair a b)) in Hm. auto.
Qed.

End Loop.
