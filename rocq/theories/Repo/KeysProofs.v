(** Keys characterise repositories up to bisimilarity. *)
From Coq Require Import List Arith Bool Lia Permutation Sorted.
From Verif.Repo Require Import Minimizer Bisim BisimProofs MinimizerProofs MinimizerEnd
  Keys KeysSpec.
Import ListNotations.

(** ** The automaton of a configuration *)

Lemma automaton_In H K n m c :
  In (n, m, c) (automaton_of H K) <-> exists b, In (n, (Some b, m)) K /\ c = H b.
Proof.
  unfold automaton_of. rewrite in_flat_map. split.
  - intros ([n' [[b|] m']] & Hi & Hx); [|destruct Hx]. destruct Hx as [[= <- <- <-]|[]]. eauto.
  - intros (b & Hi & ->). exists (n, (Some b, m)). split; auto. now left.
Qed.

Lemma automaton_names H K n : In n (names (automaton_of H K)) -> In n (map fst K).
Proof.
  unfold names. rewrite in_map_iff. intros ([[n' m] c] & <- & Hi).
  apply automaton_In in Hi as (b & Hi & _). apply (in_map fst) in Hi. exact Hi.
Qed.

Lemma automaton_wf H K : config_ok K -> well_formed (automaton_of H K).
Proof.
  intros [ND S]. split.
  - clear S. induction K as [|[n [[b|] m]] r IH]; cbn in *; [constructor| |];
      inversion ND; subst; auto.
    constructor; auto. intros Hi. apply automaton_names in Hi. contradiction.
  - intros n t c Hi. apply automaton_In in Hi as (b & Hi & _). eauto.
Qed.

Lemma config_In (K : config) x e : config_ok K -> (assoc x K = Some e <-> In (x, e) K).
Proof.
  intros [ND _]. split; [apply assoc_In|now apply assoc_unique].
Qed.

(** ** Equivalence *)

Lemma equivalent_fixed K1 K2 a b : equivalent K1 K2 a b -> fixed K1 a /\ fixed K2 b.
Proof.
  intros (R & Hab & HR). split.
  - exists (fun x => exists y, R x y). split; eauto. intros x (y & Hxy).
    destruct (HR x y Hxy) as (base & m1 & m2 & E1 & E2 & L). exists base, m1. split; auto.
    intros local x' Hx'. specialize (L local). rewrite Hx' in L.
    destruct (assoc local m2) as [y'|]; [eauto|contradiction].
  - exists (fun y => exists x, R x y). split; eauto. intros y (x & Hxy).
    destruct (HR x y Hxy) as (base & m1 & m2 & E1 & E2 & L). exists base, m2. split; auto.
    intros local y' Hy'. specialize (L local). rewrite Hy' in L.
    destruct (assoc local m1) as [x'|]; [eauto|contradiction].
Qed.

Lemma equivalent_step K1 K2 a b : equivalent K1 K2 a b ->
  exists base m1 m2,
    assoc a K1 = Some (Some base, m1) /\ assoc b K2 = Some (Some base, m2) /\
    forall local,
      match assoc local m1, assoc local m2 with
      | Some x', Some y' => equivalent K1 K2 x' y'
      | None, None => True
      | _, _ => False
      end.
Proof.
  intros (R & Hab & HR). destruct (HR a b Hab) as (base & m1 & m2 & E1 & E2 & L).
  exists base, m1, m2. split; [|split]; auto. intros local. specialize (L local).
  destruct (assoc local m1), (assoc local m2); auto. exists R. auto.
Qed.

Lemma equivalent_sym K1 K2 a b : equivalent K1 K2 a b -> equivalent K2 K1 b a.
Proof.
  intros (R & Hab & HR). exists (fun x y => R y x). split; auto. intros x y Hxy.
  destruct (HR y x Hxy) as (base & m1 & m2 & E1 & E2 & L). exists base, m2, m1.
  split; [|split]; auto. intros local. specialize (L local).
  destruct (assoc local m1), (assoc local m2); auto.
Qed.

Lemma equivalent_trans K1 K2 K3 a b c :
  equivalent K1 K2 a b -> equivalent K2 K3 b c -> equivalent K1 K3 a c.
Proof.
  intros (R & Hab & HR) (S & Hbc & HS). exists (fun x z => exists y, R x y /\ S y z).
  split; eauto. intros x z (y & Hxy & Hyz).
  destruct (HR x y Hxy) as (base & m1 & m2 & E1 & E2 & L).
  destruct (HS y z Hyz) as (base' & m2' & m3 & E2' & E3 & L').
  rewrite E2 in E2'. injection E2' as <- <-. exists base, m1, m3. split; [|split]; auto.
  intros local. specialize (L local). specialize (L' local).
  destruct (assoc local m1), (assoc local m2), (assoc local m3); auto; try contradiction. eauto.
Qed.

Lemma equivalent_refl K a : fixed K a -> equivalent K K a a.
Proof.
  intros (P & Ha & HP). exists (fun x y => x = y /\ P x). split; auto. intros x y [<- Hx].
  destruct (HP x Hx) as (base & m & E & L). exists base, m, m. split; [|split]; auto.
  intros local. specialize (L local). destruct (assoc local m); auto.
Qed.

Lemma fixed_step K a : fixed K a -> exists base m, assoc a K = Some (Some base, m) /\
   forall local y, assoc local m = Some y -> fixed K y.
Proof.
  intros (P & Ha & HP). destruct (HP a Ha) as (base & m & E & L). exists base, m.
  split; auto. intros local y Hy. exists P. split; eauto.
Qed.

Section One.
Variable H : nat -> nat.
Variable K : config.
Hypothesis OK : config_ok K.
Hypothesis BO : bases_ok H K.
Variable d : list (nat * nat).
Hypothesis MIN : minimized (automaton_of H K) (Some d).

Let A := automaton_of H K.

Lemma u_bisim x : bisimilar A x (dedup d x).
Proof.
  destruct (minimized_spec A _ (automaton_wf H K OK) MIN) as (out & [= <-] & _ & _ & B & _).
  apply B.
Qed.

Lemma u_eq x y : dedup d x = dedup d y <-> bisimilar A x y.
Proof.
  destruct (minimized_spec A _ (automaton_wf H K OK) MIN) as (out & [= <-] & _ & _ & _ & B).
  apply B.
Qed.

Lemma u_idem x : dedup d (dedup d x) = dedup d x.
Proof. symmetry. apply u_eq, u_bisim. Qed.

(** Bisimilar repositories have the same base and bisimilar bindings. *)
Lemma transfer a x base m :
  bisimilar A a x -> assoc x K = Some (Some base, m) ->
  exists m', assoc a K = Some (Some base, m') /\
    forall local,
      match assoc local m', assoc local m with
      | Some g, Some g' => bisimilar A g g'
      | None, None => True
      | _, _ => False
      end.
Proof.
  intros B E. destruct (bisimilar_step A a x B) as [->|(ta & tb & c & Ha & Hb & L)].
  - exists m. split; auto. intros local. destruct (assoc local m); auto using bisimilar_refl.
  - apply automaton_In in Ha as (b1 & Ha & Ec1). apply automaton_In in Hb as (b2 & Hb & Ec2).
    apply (config_In K x) in E; auto.
    assert (E' : (Some b2, tb) = (Some base, m)).
    { apply (config_In K) in Hb; auto. apply (config_In K) in E; auto. congruence. }
    injection E' as -> ->.
    exists ta. split; auto. apply (config_In K); auto.
    rewrite <- (BO _ _ _ _ _ _ Ha Hb); auto. congruence.
Qed.

Lemma bisimilar_fixed_equivalent a b : fixed K a -> bisimilar A a b -> equivalent K K a b.
Proof.
  intros Fa B. exists (fun x y => fixed K x /\ bisimilar A x y). split; auto.
  intros x y [Fx Bxy].
  destruct (fixed_step K x Fx) as (base & m & E & L).
  destruct (transfer y x base m (bisimilar_sym A x y Bxy) E) as (m' & E' & L').
  exists base, m, m'. split; [|split]; auto. intros local. specialize (L' local).
  destruct (assoc local m') as [g|] eqn:E1, (assoc local m) as [g'|] eqn:E2; auto.
  split; eauto. now apply bisimilar_sym.
Qed.

Lemma equivalent_bisimilar a b : equivalent K K a b -> bisimilar A a b.
Proof.
  intros (R & Hab & HR). exists R. split; auto. intros x y Hxy. right.
  destruct (HR x y Hxy) as (base & m1 & m2 & E1 & E2 & L).
  apply (config_In K) in E1; auto. apply (config_In K) in E2; auto.
  exists m1, m2, (H base). split; [|split].
  - apply automaton_In. eauto.
  - apply automaton_In. eauto.
  - exact L.
Qed.

Lemma u_equivalent x : fixed K x -> equivalent K K x (dedup d x).
Proof. intros F. apply bisimilar_fixed_equivalent; auto. apply u_bisim. Qed.

Lemma u_fixed x : fixed K x -> fixed K (dedup d x).
Proof. intros F. apply u_equivalent, equivalent_fixed in F. apply F. Qed.

Lemma fixed_u x : fixed K (dedup d x) -> fixed K x.
Proof.
  intros F.
  assert (E : equivalent K K (dedup d x) x).
  { apply bisimilar_fixed_equivalent; auto. apply bisimilar_sym, u_bisim. }
  now apply equivalent_fixed in E.
Qed.

(** ** Runs *)

Definition remaining (s : gstate) : nat :=
  length (filter (fun n => match assoc n (g_ids s) with Some _ => false | None => true end)
                 (map fst K)).

Definition ids_le (s s' : gstate) : Prop :=
  forall x i, assoc x (g_ids s) = Some i -> assoc x (g_ids s') = Some i.

Lemma remaining_le s s' : ids_le s s' -> remaining s' <= remaining s.
Proof.
  intros L. unfold remaining. induction (map fst K) as [|n r IH]; cbn; auto.
  destruct (assoc n (g_ids s)) eqn:E.
  - rewrite (L _ _ E). exact IH.
  - destruct (assoc n (g_ids s')); cbn; lia.
Qed.

Lemma remaining_lt s s' x : ids_le s s' -> In x (map fst K) ->
  assoc x (g_ids s) = None -> assoc x (g_ids s') <> None -> remaining s' < remaining s.
Proof.
  intros L Hx E N. unfold remaining. induction (map fst K) as [|n r IH]; [destruct Hx|].
  assert (Lr : length (filter (fun n => match assoc n (g_ids s') with Some _ => false | None => true end) r) <=
               length (filter (fun n => match assoc n (g_ids s) with Some _ => false | None => true end) r)).
  { clear IH Hx. induction r as [|n' r IH]; cbn; auto. destruct (assoc n' (g_ids s)) eqn:E1.
    - rewrite (L _ _ E1). exact IH.
    - destruct (assoc n' (g_ids s')); cbn; lia. }
  cbn. destruct Hx as [->|Hx].
  - rewrite E. destruct (assoc x (g_ids s')); [cbn; lia|congruence].
  - specialize (IH Hx). destruct (assoc n (g_ids s)) eqn:E1.
    + rewrite (L _ _ E1). exact IH.
    + destruct (assoc n (g_ids s')); cbn; lia.
Qed.

Lemma remaining_init : remaining (mkG 0 [] []) <= length K.
Proof.
  unfold remaining. rewrite <- (map_length fst K).
  induction (map fst K) as [|n r IH]; cbn in *; auto. lia.
Qed.

(** An assigned repository has been entered completely. *)
Definition completed (s : gstate) (x i : nat) : Prop :=
  exists base m bs, assoc x K = Some (Some base, m) /\
    assoc i (g_graph s) = Some (base, bs) /\
    forall local,
      match assoc local m, assoc local bs with
      | Some g, Some j => assoc (dedup d g) (g_ids s) = Some j
      | None, None => True
      | _, _ => False
      end.

Record wf (s : gstate) : Prop := {
  w_ids : forall x i, assoc x (g_ids s) = Some i -> i < g_counter s;
  w_inj : forall x y i, assoc x (g_ids s) = Some i -> assoc y (g_ids s) = Some i -> x = y;
  w_canon : forall x i, assoc x (g_ids s) = Some i -> dedup d x = x;
  w_graph : forall i e, assoc i (g_graph s) = Some e -> i < g_counter s
}.

Record ext (s s' : gstate) : Prop := {
  e_ids : ids_le s s';
  e_new : forall x i, assoc x (g_ids s') = Some i ->
            assoc x (g_ids s) = Some i \/ (g_counter s <= i /\ completed s' x i);
  e_counter : g_counter s <= g_counter s';
  e_graph : forall i, i < g_counter s -> assoc i (g_graph s') = assoc i (g_graph s)
}.

Lemma completed_ext s s' x i :
  wf s -> ext s s' -> completed s x i -> completed s' x i.
Proof.
  intros W E (base & m & bs & E1 & E2 & L). exists base, m, bs. split; auto. split.
  - rewrite (e_graph _ _ E); auto. now apply (w_graph _ W) in E2.
  - intros local. specialize (L local). destruct (assoc local m), (assoc local bs); auto.
    now apply (e_ids _ _ E).
Qed.

Lemma ext_refl s : ext s s.
Proof. constructor; auto. intros x i; auto. Qed.

Lemma ext_trans s1 s2 s3 : wf s2 -> ext s1 s2 -> ext s2 s3 -> ext s1 s3.
Proof.
  intros W2 E1 E2. constructor.
  - intros x i Hx. apply (e_ids _ _ E2), (e_ids _ _ E1), Hx.
  - intros x i Hx. destruct (e_new _ _ E2 x i Hx) as [Hx'|[L C]].
    + destruct (e_new _ _ E1 x i Hx') as [|[L C]]; auto. right. split; auto.
      now apply (completed_ext s2 s3).
    + right. split; auto. pose proof (e_counter _ _ E1). lia.
  - pose proof (e_counter _ _ E1). pose proof (e_counter _ _ E2). lia.
  - intros i Hi. pose proof (e_counter _ _ E1). rewrite (e_graph _ _ E2), (e_graph _ _ E1); auto. lia.
Qed.

Definition good_run (go : gstate -> nat -> res nat) : Prop :=
  forall s r s' i, wf s -> go s r = Done s' i ->
    wf s' /\ ext s s' /\ assoc (dedup d r) (g_ids s') = Some i.

Lemma bind_all_good go : good_run go -> forall m s s' bs,
  wf s -> bind_all go s m = Done s' bs ->
  wf s' /\ ext s s' /\ map fst bs = map fst m /\
  forall local,
    match assoc local m, assoc local bs with
    | Some g, Some j => assoc (dedup d g) (g_ids s') = Some j
    | None, None => True
    | _, _ => False
    end.
Proof.
  intros G. induction m as [|[l g] r IH]; intros s s' bs W E; cbn in E.
  - injection E as <- <-. split; auto. split; [apply ext_refl|]. split; auto. cbn. auto.
  - destruct (go s g) as [| |s1 i] eqn:Eg; try discriminate.
    destruct (bind_all go s1 r) as [| |s2 bs'] eqn:Er; try discriminate. injection E as <- <-.
    destruct (G _ _ _ _ W Eg) as (W1 & E1 & I1).
    destruct (IH _ _ _ W1 Er) as (W2 & E2 & M2 & L2).
    split; auto. split; [exact (ext_trans _ _ _ W1 E1 E2)|]. split; [cbn; f_equal; exact M2|].
    intros local. cbn. destruct (local =? l); [|apply L2].
    now apply (e_ids _ _ E2).
Qed.

Lemma assoc_snoc (l : list (nat * nat)) x i y :
  assoc x l = None ->
  assoc y (l ++ [(x, i)]) = if y =? x then Some i else assoc y l.
Proof.
  intros E. rewrite assoc_app. cbn. destruct (Nat.eqb_spec y x) as [->|N].
  - now rewrite E.
  - destruct (assoc y l); auto.
Qed.

Lemma add_good f : good_run (add_to_graph f K d).
Proof.
  induction f as [|f IH]; intros s r s' i W E; cbn [add_to_graph] in E; [discriminate|].
  set (x := dedup d r) in *.
  destruct (assoc x (g_ids s)) as [i0|] eqn:Ex.
  { injection E as <- <-. split; auto. split; [apply ext_refl|auto]. }
  destruct (assoc x K) as [[[base|] m]|] eqn:EK; try discriminate.
  set (s1 := mkG (S (g_counter s)) (g_ids s ++ [(x, g_counter s)]) (g_graph s)) in *.
  destruct (bind_all (add_to_graph f K d) s1 m) as [| |s2 bs] eqn:Eb; try discriminate.
  injection E as <- <-.
  assert (W1 : wf s1).
  { constructor; cbn [s1 g_ids g_counter g_graph].
    - intros y j. rewrite assoc_snoc by auto. destruct (Nat.eqb_spec y x); [intros [= <-]; lia|].
      intros Hy. apply (w_ids _ W) in Hy. lia.
    - intros y z j. rewrite !assoc_snoc by auto.
      destruct (Nat.eqb_spec y x), (Nat.eqb_spec z x); subst; auto.
      + intros [= <-] Hz. apply (w_ids _ W) in Hz. lia.
      + intros Hy [= <-]. apply (w_ids _ W) in Hy. lia.
      + apply (w_inj _ W).
    - intros y j. rewrite assoc_snoc by auto. destruct (Nat.eqb_spec y x); [|apply (w_canon _ W)].
      intros _. subst y. unfold x. apply u_idem.
    - intros j e Hj. apply (w_graph _ W) in Hj. lia. }
  destruct (bind_all_good _ IH _ _ _ _ W1 Eb) as (W2 & E2 & M2 & L2).
  set (s3 := mkG (g_counter s2) (g_ids s2) ((g_counter s, (base, bs)) :: g_graph s2)).
  assert (X1 : assoc x (g_ids s1) = Some (g_counter s)).
  { cbn [s1 g_ids]. rewrite assoc_snoc by auto. now rewrite Nat.eqb_refl. }
  pose proof (e_ids _ _ E2 _ _ X1) as X2.
  assert (C3 : g_counter s < g_counter s2).
  { pose proof (e_counter _ _ E2) as C. cbn [s1 g_counter] in C. lia. }
  split; [|split].
  - constructor; cbn [s3 g_ids g_counter g_graph].
    + apply (w_ids _ W2). + apply (w_inj _ W2). + apply (w_canon _ W2).
    + intros j e Hj. cbn in Hj. destruct (Nat.eqb_spec j (g_counter s)); [lia|].
      now apply (w_graph _ W2) in Hj.
  - assert (Ct : forall y j, j <> g_counter s -> completed s2 y j -> completed s3 y j).
    { intros y j N (b' & m' & bs' & K1 & K2 & K3). exists b', m', bs'. split; auto. split; auto.
      cbn. destruct (Nat.eqb_spec j (g_counter s)); [lia|auto]. }
    constructor.
    + intros y j Hy. cbn. apply (e_ids _ _ E2). cbn [s1 g_ids]. rewrite assoc_snoc by auto.
      destruct (Nat.eqb_spec y x); [congruence|auto].
    + intros y j Hy. cbn [s3 g_ids] in Hy. destruct (e_new _ _ E2 y j Hy) as [Hy'|[L C]].
      * cbn [s1 g_ids] in Hy'. rewrite assoc_snoc in Hy' by auto.
        destruct (Nat.eqb_spec y x) as [->|N]; auto. injection Hy' as <-. right. split; auto.
        exists base, m, bs. split; auto. split; [cbn; now rewrite Nat.eqb_refl|exact L2].
      * cbn [s1 g_counter] in L. right. split; [lia|]. apply Ct; auto. lia.
    + cbn. lia.
    + intros j Hj. cbn. destruct (Nat.eqb_spec j (g_counter s)); [lia|].
      rewrite (e_graph _ _ E2); auto. cbn. lia.
  - exact X2.
Qed.

Lemma wf_init : wf (mkG 0 [] []).
Proof. constructor; cbn; discriminate. Qed.

(** After a successful run every id is completed. *)
Lemma run_completed f r s i :
  add_to_graph f K d (mkG 0 [] []) r = Done s i ->
  wf s /\ assoc (dedup d r) (g_ids s) = Some i /\
  forall x j, assoc x (g_ids s) = Some j -> completed s x j.
Proof.
  intros E. destruct (add_good f _ _ _ _ wf_init E) as (W & X & I).
  split; auto. split; auto. intros x j Hx.
  destruct (e_new _ _ X x j Hx) as [Hx'|[_ C]]; auto. discriminate.
Qed.

(** Whatever has a key is fixed. *)
Lemma run_fixed f r s i : add_to_graph f K d (mkG 0 [] []) r = Done s i -> fixed K r.
Proof.
  intros E. destruct (run_completed f r s i E) as (W & I & C).
  exists (fun x => exists j, assoc (dedup d x) (g_ids s) = Some j). split; eauto.
  intros x (j & Hj). destruct (C _ _ Hj) as (base & m & bs & EK & _ & L).
  destruct (transfer x (dedup d x) base m (u_bisim x) EK) as (m' & E' & L').
  exists base, m'. split; auto. intros local y Hy. specialize (L' local). rewrite Hy in L'.
  destruct (assoc local m) as [g'|] eqn:Em; [|contradiction].
  specialize (L local). rewrite Em in L. destruct (assoc local bs) as [jj|]; [|contradiction].
  exists jj. apply u_eq in L'. now rewrite L'.
Qed.

(** Fixed repositories do not abort, and the recursion is deep enough. *)
Lemma run_total f : forall s r, wf s -> remaining s < f -> fixed K r ->
  exists s' i, add_to_graph f K d s r = Done s' i.
Proof.
  induction f as [|f IH]; intros s r W L F; [lia|]. cbn [add_to_graph].
  set (x := dedup d r) in *.
  destruct (assoc x (g_ids s)) as [i0|] eqn:Ex; [eauto|].
  destruct (fixed_step K x (u_fixed r F)) as (base & m & EK & Fm). rewrite EK.
  set (s1 := mkG (S (g_counter s)) (g_ids s ++ [(x, g_counter s)]) (g_graph s)).
  assert (W1 : wf s1).
  { constructor; cbn [s1 g_ids g_counter g_graph].
    - intros y j. rewrite assoc_snoc by auto. destruct (Nat.eqb_spec y x); [intros [= <-]; lia|].
      intros Hy. apply (w_ids _ W) in Hy. lia.
    - intros y z j. rewrite !assoc_snoc by auto.
      destruct (Nat.eqb_spec y x), (Nat.eqb_spec z x); subst; auto.
      + intros [= <-] Hz. apply (w_ids _ W) in Hz. lia.
      + intros Hy [= <-]. apply (w_ids _ W) in Hy. lia.
      + apply (w_inj _ W).
    - intros y j. rewrite assoc_snoc by auto. destruct (Nat.eqb_spec y x); [|apply (w_canon _ W)].
      intros _. subst y. unfold x. apply u_idem.
    - intros j e Hj. apply (w_graph _ W) in Hj. lia. }
  assert (R1 : remaining s1 < remaining s).
  { apply remaining_lt with x; auto.
    - intros y j Hy. cbn. rewrite assoc_snoc by auto. destruct (Nat.eqb_spec y x); [congruence|auto].
    - now apply assoc_dom in EK.
    - cbn. rewrite assoc_snoc by auto. now rewrite Nat.eqb_refl. }
  assert (G : forall m' s0, wf s0 -> remaining s0 <= remaining s1 ->
             (forall l y, In (l, y) m' -> fixed K y) ->
             exists s2 bs, bind_all (add_to_graph f K d) s0 m' = Done s2 bs).
  { induction m' as [|[l g] m' IHm]; intros s0 W0 R0 F0; cbn; [eauto|].
    destruct (IH s0 g W0) as (sa & ia & Ea); [lia|apply (F0 l); now left|]. rewrite Ea.
    destruct (add_good f _ _ _ _ W0 Ea) as (Wa & Xa & _).
    destruct (IHm sa) as (s2 & bs & ->); auto.
    - pose proof (remaining_le _ _ (e_ids _ _ Xa)). lia.
    - intros l' y Hy. apply (F0 l'). now right.
    - eauto. }
  destruct (G m s1 W1 (le_n _)) as (s2 & bs & ->); [|eauto].
  intros l y Hy. apply (Fm l). apply assoc_unique; auto.
  apply (config_In K) in EK; auto. destruct OK as [_ S].
  specialize (S _ _ _ EK). clear - S. induction (map fst m) as [|a r IH]; [constructor|].
  inversion S; subst. constructor; auto. intros Hi. rewrite Forall_forall in H2.
  specialize (H2 _ Hi). lia.
Qed.

End One.

(** ** Fuel *)

Lemma add_more K d f : forall s r,
  (forall k, add_to_graph f K d s r <> NoFuel -> add_to_graph (f + k) K d s r = add_to_graph f K d s r).
Proof.
  induction f as [|f IH]; intros s r k N; cbn [add_to_graph] in *; [congruence|].
  cbn [Nat.add add_to_graph].
  destruct (assoc (dedup d r) (g_ids s)); auto.
  destruct (assoc (dedup d r) K) as [[[base|] m]|]; auto.
  set (s1 := mkG _ _ _) in *.
  assert (G : forall m' s0, bind_all (add_to_graph f K d) s0 m' <> NoFuel ->
     bind_all (add_to_graph (f + k) K d) s0 m' = bind_all (add_to_graph f K d) s0 m').
  { induction m' as [|[l g] m' IHm]; intros s0 N0; cbn in *; auto.
    destruct (add_to_graph f K d s0 g) as [| |sa ia] eqn:Ea.
    - congruence.
    - rewrite IH by congruence. now rewrite Ea.
    - rewrite IH by congruence. rewrite Ea. rewrite IHm; auto.
      intros E. rewrite E in N0. congruence. }
  rewrite G; auto. intros E. rewrite E in N. congruence.
Qed.

(** ** Two configurations in lockstep *)

Section Two.
Variable H : nat -> nat.
Variables K1 K2 : config.
Hypothesis OK1 : config_ok K1.
Hypothesis OK2 : config_ok K2.
Hypothesis BO1 : bases_ok H K1.
Hypothesis BO2 : bases_ok H K2.
Variables d1 d2 : list (nat * nat).
Hypothesis MIN1 : minimized (automaton_of H K1) (Some d1).
Hypothesis MIN2 : minimized (automaton_of H K2) (Some d2).

(** The same canonical repository, in both configurations. *)
Definition twin (e1 e2 : nat * nat) : Prop :=
  snd e1 = snd e2 /\ equivalent K1 K2 (fst e1) (fst e2) /\
  dedup d1 (fst e1) = fst e1 /\ dedup d2 (fst e2) = fst e2.

Record related (s1 s2 : gstate) : Prop := {
  r_counter : g_counter s1 = g_counter s2;
  r_ids : Forall2 twin (g_ids s1) (g_ids s2);
  r_graph : g_graph s1 = g_graph s2
}.

Lemma equivalent_u r1 r2 :
  equivalent K1 K2 r1 r2 -> equivalent K1 K2 (dedup d1 r1) (dedup d2 r2).
Proof.
  intros E. destruct (equivalent_fixed _ _ _ _ E) as [F1 F2].
  apply equivalent_trans with K1 r1.
  - apply equivalent_sym. apply (u_equivalent H); auto.
  - apply equivalent_trans with K2 r2; auto. apply (u_equivalent H); auto.
Qed.

Lemma twin_lookup l1 l2 r1 r2 :
  Forall2 twin l1 l2 -> equivalent K1 K2 r1 r2 ->
  assoc (dedup d1 r1) l1 = assoc (dedup d2 r2) l2.
Proof.
  intros F E. induction F as [|[x i] [y j] r r' (Ei & Exy & Cx & Cy) F IH]; cbn; auto.
  cbn in *. subst j.
  assert (Q : dedup d1 r1 = x <-> dedup d2 r2 = y).
  { split; intros Q.
    - rewrite <- Cy. apply (u_eq H K2 OK2 d2 MIN2). apply (equivalent_bisimilar H K2 OK2).
      apply equivalent_trans with K1 r1; [now apply equivalent_sym|].
      apply equivalent_trans with K1 x; auto.
      rewrite <- Q. apply (u_equivalent H); auto. now apply equivalent_fixed in E.
    - rewrite <- Cx. apply (u_eq H K1 OK1 d1 MIN1). apply (equivalent_bisimilar H K1 OK1).
      apply equivalent_trans with K2 r2; auto.
      apply equivalent_trans with K2 y; [|now apply equivalent_sym].
      rewrite <- Q. apply (u_equivalent H); auto. now apply equivalent_fixed in E. }
  destruct (Nat.eqb_spec (dedup d1 r1) x), (Nat.eqb_spec (dedup d2 r2) y); auto; tauto.
Qed.

Definition match_res {A} (a b : res A) : Prop :=
  match a, b with
  | NoFuel, NoFuel => True
  | Abort, Abort => True
  | Done s v, Done s' v' => related s s' /\ v = v'
  | _, _ => False
  end.

Lemma mapping_zip m1 m2 :
  StronglySorted lt (map fst m1) -> StronglySorted lt (map fst m2) ->
  (forall local,
      match assoc local m1, assoc local m2 with
      | Some x', Some y' => equivalent K1 K2 x' y'
      | None, None => True
      | _, _ => False
      end) ->
  Forall2 (fun e1 e2 => fst e1 = fst e2 /\ equivalent K1 K2 (snd e1) (snd e2)) m1 m2.
Proof.
  intros S1 S2 L.
  assert (E : map fst m1 = map fst m2).
  { apply sorted_ext; auto. intros x. specialize (L x).
    destruct (assoc x m1) eqn:E1, (assoc x m2) eqn:E2; try contradiction.
    - apply assoc_dom in E1. apply assoc_dom in E2. tauto.
    - apply assoc_None in E1. apply assoc_None in E2. tauto. }
  clear S2. revert m2 L E. induction m1 as [|[l x] m1 IH]; intros [|[l' y] m2] L E; try discriminate; constructor.
  - cbn in E. injection E as <- E. specialize (L l). cbn in L. rewrite Nat.eqb_refl in L. auto.
  - cbn in E. injection E as <- E. cbn in S1. inversion S1; subst. apply IH; auto.
    intros local. destruct (Nat.eq_dec local l) as [->|N].
    + rewrite Forall_forall in H3.
      rewrite (proj2 (assoc_None l m1)), (proj2 (assoc_None l m2)); auto.
      * rewrite <- E. intros Hi. specialize (H3 _ Hi). lia.
      * intros Hi. specialize (H3 _ Hi). lia.
    + specialize (L local). cbn in L. apply Nat.eqb_neq in N. now rewrite N in L.
Qed.

Lemma lockstep f : forall s1 s2 r1 r2,
  related s1 s2 -> equivalent K1 K2 r1 r2 ->
  match_res (add_to_graph f K1 d1 s1 r1) (add_to_graph f K2 d2 s2 r2).
Proof.
  induction f as [|f IH]; intros s1 s2 r1 r2 R E; cbn [add_to_graph]; [exact I|].
  rewrite (twin_lookup _ _ _ _ (r_ids _ _ R) E).
  destruct (assoc (dedup d2 r2) (g_ids s2)) eqn:E2; [split; auto|].
  pose proof (equivalent_u _ _ E) as Eu.
  destruct (equivalent_step _ _ _ _ Eu) as (base & m1 & m2 & Ek1 & Ek2 & L).
  rewrite Ek1, Ek2. rewrite (r_counter _ _ R).
  set (sa := mkG _ (g_ids s1 ++ _) _). set (sb := mkG _ (g_ids s2 ++ _) _).
  assert (Rab : related sa sb).
  { constructor; cbn; auto; [|apply R]. apply Forall2_app; [apply R|]. constructor; [|constructor].
    split; [|split; [|split]]; auto.
    - apply (u_idem H K1); auto.
    - apply (u_idem H K2); auto. }
  assert (Z : Forall2 (fun e1 e2 => fst e1 = fst e2 /\ equivalent K1 K2 (snd e1) (snd e2)) m1 m2).
  { apply mapping_zip; auto.
    - destruct OK1 as [_ S]. apply (config_In K1) in Ek1; auto. eauto.
    - destruct OK2 as [_ S]. apply (config_In K2) in Ek2; auto. eauto. }
  assert (G : forall sx sy, related sx sy ->
     match_res (bind_all (add_to_graph f K1 d1) sx m1) (bind_all (add_to_graph f K2 d2) sy m2)).
  { clear - IH Z. induction Z as [|[l x] [l' y] m1 m2 [El Exy] Z IHz]; intros sx sy Rxy; cbn.
    - split; auto.
    - cbn in El, Exy. subst l'. pose proof (IH sx sy x y Rxy Exy) as M.
      destruct (add_to_graph f K1 d1 sx x) as [| |sx' ix], (add_to_graph f K2 d2 sy y) as [| |sy' iy];
        cbn in M; try contradiction; auto.
      destruct M as [M <-]. pose proof (IHz sx' sy' M) as M'.
      destruct (bind_all (add_to_graph f K1 d1) sx' m1) as [| |s3 b3],
               (bind_all (add_to_graph f K2 d2) sy' m2) as [| |s4 b4];
        cbn in M'; try contradiction; auto.
      destruct M' as [M' <-]. split; auto. }
  pose proof (G sa sb Rab) as M.
  destruct (bind_all (add_to_graph f K1 d1) sa m1) as [| |s3 b3],
           (bind_all (add_to_graph f K2 d2) sb m2) as [| |s4 b4];
    cbn in M; try contradiction; auto.
  destruct M as [M <-]. cbn. split; auto. constructor; cbn; try apply M.
  f_equal. apply M.
Qed.

Lemma related_init : related (mkG 0 [] []) (mkG 0 [] []).
Proof. constructor; cbn; auto. Qed.

(** Equivalent repositories have the same graph. *)
Lemma equivalent_same_graph r1 r2 :
  equivalent K1 K2 r1 r2 ->
  exists s1 s2 g, build_graph (S (length K1)) K1 d1 r1 = Done s1 g /\
                  build_graph (S (length K2)) K2 d2 r2 = Done s2 g.
Proof.
  intros E. destruct (equivalent_fixed _ _ _ _ E) as [F1 F2].
  destruct (run_total H K1 OK1 BO1 d1 MIN1 (S (length K1)) (mkG 0 [] []) r1) as (s1 & i1 & E1).
  { apply wf_init. } { pose proof (remaining_init K1). lia. } { auto. }
  destruct (run_total H K2 OK2 BO2 d2 MIN2 (S (length K2)) (mkG 0 [] []) r2) as (s2 & i2 & E2).
  { apply wf_init. } { pose proof (remaining_init K2). lia. } { auto. }
  pose proof (lockstep (S (length K1) + S (length K2)) _ _ r1 r2 related_init E) as M.
  rewrite (add_more K1 d1 (S (length K1))) in M by congruence.
  rewrite Nat.add_comm in M. rewrite (add_more K2 d2 (S (length K2))) in M by congruence.
  rewrite E1, E2 in M. destruct M as [M _].
  exists s1, s2, (g_graph s1). unfold build_graph. rewrite E1, E2, (r_graph _ _ M). auto.
Qed.

(** The same graph means equivalence. *)
Lemma same_graph_equivalent f1 f2 r1 r2 s1 s2 g1 g2 :
  build_graph f1 K1 d1 r1 = Done s1 g1 -> build_graph f2 K2 d2 r2 = Done s2 g2 ->
  same_graph g1 g2 -> equivalent K1 K2 r1 r2.
Proof.
  unfold build_graph. intros B1 B2 G.
  destruct (add_to_graph f1 K1 d1 _ r1) as [| |t1 i1] eqn:E1; try discriminate. injection B1 as <- <-.
  destruct (add_to_graph f2 K2 d2 _ r2) as [| |t2 i2] eqn:E2; try discriminate. injection B2 as <- <-.
  destruct (run_completed H K1 OK1 d1 MIN1 _ _ _ _ E1) as (W1 & I1 & C1).
  destruct (run_completed H K2 OK2 d2 MIN2 _ _ _ _ E2) as (W2 & I2 & C2).
  exists (fun x y => exists i, assoc (dedup d1 x) (g_ids t1) = Some i /\
                               assoc (dedup d2 y) (g_ids t2) = Some i).
  split.
  - assert (Z : forall K d f r s i, add_to_graph (S f) K d (mkG 0 [] []) r = Done s i -> i = 0).
    { intros K d f r s i E. cbn in E. destruct (assoc (dedup d r) K) as [[[b|] m]|]; try discriminate.
      destruct (bind_all _ _ _); try discriminate. congruence. }
    destruct f1 as [|f1]; [discriminate|]. destruct f2 as [|f2]; [discriminate|].
    apply Z in E1 as ->. apply Z in E2 as ->. eauto.
  - intros x y (i & Hx & Hy).
    destruct (C1 _ _ Hx) as (b1 & m1 & bs1 & Ek1 & Eg1 & L1).
    destruct (C2 _ _ Hy) as (b2 & m2 & bs2 & Ek2 & Eg2 & L2).
    rewrite G in Eg1. rewrite Eg1 in Eg2. injection Eg2 as <- <-.
    destruct (transfer H K1 OK1 BO1 x _ _ _ (u_bisim H K1 OK1 d1 MIN1 x) Ek1) as (m1' & Ex & T1).
    destruct (transfer H K2 OK2 BO2 y _ _ _ (u_bisim H K2 OK2 d2 MIN2 y) Ek2) as (m2' & Ey & T2).
    exists b1, m1', m2'. split; [|split]; auto. intros local.
    specialize (L1 local). specialize (L2 local). specialize (T1 local). specialize (T2 local).
    destruct (assoc local m1') as [x'|], (assoc local m1) as [x''|]; try contradiction;
      destruct (assoc local m2') as [y'|], (assoc local m2) as [y''|]; try contradiction;
      destruct (assoc local bs1) as [j|]; try contradiction; auto.
    exists j. apply (u_eq H K1 OK1 d1 MIN1) in T1. apply (u_eq H K2 OK2 d2 MIN2) in T2.
    rewrite T1, T2. auto.
Qed.

End Two.
