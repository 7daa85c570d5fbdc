From Coq Require Import String Ascii List Bool NArith ZArith SpecFloat Lia.
From Verif Require Import Common.Strs Hex.Model Expr.Json Expr.Model Describe.Model Describe.Spec Describe.Proofs.
From Verif Require Import Result.Model Result.Spec Result.Proofs.
Import ListNotations.
Local Open Scope string_scope.
Local Open Scope list_scope.

Lemma mem_In x l : mem x l = true <-> In x l.
Proof.
  unfold mem. rewrite existsb_exists. split.
  - intros (y & Hy & E). apply String.eqb_eq in E. now subst.
  - intros Hx. exists x. split; auto. apply String.eqb_refl.
Qed.

Lemma some_inj {A} (x y : A) : Some x = Some y -> x = y.
Proof. congruence. Qed.

Section P.
Variable ndump : num -> string.
Variable H : string -> string.
Variable u64_of_num : num -> N.
Variable t : hash_type.
Variable r : replacements.
Hypothesis r_ok : replacements_ok t r.

Local Notation vid := (vid ndump H).
Local Notation ser := (ser ndump H r).
Local Notation rebuild := (rebuild ndump H r).

Lemma find_replacement_in a i : find_replacement ndump H r a = Some i -> exists b, In (b, i) r.
Proof.
  clear -r. induction r as [|[b j] q IH]; cbn; [discriminate|].
  destruct (art_eqb ndump H a b).
  - intros E; injection E as <-. exists b. auto.
  - intros E. destruct (IH E) as [b' Hb]. exists b'. auto.
Qed.

Lemma art_layer a j : artifact_ok t a -> ser_artifact ndump H r (VArt a) = Some j ->
  art_FromJson u64_of_num t j = Some (known_form ndump H r a) /\ exists m, j = JObj m.
Proof.
  unfold ser_artifact, known_form. intros Ha. destruct r as [|x r'] eqn:Er.
  - intros E; injection E as <-. cbn. split; [now apply art_roundtrip|]. destruct a; cbn; eauto.
  - rewrite <- Er in *. destruct (is_known a).
    + intros E; injection E as <-. cbn. split; [now apply art_roundtrip|]. destruct a; cbn; eauto.
    + destruct (find_replacement ndump H r a) as [i|] eqn:F; [|discriminate].
      intros E. apply some_inj in E. subst j. split; [|cbn; eauto].
      rewrite (art_roundtrip u64_of_num t (AKnown (i_digest i) (i_type i) None)); auto.
      apply find_replacement_in in F. destruct F as [b Hb].
      pose proof (proj1 (Forall_forall _ _) r_ok _ Hb) as K. exact K.
Qed.

Section W.
Variable W : value -> Prop.
Hypothesis Wmembers : forall v w, W v -> In w (members v) -> W w.
Hypothesis Wdistinct : forall u w, W u -> W w -> vid u = vid w -> u = w.
Hypothesis Wstorable : forall u, W u ->
  match u with VName _ => False | VResult _ _ _ c => c = true | VArt a => artifact_ok t a | _ => True end.

Variable c : collected.
Hypothesis I : Inv ndump H r W c.

Local Notation rd := (des u64_of_num t (nodes c) (provided_artifacts c) (provided_nodes c) (provided_results c)).

(** The memo holds the right values. *)
Definition good (s : memo) : Prop :=
  forall id v, alookup id s = Some v -> forall u, W u -> vid u = id -> v = rebuild u.

Lemma good_nil : good [].
Proof. intros id v E. discriminate. Qed.

Lemma good_cons s u : good s -> W u -> good ((vid u, rebuild u) :: s).
Proof.
  intros G Wu id v. cbn. destruct (String.eqb_spec id (vid u)) as [->|].
  - intros E w Ww Ew. injection E as <-. now rewrite (Wdistinct w u Ww Wu Ew).
  - intros E. now apply (G id v).
Qed.

(** Reading the value stored under a hash. *)
Definition reads (u : value) : Prop := exists n, forall m, n <= m -> forall s, good s ->
  exists s', rd m (vid u) s = Some (rebuild u, s') /\ good s'.

Lemma kind_unique u w : W u -> W w -> vid u = vid w -> is_art u = is_art w /\ is_node u = is_node w /\ is_res u = is_res w.
Proof. intros Wu Ww E. now rewrite (Wdistinct u w Wu Ww E). Qed.

Lemma mem_art u : W u -> is_art u = false -> mem (vid u) (provided_artifacts c) = false.
Proof.
  intros Wu K. destruct (mem (vid u) (provided_artifacts c)) eqn:M; auto. apply mem_In in M.
  destruct (inv_arts _ _ _ _ _ I _ M) as (w & Ww & Ew & Kw). destruct (kind_unique w u Ww Wu Ew) as (? & _). congruence.
Qed.
Lemma mem_node u : W u -> is_node u = false -> mem (vid u) (provided_nodes c) = false.
Proof.
  intros Wu K. destruct (mem (vid u) (provided_nodes c)) eqn:M; auto. apply mem_In in M.
  destruct (inv_pnodes _ _ _ _ _ I _ M) as (w & Ww & Ew & Kw). destruct (kind_unique w u Ww Wu Ew) as (_ & ? & _). congruence.
Qed.
Lemma mem_res u : W u -> is_res u = false -> mem (vid u) (provided_results c) = false.
Proof.
  intros Wu K. destruct (mem (vid u) (provided_results c)) eqn:M; auto. apply mem_In in M.
  destruct (inv_press _ _ _ _ _ I _ M) as (w & Ww & Ew & Kw). destruct (kind_unique w u Ww Wu Ew) as (_ & _ & ?). congruence.
Qed.

Lemma des_list_ok l : Forall reads l -> exists n, forall m, n <= m -> forall s, good s ->
  exists s', des_list (rd m) (map (fun x => JStr (vid x)) l) s = Some (map rebuild l, s') /\ good s'.
Proof.
  induction 1 as [|v l [n1 Hv] _ [n2 IH]].
  - exists 0. intros m _ s G. exists s. auto.
  - exists (max n1 n2). intros m Hm s G.
    destruct (Hv m ltac:(lia) s G) as (s1 & E1 & G1). destruct (IH m ltac:(lia) s1 G1) as (s2 & E2 & G2).
    exists s2. cbn [map des_list as_string obind]. rewrite E1. cbn [obind snd fst]. rewrite E2. auto.
Qed.

Lemma des_map_ok m0 : Forall reads (map snd m0) -> exists n, forall m, n <= m -> forall s, good s ->
  exists s', des_map (rd m) (map (fun p => match p with (k, x) => (k, JStr (vid x)) end) m0) s =
    Some (map (fun p => match p with (k, x) => (k, rebuild x) end) m0, s') /\ good s'.
Proof.
  induction m0 as [|[k v] l IHl]; intros F.
  - exists 0. intros m _ s G. exists s. auto.
  - cbn in F. inversion F as [|? ? [n1 Hv] F']; subst. destruct (IHl F') as [n2 IH].
    exists (max n1 n2). intros m Hm s G.
    destruct (Hv m ltac:(lia) s G) as (s1 & E1 & G1). destruct (IH m ltac:(lia) s1 G1) as (s2 & E2 & G2).
    exists s2. cbn [map des_map as_string obind]. rewrite E1. cbn [obind snd fst]. rewrite E2. auto.
Qed.

Ltac two := match goal with |- exists s', remember ?id (?v, ?s) = Some (?v', s') /\ good s' =>
  exists ((id, v) :: s); split; [reflexivity|] end.

Lemma rd_ok u : W u -> has c (vid u) -> reads u.
Proof.
  induction u as [u IH] using value_ind'. intros Wu Hu. unfold has in Hu.
  destruct (alookup (vid u) (nodes c)) as [j|] eqn:L; [clear Hu|congruence].
  destruct (inv_nodes _ _ _ _ _ I _ _ L) as (u' & Wu' & Eu' & K).
  assert (u' = u) by (apply Wdistinct; auto). subst u'. clear Eu' Wu'.
  destruct K as (Ly & Mm & KA & KN & KR).
  assert (FR : Forall reads (members u)).
  { rewrite Forall_forall in IH |- *. intros w Hw. apply IH; auto. now apply (Wmembers u). }
  assert (GC : forall s, good s -> good ((vid u, rebuild u) :: s)) by (intros; now apply good_cons).
  (* the memo may know the value already *)
  assert (START : forall n, (forall m, n <= m -> forall s, good s -> alookup (vid u) s = None ->
            exists s', rd (S m) (vid u) s = Some (rebuild u, s') /\ good s') -> reads u).
  { intros n Hn. exists (S n). intros [|m] Hm s G; [lia|].
    destruct (alookup (vid u) s) as [v|] eqn:A.
    - exists s. cbn [des]. rewrite A. rewrite (G _ _ A u Wu eq_refl). auto.
    - apply Hn; auto. lia. }
  pose proof (Wstorable u Wu) as ST.
  destruct u as [|b|n|s|j0|a|st p f cb|w|nt sf tf|l|m0]; cbn [layer] in Ly;
    try (cbn in Ly; injection Ly as <-; apply (START 0); intros m _ s' G A;
         eexists; cbn [des]; rewrite A, L; split; [reflexivity|]; now apply GC).
  - contradiction.
  - (* artifact *)
    destruct (art_layer a j ST Ly) as [FJ [m Ej]]. subst j.
    apply (START 0). intros k _ s G A. eexists. cbn [des]. rewrite A, L.
    assert (M : mem (vid (VArt a)) (provided_artifacts c) = true) by (apply mem_In; auto).
    rewrite M, FJ. split; [reflexivity|]. now apply GC.
  - (* result *)
    injection Ly as <-. cbn [members] in FR. inversion FR as [|? ? [n1 R1] FR1]; subst.
    inversion FR1 as [|? ? [n2 R2] FR2]; subst. inversion FR2 as [|? ? [n3 R3] _]; subst.
    apply (START (max n1 (max n2 n3))). intros m Hm s G A.
    destruct (R1 m ltac:(lia) s G) as (s1 & E1 & G1). destruct (R3 m ltac:(lia) s1 G1) as (s2 & E2 & G2).
    destruct (R2 m ltac:(lia) s2 G2) as (s3 & E3 & G3). exists s3. split; [|exact G3].
    cbn [des]. rewrite A, L. rewrite mem_art, mem_node by auto.
    assert (M : mem (vid (VResult st p f true)) (provided_results c) = true) by (apply mem_In; auto).
    rewrite M. unfold jfind. cbn [alookup String.eqb Ascii.eqb Bool.eqb obind as_string].
    rewrite E1. cbn [obind fst snd]. rewrite E2. cbn [obind fst snd]. rewrite E3. reflexivity.
  - (* value node *)
    injection Ly as <-. cbn [members] in FR. inversion FR as [|? ? [n1 R1] _]; subst.
    apply (START n1). intros m Hm s G A. destruct (R1 m Hm s G) as (s1 & E1 & G1).
    eexists. cbn [des]. rewrite A, L. rewrite mem_art by auto.
    assert (M : mem (vid (VNodeValue w)) (provided_nodes c) = true) by (apply mem_In; auto).
    rewrite M. unfold jfind. cbn [alookup String.eqb Ascii.eqb Bool.eqb obind as_string].
    rewrite E1. cbn [obind fst snd]. split; [reflexivity|]. now apply GC.
  - (* abstract node *)
    injection Ly as <-. cbn [members] in FR. inversion FR as [|? ? [n1 R1] FR1]; subst.
    inversion FR1 as [|? ? [n2 R2] _]; subst.
    apply (START (max n1 n2)). intros m Hm s G A.
    destruct (R2 m ltac:(lia) s G) as (s1 & E1 & G1). destruct (R1 m ltac:(lia) s1 G1) as (s2 & E2 & G2).
    eexists. cbn [des]. rewrite A, L. rewrite mem_art by auto.
    assert (M : mem (vid (VNodeAbstract nt sf tf)) (provided_nodes c) = true) by (apply mem_In; auto).
    rewrite M. unfold extract_string, jfind. cbn [alookup String.eqb Ascii.eqb Bool.eqb obind as_string].
    rewrite E1. cbn [obind fst snd]. rewrite E2. cbn [obind fst snd]. split; [reflexivity|]. now apply GC.
  - (* list *)
    injection Ly as <-. cbn [members] in FR. destruct (des_list_ok l FR) as [n R].
    apply (START n). intros m Hm s G A. destruct (R m Hm s G) as (s1 & E1 & G1).
    eexists. cbn [des]. rewrite A, L, E1. cbn [obind fst snd]. split; [reflexivity|]. now apply GC.
  - (* map *)
    injection Ly as <-. cbn [members] in FR. destruct (des_map_ok m0 FR) as [n R].
    apply (START n). intros m Hm s G A. destruct (R m Hm s G) as (s1 & E1 & G1).
    eexists. cbn [des]. rewrite A, L. rewrite mem_art, mem_node, mem_res by auto. rewrite E1. cbn [obind fst snd].
    split; [reflexivity|]. now apply GC.
Qed.
End W.

(** ** Writing succeeds if all artifacts have a replacement *)
Definition writable (v : value) : Prop := forall a, part (VArt a) v -> ser_artifact ndump H r (VArt a) <> None.

Lemma ser_list_total l : Forall (fun v => forall c, exists x, ser v c = Some x) l -> forall c, exists x, ser_list ser l c = Some x.
Proof.
  induction 1 as [|v l Hv _ IH]; intros c; cbn; [eauto|].
  destruct (Hv c) as [x ->]. cbn [obind]. destruct (IH (snd x)) as [y ->]. cbn. eauto.
Qed.
Lemma ser_map_total m : Forall (fun v => forall c, exists x, ser v c = Some x) (map snd m) -> forall c, exists x, ser_map ser m c = Some x.
Proof.
  induction m as [|[k v] m IH]; intros F c; cbn; [eauto|]. cbn in F. inversion F as [|? ? Hv F']; subst.
  destruct (Hv c) as [x ->]. cbn [obind]. destruct (IH F' (snd x)) as [y ->]. cbn. eauto.
Qed.

Lemma ser_total v : writable v -> forall c, exists x, ser v c = Some x.
Proof.
  induction v as [v IH] using value_ind'. intros Wv c.
  assert (F : Forall (fun v => forall c, exists x, ser v c = Some x) (members v)).
  { rewrite Forall_forall in IH |- *. intros w Hw. apply IH; auto. intros a Ha. apply Wv. eapply part_in; eauto. }
  clear IH. destruct v as [|b|n|s|j0|a|st p f cb|w|nt sf tf|l|m0]; cbn [Model.ser];
    destruct (alookup _ (nodes c)); try (eexists; reflexivity).
  - destruct (ser_artifact ndump H r (VArt a)) eqn:E; [|now apply Wv in E; [|constructor]].
    cbn. eexists; reflexivity.
  - cbn [members] in F. inversion F as [|? ? Hs F1]; subst. inversion F1 as [|? ? Hp F2]; subst. inversion F2 as [|? ? Hf _]; subst.
    match goal with |- context [ser st ?x] => destruct (Hs x) as [y1 ->] end. cbn [obind].
    match goal with |- context [ser f ?x] => destruct (Hf x) as [y2 ->] end. cbn [obind].
    match goal with |- context [ser p ?x] => destruct (Hp x) as [y3 ->] end. cbn [obind]. eexists; reflexivity.
  - cbn [members] in F. inversion F as [|? ? Hs _]; subst.
    match goal with |- context [ser w ?x] => destruct (Hs x) as [y1 ->] end. cbn [obind]. eexists; reflexivity.
  - cbn [members] in F. inversion F as [|? ? Hs F1]; subst. inversion F1 as [|? ? Hp _]; subst.
    match goal with |- context [ser sf ?x] => destruct (Hs x) as [y1 ->] end. cbn [obind].
    match goal with |- context [ser tf ?x] => destruct (Hp x) as [y2 ->] end. cbn [obind]. eexists; reflexivity.
  - destruct (ser_list_total l F c) as [y ->]. cbn [obind]. eexists; reflexivity.
  - destruct (ser_map_total m0 F c) as [y ->]. cbn [obind]. eexists; reflexivity.
Qed.

Lemma covered_writable v : covered ndump H r v -> writable v.
Proof.
  intros C a Ha. unfold ser_artifact. destruct C as [->|C]; [discriminate|].
  destruct r as [|x r'] eqn:Er; [discriminate|]. rewrite <- Er in *.
  destruct (C a Ha) as [->|F]; [discriminate|]. destruct (is_known a); [discriminate|].
  destruct (find_replacement ndump H r a); [discriminate|congruence].
Qed.

(** ** Stages *)
Lemma ser_artifact_ok a : artifact_ok t a -> ser_artifact ndump H r (VArt a) <> None ->
  exists j, ser_artifact ndump H r (VArt a) = Some j /\ art_FromJson u64_of_num t j = Some (known_form ndump H r a).
Proof.
  intros Ha E. destruct (ser_artifact ndump H r (VArt a)) as [j|] eqn:F; [|congruence].
  exists j. split; auto. now apply (proj1 (art_layer a j Ha F)).
Qed.

Lemma stage_ok v : artifact_map v -> storable t v -> covered ndump H r v ->
  exists j, ser_artifact_map ndump H r v = Some j /\ des_artifact_map u64_of_num t j = Some (rebuild v).
Proof.
  intros (m & -> & Hm) S C. apply covered_writable in C.
  assert (K : exists l, all_some (map (fun p => match p with (k, x) => option_map (fun j => (k, j)) (ser_artifact ndump H r x) end) m) = Some l
     /\ all_some (map (fun p => match p with (k, x) => option_map (fun a => (k, VArt a)) (art_FromJson u64_of_num t x) end) l)
        = Some (map (fun p => match p with (k, x) => (k, rebuild x) end) m)
     /\ (r = [] -> l = map (fun p => match p with (k, x) => (k, value_ToJson ndump H x) end) m)).
  { assert (Q : forall k x, In (k, x) m -> exists a, x = VArt a /\ artifact_ok t a /\ ser_artifact ndump H r x <> None).
    { intros k x Hx. destruct (Hm k x Hx) as [a ->]. exists a. split; auto.
      assert (Pa : part (VArt a) (VMap m)) by (apply part_member; cbn; apply in_map_iff; exists (k, VArt a); auto).
      split; [exact (S _ Pa)|]. now apply C. }
    clear Hm S C. induction m as [|[k x] m IH].
    - exists []. cbn. auto.
    - destruct IH as (l & E1 & E2 & E3); [intros; eapply Q; right; eauto|].
      destruct (Q k x (or_introl eq_refl)) as (a & -> & Ka & Ea).
      destruct (ser_artifact_ok a Ka Ea) as (j & F1 & F2).
      exists ((k, j) :: l). cbn [map all_some]. rewrite F1. cbn [option_map all_some]. rewrite E1.
      rewrite F2. cbn [option_map all_some]. rewrite E2. split; auto. split; auto.
      intros R. rewrite (E3 R). cbn [map]. rewrite R in F1. cbn [ser_artifact] in F1. now injection F1 as ->. }
  destruct K as (l & E1 & E2 & E3). exists (JObj l).
  unfold ser_artifact_map. destruct r as [|x r'] eqn:Er.
  - rewrite (E3 eq_refl). split.
    + unfold value_ToJson. cbn [embed Expr.Model.ToJson]. rewrite map_map. do 2 f_equal. apply map_ext. now intros [k y].
    + rewrite (E3 eq_refl) in E2. unfold des_artifact_map. rewrite E2. reflexivity.
  - rewrite E1. split; [reflexivity|]. unfold des_artifact_map. rewrite E2. reflexivity.
Qed.
End P.
