From Coq Require Import String Ascii List Bool NArith ZArith SpecFloat Lia.
From Verif Require Import Common.Strs Hex.Model Hex.Proofs Expr.Json Expr.JsonSpec Expr.Model.
From Verif Require Import Describe.Model Describe.Spec Describe.Proofs.
From Verif Require Import Result.Model Result.Spec Result.Proofs Result.ReadProofs Result.RoundTrip.
Import ListNotations.
Local Open Scope string_scope.
Local Open Scope list_scope.

Lemma all_some_in {A} (l : list (option A)) r : all_some l = Some r -> forall x, In x r <-> In (Some x) l.
Proof.
  revert r. induction l as [|[y|] l IH]; cbn; intros r E x; try discriminate.
  - injection E as <-. cbn. tauto.
  - destruct (all_some l) as [q|]; [|discriminate]. injection E as <-. cbn. rewrite (IH q eq_refl x).
    split; intros [E|E]; auto; left; congruence.
Qed.

Lemma all_some_total {A} (l : list (option A)) : (forall x, In x l -> x <> None) -> exists r, all_some l = Some r.
Proof.
  induction l as [|[y|] l IH]; cbn; intros F; [eauto| |exfalso; now apply (F None); auto].
  destruct IH as [r ->]; eauto.
Qed.

Section P.
Variable u64_of_num : num -> N.
Hypothesis u64_range : forall n, (u64_of_num n < 2 ^ 64)%N.
Variable t : hash_type.
Local Notation info_of := (to_object_info u64_of_num t).

Lemma info_of_some j i : info_of j = Some i ->
  art_FromJson u64_of_num t j = Some (AKnown (i_digest i) (i_type i) None) /\ info_ok t i /\ i_failed i = false.
Proof.
  unfold to_object_info. destruct (art_FromJson u64_of_num t j) as [a|] eqn:E; [|discriminate].
  destruct (art_parsed_ok _ u64_range _ _ _ E) as [O F]. destruct a; try discriminate. intros X; injection X as <-.
  cbn in *. injection F as <-. auto.
Qed.
Lemma info_of_known j a : art_FromJson u64_of_num t j = Some a -> is_known a = true -> exists i, info_of j = Some i.
Proof. unfold to_object_info. intros ->. destruct a; try discriminate. eauto. Qed.

(** All artifacts in a value are known and listed. *)
Definition listed (infos : list object_info) (v : value) : Prop := forall a, part (VArt a) v ->
  exists i, In i infos /\ a = AKnown (i_digest i) (i_type i) None /\ i_failed i = false.

Lemma listed_members infos v : (forall a, v <> VArt a) -> (forall w, In w (members v) -> listed infos w) -> listed infos v.
Proof.
  intros N M a Pa. inversion Pa as [? E|? w ? Hw Pw]; subst; [exfalso; eapply N; reflexivity|]. now apply (M w Hw).
Qed.

Lemma value_from_listed infos j : listed infos (value_FromJson j).
Proof.
  revert j. fix IH 1. intros j. apply listed_members; [destruct j; discriminate|].
  destruct j as [| | | | |l|m]; cbn [value_FromJson members]; try (intros w []; fail).
  - induction l as [|x l IHl]; cbn; [intros w []|]. intros w [<-|Hw]; [apply IH|now apply IHl].
  - induction m as [|[k x] l IHl]; cbn; [intros w []|]. intros w [<-|Hw]; [apply IH|now apply IHl].
Qed.

Lemma stage_listed j v la : des_artifact_map u64_of_num t j = Some v -> scan_artifact_map u64_of_num t j = Some la -> listed la v.
Proof.
  destruct j; try discriminate. cbn. intros E S. apply obind_some in E. destruct E as (l & E & X). injection X as <-.
  apply listed_members; [discriminate|]. cbn. intros w Hw. apply in_map_iff in Hw. destruct Hw as ([k x] & <- & Hx).
  apply (proj1 (all_some_in _ _ E _)) in Hx. apply in_map_iff in Hx. destruct Hx as ([k' y] & Ey & Hy).
  destruct (art_FromJson u64_of_num t y) as [a|] eqn:Ea; [|discriminate]. cbn in Ey. injection Ey as -> <-. cbn.
  assert (Q : exists i, info_of y = Some i).
  { destruct (info_of y) as [i|] eqn:Ei; [eauto|]. exfalso.
    assert (In None (map (fun p : string * json => let (_, x0) := p in info_of x0) m)).
    { apply in_map_iff. exists (k, y). auto. }
    clear -H S. revert la S. induction (map (fun p : string * json => let (_, x0) := p in info_of x0) m) as [|[z|] q IHq];
      [destruct H| |discriminate]. intros la S. cbn in S. destruct H as [H|H]; [discriminate|].
    destruct (all_some q) as [w|]; [|discriminate]. now apply (IHq H w). }
  destruct Q as [i Ei]. destruct (info_of_some _ _ Ei) as (Fa & _ & Ff). rewrite Ea in Fa. injection Fa as ->.
  intros a' Pa. inversion Pa as [? E'|? ? ? W Pw]; subst; [|destruct W].
  exists i. split; auto. apply (proj2 (all_some_in _ _ S _)). apply in_map_iff. exists (k, y). auto.
Qed.

Section Des.
Variables (nds : list (string * json)) (arts pnodes press : list string) (infos : list object_info).
Hypothesis scanned : forall id, In id arts -> exists j i, alookup id nds = Some j /\ info_of j = Some i /\ In i infos.

Definition good_memo (s : memo) : Prop := forall id v, alookup id s = Some v -> listed infos v.
Definition outcome (o : option (value * memo)) : Prop :=
  forall v s, o = Some (v, s) -> listed infos v /\ good_memo s.

Lemma remember_listed id v s : listed infos v -> good_memo s -> outcome (remember id (v, s)).
Proof.
  intros L G v' s' E. injection E as <- <-. split; auto. intros id' w. cbn.
  destruct (String.eqb id' id); [intros X; injection X as <-; auto|apply G].
Qed.

Section It.
Variable f : string -> memo -> option (value * memo).
Hypothesis Hf : forall id s, good_memo s -> outcome (f id s).
Lemma des_list_listed l : forall s vs s', good_memo s -> des_list f l s = Some (vs, s') ->
  (forall w, In w vs -> listed infos w) /\ good_memo s'.
Proof.
  induction l as [|j l IH]; intros s vs s' G E; cbn in E.
  - injection E as <- <-. split; auto. intros w [].
  - apply obind_some in E. destruct E as (id & _ & E). apply obind_some in E. destruct E as ([v s1] & E1 & E).
    apply obind_some in E. destruct E as ([vs' s2] & E2 & E). cbn [fst snd] in *. injection E as <- <-.
    destruct (Hf id s G _ _ E1) as [L1 G1]. destruct (IH _ _ _ G1 E2) as [L2 G2]. split; auto.
    intros w [<-|Hw]; auto.
Qed.
Lemma des_map_listed l : forall s vs s', good_memo s -> des_map f l s = Some (vs, s') ->
  (forall w, In w (map snd vs) -> listed infos w) /\ good_memo s'.
Proof.
  induction l as [|[k j] l IH]; intros s vs s' G E; cbn in E.
  - injection E as <- <-. split; auto. intros w [].
  - apply obind_some in E. destruct E as (id & _ & E). apply obind_some in E. destruct E as ([v s1] & E1 & E).
    apply obind_some in E. destruct E as ([vs' s2] & E2 & E). cbn [fst snd] in *. injection E as <- <-.
    destruct (Hf id s G _ _ E1) as [L1 G1]. destruct (IH _ _ _ G1 E2) as [L2 G2]. split; auto.
    intros w [<-|Hw]; auto.
Qed.
End It.

Lemma des_listed fuel : forall id s, good_memo s -> outcome (des u64_of_num t nds arts pnodes press fuel id s).
Proof.
  induction fuel as [|n IH]; intros id s G v s' E; cbn [des] in E; [discriminate|].
  destruct (alookup id s) as [v0|] eqn:A; [injection E as <- <-; split; auto; now apply (G id)|].
  assert (CH : forall j k s, good_memo s -> outcome (obind (jfind j k) (fun x => obind (as_string x)
     (fun i => des u64_of_num t nds arts pnodes press n i s)))).
  { intros j k s0 G0 w s1 E1. apply obind_some in E1. destruct E1 as (x & _ & E1). apply obind_some in E1.
    destruct E1 as (i & _ & E1). now apply (IH i s0 G0). }
  destruct (alookup id nds) as [j|] eqn:L; [|discriminate].
  destruct j as [|b|z|q|s0|l|m];
    try (revert E; apply remember_listed; auto; apply value_from_listed; fail).
  - apply obind_some in E. destruct E as ([vs s1] & E1 & E). destruct (des_list_listed _ IH _ _ _ _ G E1) as [L1 G1].
    revert E. apply remember_listed; auto. apply listed_members; [discriminate|exact L1].
  - destruct (mem id arts) eqn:MA.
    { apply obind_some in E. destruct E as (a & Ea & E). revert E. apply remember_listed; auto.
      apply mem_In in MA. destruct (scanned id MA) as (j & i & Lj & Ei & Hi). rewrite L in Lj. injection Lj as <-.
      destruct (info_of_some _ _ Ei) as (Fa & _ & Ff). rewrite Ea in Fa. injection Fa as ->.
      intros a' Pa. inversion Pa as [? E'|? ? ? W Pw]; subst; [|destruct W]. exists i. auto. }
    destruct (mem id pnodes).
    { destruct (jfind (JObj m) "type") as [[| | | |ty| |]|]; try discriminate.
      destruct (String.eqb ty "ABSTRACT_NODE").
      - apply obind_some in E. destruct E as (nt & _ & E). apply obind_some in E. destruct E as ([tf s1] & E1 & E).
        apply obind_some in E. destruct E as ([sf s2] & E2 & E). cbn [fst snd] in *.
        destruct (CH _ _ _ G _ _ E1) as [L1 G1]. destruct (CH _ _ _ G1 _ _ E2) as [L2 G2].
        revert E. apply remember_listed; auto. apply listed_members; [discriminate|].
        cbn. intros w [<-|[<-|[]]]; auto.
      - destruct (String.eqb ty "VALUE_NODE"); [|discriminate].
        apply obind_some in E. destruct E as ([x s1] & E1 & E). cbn [fst snd] in *.
        destruct (CH _ _ _ G _ _ E1) as [L1 G1].
        revert E. apply remember_listed; auto. apply listed_members; [discriminate|]. cbn. intros w [<-|[]]; auto. }
    destruct (mem id press).
    { apply obind_some in E. destruct E as ([st s1] & E1 & E). apply obind_some in E. destruct E as ([rf s2] & E2 & E).
      apply obind_some in E. destruct E as ([pr s3] & E3 & E). cbn [fst snd] in *. injection E as <- <-.
      destruct (CH _ _ _ G _ _ E1) as [L1 G1]. destruct (CH _ _ _ G1 _ _ E2) as [L2 G2].
      destruct (CH _ _ _ G2 _ _ E3) as [L3 G3]. split; auto. apply listed_members; [discriminate|].
      cbn. intros w [<-|[<-|[<-|[]]]]; auto. }
    apply obind_some in E. destruct E as ([vs s1] & E1 & E). destruct (des_map_listed _ IH _ _ _ _ G E1) as [L1 G1].
    revert E. apply remember_listed; auto. apply listed_members; [discriminate|exact L1].
Qed.
End Des.

Lemma all_some_none {A} (l : list (option A)) r : all_some l = Some r -> ~ In None l.
Proof.
  revert r. induction l as [|[y|] l IH]; cbn; intros r E; auto; [|discriminate].
  destruct (all_some l) as [q|]; [|discriminate]. intros [X|X]; [discriminate|]. now apply (IH q).
Qed.

Lemma provides_listed fuel j v lp : des_provides u64_of_num t fuel j = Some v -> scan_provides_map u64_of_num t j = Some lp -> listed lp v.
Proof.
  unfold des_provides, scan_provides_map. intros E S. apply obind_some in E. destruct E as (entry & _ & E).
  apply obind_some in S. destruct S as (ids & Ei & S). apply obind_some in S. destruct S as (nj & En & S). rewrite En in E.
  destruct nj as [| | | | | |nds]; try discriminate. rewrite Ei in E. cbn [obind] in E.
  apply obind_some in E. destruct E as (pn & _ & E). apply obind_some in E. destruct E as (pr & _ & E).
  apply obind_some in E. destruct E as ([x s] & E & X). cbn in X. injection X as <-.
  refine (proj1 (des_listed nds ids pn pr lp _ fuel entry [] _ _ _ E)); [|intros ? ? X; discriminate].
  intros id Hid. pose proof (all_some_none _ _ S) as N.
  destruct (obind (jfind (JObj nds) id) info_of) as [i|] eqn:Ex.
  - apply obind_some in Ex. destruct Ex as (jj & Ej & Ex). exists jj, i. split; [exact Ej|]. split; auto.
    apply (proj2 (all_some_in _ _ S i)). apply in_map_iff. exists id. split; auto. rewrite Ej. exact Ex.
  - exfalso. apply N. apply in_map_iff. exists id. auto.
Qed.

Theorem result_listed fuel j res infos : result_FromJson u64_of_num t fuel j = Some res -> to_artifacts u64_of_num t j = Some infos ->
  listed infos (r_stage res) /\ listed infos (r_provides res) /\ listed infos (r_runfiles res).
Proof.
  unfold result_FromJson, to_artifacts. intros E S.
  apply obind_some in E. destruct E as (ja & Ea & E). apply obind_some in E. destruct E as (stage & Es & E).
  apply obind_some in E. destruct E as (jf & Ef & E). apply obind_some in E. destruct E as (runfiles & Er & E).
  apply obind_some in E. destruct E as (jp & Ep & E). apply obind_some in E. destruct E as (provides & Epr & E).
  injection E as <-. rewrite Ea, Ef, Ep in S. cbn [obind] in S.
  apply obind_some in S. destruct S as (la & Sa & S). apply obind_some in S. destruct S as (lr & Sr & S).
  apply obind_some in S. destruct S as (lp & Sp & S). injection S as <-. cbn.
  assert (UP : forall l v, listed l v -> incl l (la ++ lr ++ lp) -> listed (la ++ lr ++ lp) v).
  { intros l v L I a Pa. destruct (L a Pa) as (i & Hi & ?). exists i. split; auto. }
  split; [|split]; (eapply UP; [eauto using stage_listed, provides_listed|]).
  - apply incl_appl, incl_refl.
  - apply incl_appr, incl_appr, incl_refl.
  - apply incl_appr, incl_appl, incl_refl.
Qed.

Theorem infos_ok j infos : to_artifacts u64_of_num t j = Some infos -> Forall (info_ok t) infos.
Proof.
  unfold to_artifacts. intros S. apply obind_some in S. destruct S as (ja & Ea & S).
  apply obind_some in S. destruct S as (la & Sa & S). apply obind_some in S. destruct S as (jr & Er & S).
  apply obind_some in S. destruct S as (lr & Sr & S). apply obind_some in S. destruct S as (jp & Ep & S).
  apply obind_some in S. destruct S as (lp & Sp & S). injection S as <-.
  assert (ST : forall j l, scan_artifact_map u64_of_num t j = Some l -> Forall (info_ok t) l).
  { intros j0 l. destruct j0; try discriminate. cbn. intros E. apply Forall_forall. intros i Hi.
    apply (proj1 (all_some_in _ _ E _)) in Hi. apply in_map_iff in Hi. destruct Hi as ([k y] & Ey & _).
    now apply info_of_some in Ey. }
  apply Forall_app. split; [eauto|]. apply Forall_app. split; [eauto|].
  unfold scan_provides_map in Sp. apply obind_some in Sp. destruct Sp as (ids & _ & Sp).
  apply obind_some in Sp. destruct Sp as (nd & _ & Sp). apply Forall_forall. intros i Hi.
  apply (proj1 (all_some_in _ _ Sp _)) in Hi. apply in_map_iff in Hi. destruct Hi as (id & Ey & _).
  apply obind_some in Ey. destruct Ey as (x & _ & Ey). now apply info_of_some in Ey.
Qed.

(** ** Entries made from targets *)
Variable ndump : num -> string.
Variable H : string -> string.
Variable r : replacements.
Hypothesis r_ok : replacements_ok t r.

Lemma all_known_covered v : all_known ndump H r v -> covered ndump H r v.
Proof.
  intros K. unfold covered. unfold all_known, known_form in K. destruct r as [|x r'] eqn:Er; [now left|]. right.
  intros a Pa. specialize (K a Pa). destruct (is_known a) eqn:Ka; auto. right.
  destruct (find_replacement ndump H (x :: r') a); [discriminate|congruence].
Qed.

Lemma known_form_info a j : artifact_ok t a -> is_known (known_form ndump H r a) = true ->
  ser_artifact ndump H r (VArt a) = Some j ->
  exists i, info_of j = Some i /\ known_form ndump H r a = AKnown (i_digest i) (i_type i) None /\ i_failed i = false.
Proof.
  intros Ha K E. destruct (art_layer ndump H u64_of_num t r r_ok a j Ha E) as [FJ _].
  destruct (info_of_known _ _ FJ K) as [i Ei]. exists i. split; auto.
  destruct (info_of_some _ _ Ei) as (Fa & _ & Ff). rewrite FJ in Fa. apply some_inj in Fa. auto.
Qed.

Definition exact_infos (v : value) (infos : list object_info) : Prop := forall i, In i infos ->
  exists a, part (VArt a) v /\ known_form ndump H r a = AKnown (i_digest i) (i_type i) None /\ i_failed i = false.

Lemma stage_scan v : artifact_map v -> storable t v -> all_known ndump H r v ->
  exists j l, ser_artifact_map ndump H r v = Some j /\ des_artifact_map u64_of_num t j = Some (rebuild ndump H r v) /\
    scan_artifact_map u64_of_num t j = Some l /\ exact_infos v l.
Proof.
  intros M S K. destruct (stage_ok ndump H u64_of_num t r r_ok v M S (all_known_covered v K)) as (j & E & D).
  exists j. destruct M as (m & -> & Hm).
  destruct j as [| | | | | |mj]; try discriminate. cbn in D. apply obind_some in D. destruct D as (l & D & X).
  injection X as ->. cbn.
  assert (Q : forall k y, In (k, y) mj -> exists i, info_of y = Some i /\
     exists a, part (VArt a) (VMap m) /\ known_form ndump H r a = AKnown (i_digest i) (i_type i) None /\ i_failed i = false).
  { intros k y Hy.
    assert (EX : exists a, part (VArt a) (VMap m) /\ art_FromJson u64_of_num t y = Some (known_form ndump H r a)).
    { assert (G : exists x, In (Some x) (map (fun p => match p with (k, x) => option_map (fun a => (k, VArt a)) (art_FromJson u64_of_num t x) end) mj)
         /\ exists a, art_FromJson u64_of_num t y = Some a /\ x = (k, VArt a)).
      { pose proof (all_some_none _ _ D) as N.
        destruct (art_FromJson u64_of_num t y) as [a|] eqn:Ea.
        - exists (k, VArt a). split; [|eauto]. apply in_map_iff. exists (k, y). rewrite Ea. auto.
        - exfalso. apply N. apply in_map_iff. exists (k, y). rewrite Ea. auto. }
      destruct G as (x & Gx & a0 & Ea & ->). apply (proj2 (all_some_in _ _ D _)) in Gx.
      apply in_map_iff in Gx. destruct Gx as ([k2 z] & Ez & Hz). destruct (Hm k2 z Hz) as [a ->].
      exists a. split; [apply part_member; cbn; apply in_map_iff; now exists (k2, VArt a)|].
      cbn in Ez. injection Ez as <- Ea2. now rewrite Ea2. }
    destruct EX as (a & Pa & Ea). destruct (info_of_known _ _ Ea (K a Pa)) as [i Ei]. exists i. split; auto.
    exists a. split; auto. destruct (info_of_some _ _ Ei) as (Fa & _ & Ff). rewrite Ea in Fa. apply some_inj in Fa. auto. }
  destruct (all_some_total (map (fun p : string * json => let (_, x) := p in info_of x) mj)) as [li Li].
  { intros o Ho. apply in_map_iff in Ho. destruct Ho as ([k y] & <- & Hy). destruct (Q k y Hy) as (i & Ei & _). congruence. }
  exists li. rewrite D. split; [exact E|]. split; [reflexivity|]. split; [exact Li|].
  intros i Hi. apply (proj1 (all_some_in _ _ Li _)) in Hi. apply in_map_iff in Hi. destruct Hi as ([k y] & Ey & Hy).
  destruct (Q k y Hy) as (i' & Ei & a & Pa & Ka). rewrite Ey in Ei. apply some_inj in Ei. subst i'. exists a. auto.
Qed.

Lemma provides_scan v : storable t v -> all_known ndump H r v -> distinct_hashes ndump H v ->
  exists j l, ser_provides ndump H r v = Some j /\ scan_provides_map u64_of_num t j = Some l /\ exact_infos v l.
Proof.
  intros S K D.
  destruct (provides_ok ndump H u64_of_num t r r_ok v S (all_known_covered v K) D) as (c & E & I & A & _).
  assert (Q : forall id, In id (provided_artifacts c) -> exists i, obind (alookup id (nodes c)) info_of = Some i /\
     exists a, part (VArt a) v /\ known_form ndump H r a = AKnown (i_digest i) (i_type i) None /\ i_failed i = false).
  { intros id Hid. pose proof (A id Hid) as Hh. unfold has in Hh.
    destruct (alookup id (nodes c)) as [j|] eqn:L; [|congruence].
    destruct (inv_nodes _ _ _ _ _ I _ _ L) as (u & Wu & Eu & Ku).
    destruct (inv_arts _ _ _ _ _ I _ Hid) as (u' & Wu' & Eu' & Kind).
    assert (u' = u) by (apply (W_distinct ndump H v D); auto; congruence). subst u'.
    apply part_rebuild in Wu. destruct Wu as (u0 & Pu0 & ->). destruct u0; try discriminate.
    cbn [rebuild known_form] in *. destruct Ku as [Ly _]. cbn [layer] in Ly. rewrite ser_artifact_forget in Ly.
    destruct (known_form_info a j (S _ Pu0) (K a Pu0) Ly) as (i & Ei & Ki).
    exists i. split; [exact Ei|]. exists a. auto. }
  destruct (all_some_total (map (fun id => obind (alookup id (nodes c)) info_of) (provided_artifacts c))) as [li Li].
  { intros o Ho. apply in_map_iff in Ho. destruct Ho as (id & <- & Hy). destruct (Q id Hy) as (i & Ei & _). congruence. }
  eexists. exists li. split; [exact E|]. split.
  { pose proof (strings_back (provided_artifacts c)) as B. unfold scan_provides_map. unfold extract_strings, jfind in B |- *.
    cbn [alookup String.eqb Ascii.eqb Bool.eqb] in B |- *. rewrite B. cbn [obind]. exact Li. }
  intros i Hi. apply (proj1 (all_some_in _ _ Li _)) in Hi. apply in_map_iff in Hi. destruct Hi as (id & Ey & Hy).
  destruct (Q id Hy) as (i' & Ei & a & Pa & Ka). rewrite Ey in Ei. apply some_inj in Ei. subst i'. exists a. auto.
Qed.

Lemma part_art_rebuild v a : part (VArt a) v -> part (VArt (known_form ndump H r a)) (rebuild ndump H r v).
Proof. intros P. apply (rebuild_part ndump H r) in P. exact P. Qed.

Theorem entry_ok_all stage provides runfiles implied :
  artifact_map stage -> artifact_map runfiles ->
  storable t stage -> storable t provides -> storable t runfiles ->
  all_known ndump H r stage -> all_known ndump H r provides -> all_known ndump H r runfiles ->
  distinct_hashes ndump H provides ->
  exists j, entry_FromTarget ndump H r stage provides runfiles implied = Some j /\
    (exists n, forall m, n <= m -> result_FromJson u64_of_num t m j =
        Some (mkR (rebuild ndump H r stage) (rebuild ndump H r provides) (rebuild ndump H r runfiles))) /\
    (exists infos, to_artifacts u64_of_num t j = Some infos /\
       forall i, In i infos <-> i_failed i = false /\ exists a, artifact_of stage provides runfiles a /\
          known_form ndump H r a = AKnown (i_digest i) (i_type i) None) /\
    to_implied j = implied /\
    (forall key, Forall (hash_ok t) implied -> to_implied_ids t key j =
       Some (map (fun h => mkInfo (mkDigest h false 0) File false) (filter (fun h => negb (String.eqb h key)) implied))).
Proof.
  intros MS MR SS SP SR KS KP KR D.
  destruct (result_roundtrip ndump H u64_of_num t r r_ok stage provides runfiles MS MR SS SP SR
     (all_known_covered _ KS) (all_known_covered _ KP) (all_known_covered _ KR) D) as (j & EJ & n & RT).
  destruct (stage_scan stage MS SS KS) as (ja & la & E1 & D1 & S1 & X1).
  destruct (stage_scan runfiles MR SR KR) as (jr & lr & E2 & D2 & S2 & X2).
  destruct (provides_scan provides SP KP D) as (jp & lp & E3 & S3 & X3).
  assert (EJ2 := EJ). unfold result_ToJson in EJ2. rewrite E1, E2, E3 in EJ2. cbn [obind] in EJ2. apply some_inj in EJ2.
  set (m := match implied with [] => [("artifacts", ja); ("provides", jp); ("runfiles", jr)]
     | _ => ainsert "implied export targets" (strings_json implied) [("artifacts", ja); ("provides", jp); ("runfiles", jr)] end).
  assert (LK : forall k, k <> "implied export targets" -> alookup k m = alookup k [("artifacts", ja); ("provides", jp); ("runfiles", jr)]).
  { intros k Hk. unfold m. destruct implied; auto. rewrite ainsert_lookup. apply String.eqb_neq in Hk. now rewrite Hk. }
  assert (F1 : alookup "artifacts" m = Some ja) by (rewrite LK; [reflexivity|discriminate]).
  assert (F2 : alookup "provides" m = Some jp) by (rewrite LK; [reflexivity|discriminate]).
  assert (F3 : alookup "runfiles" m = Some jr) by (rewrite LK; [reflexivity|discriminate]).
  assert (F4 : alookup "implied export targets" m = match implied with [] => None | _ => Some (strings_json implied) end).
  { unfold m. now destruct implied. }
  assert (RT' : forall k, n <= k -> result_FromJson u64_of_num t k (JObj m) =
        Some (mkR (rebuild ndump H r stage) (rebuild ndump H r provides) (rebuild ndump H r runfiles))).
  { intros k Hk. rewrite <- (RT k Hk). rewrite <- EJ2. unfold result_FromJson, jfind. rewrite F1, F2, F3. reflexivity. }
  assert (TA : to_artifacts u64_of_num t (JObj m) = Some (la ++ lr ++ lp)).
  { unfold to_artifacts, jfind. rewrite F1, F2, F3. cbn [obind]. rewrite S1, S2, S3. reflexivity. }
  exists (JObj m). split.
  { unfold entry_FromTarget. rewrite EJ. rewrite <- EJ2. cbn [obind]. reflexivity. }
  split; [eauto|]. split; [|split].
  - exists (la ++ lr ++ lp). split; [exact TA|]. intros i. split.
    + rewrite !in_app_iff. unfold artifact_of.
      intros [Hi|[Hi|Hi]]; [destruct (X1 i Hi) as (a & Pa & Ka & Fa)|destruct (X2 i Hi) as (a & Pa & Ka & Fa)|destruct (X3 i Hi) as (a & Pa & Ka & Fa)];
        (split; [exact Fa|]; exists a; auto).
    + intros (Fi & a & Pa & Ka). destruct (result_listed n _ _ _ (RT' n (le_n n)) TA) as (L1 & L2 & L3). cbn in L1, L2, L3.
      assert (Q : exists i', In i' (la ++ lr ++ lp) /\ known_form ndump H r a = AKnown (i_digest i') (i_type i') None /\ i_failed i' = false).
      { destruct Pa as [Pa|[Pa|Pa]]; apply part_art_rebuild in Pa; [now apply L1|now apply L2|now apply L3]. }
      destruct Q as ([d ty fl] & Hi & Ki & Fi'). cbn in *. rewrite Ka in Ki. injection Ki as <- <-. subst fl.
      destruct i as [d ty fl]. cbn in Fi. subst fl. exact Hi.
  - unfold to_implied, jfind. rewrite F4. destruct implied as [|h q]; auto. unfold strings_json.
    assert (G : forall l, leading_strings (map JStr l) = l) by (induction l; cbn; congruence). apply G.
  - intros key Hh. unfold to_implied_ids, jfind. rewrite F4. destruct implied as [|h q] eqn:Ei; auto. rewrite <- Ei in *.
    unfold strings_json. rewrite map_map.
    rewrite (all_some_map _ (fun x : string => x)) by (apply Forall_forall; reflexivity). rewrite map_id. cbn [obind].
    apply all_some_map. apply Forall_forall. intros x Hx. apply filter_In in Hx. destruct Hx as [Hx _].
    rewrite Forall_forall in Hh.
    pose proof (create_digest_same t File (mkDigest x false 0)) as C. cbn [d_hash d_size d_tree IsTreeObject] in C.
    rewrite C; [reflexivity|]. split; [now apply Hh|]. split; [reflexivity|]. cbn. split; [discriminate|]. intros [_ X]; discriminate.
Qed.
End P.
