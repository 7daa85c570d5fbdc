(** Chains of names, and the repositories reached (for C110, C113). *)
From Coq Require Import String Ascii List Bool Arith Lia.
From Verif Require Import Common.Strs Expr.Json Setup.Model Setup.Spec.
Import ListNotations.
Local Open Scope string_scope.
Local Open Scope list_scope.
Local Open Scope nat_scope.

Lemma mem_In x l : mem x l = true <-> In x l.
Proof.
  unfold mem. rewrite existsb_exists. split.
  - intros (y & I & E). apply String.eqb_eq in E. now subst.
  - intros I. exists x. split; [exact I|apply String.eqb_refl].
Qed.
Lemma mem_notIn x l : mem x l = false <-> ~ In x l.
Proof. rewrite <- mem_In. destruct (mem x l); split; congruence. Qed.

Lemma get_some m k v : alookup k m = Some v -> get m k = v.
Proof. unfold get. now intros ->. Qed.
Lemma get_given m k v : get m k = v -> v <> JNull -> alookup k m = Some v.
Proof. unfold get. destruct (alookup k m); congruence. Qed.
Lemma get_null m k : get m k = JNull <-> not_given m k.
Proof. unfold get, not_given. destruct (alookup k m) as [j|]; split; [intros ->; now right|intros [E|E]; congruence|auto|auto]. Qed.

(** *** Parsing of computed roots *)
Lemma parse_absent_spec d a : parse_absent d = Some a <-> absent_mark d a.
Proof.
  unfold parse_absent. split.
  - destruct (get d "pragma") eqn:P; intros E; try discriminate.
    + injection E as <-. apply am_none. now apply get_null.
    + apply get_given in P; [|discriminate]. destruct (get m "absent") eqn:A; try discriminate; injection E as <-.
      * eapply am_silent; eauto. now apply get_null.
      * apply get_given in A; [|discriminate]. eapply am_said; eauto.
  - intros [N|p P N|p b P B].
    + apply get_null in N. now rewrite N.
    + rewrite (get_some _ _ _ P). apply get_null in N. now rewrite N.
    + rewrite (get_some _ _ _ P), (get_some _ _ _ B). reflexivity.
Qed.
Lemma absent_mark_fun d a b : absent_mark d a -> absent_mark d b -> a = b.
Proof. rewrite <- !parse_absent_spec. congruence. Qed.

(** What the code takes a description for. *)
Definition taken_as (d : json) (p : precomputed) : Prop :=
  match p with
  | PComputed c => c_name c = c_module c /\ exists n, computed_as d (c_repo c) (c_module c) n (c_config c) (c_absent c)
  | PTree r a => structure_of d r a
  end.

Lemma parse_precomputed_sound d p : parse_precomputed d = Done p -> taken_as d p.
Proof.
  unfold parse_precomputed. destruct d; try discriminate. destruct (get m "type") eqn:T; try discriminate.
  apply get_given in T; [|discriminate].
  destruct (String.eqb_spec s "computed") as [->|_].
  - unfold parse_computed. destruct (get m "repo") eqn:R; try discriminate. apply get_given in R; [|discriminate].
    destruct (get m "target") eqn:G; try discriminate. apply get_given in G; [|discriminate].
    destruct l as [|[] l]; try discriminate. destruct l as [|[] l]; try discriminate. destruct l; try discriminate.
    destruct (get m "config") eqn:C; try discriminate; destruct (parse_absent m) eqn:A; try discriminate; intros E; injection E as <-; cbn;
      apply parse_absent_spec in A; split; try reflexivity; exists s1; constructor; auto.
    + left. split; [now apply get_null|reflexivity].
    + right. apply get_given in C; [exact C|discriminate].
  - destruct (String.eqb_spec s "tree structure") as [->|_]; try discriminate.
    unfold parse_tree. destruct (get m "repo") eqn:R; try discriminate; destruct (parse_absent m) eqn:A; try discriminate.
    intros E. injection E as <-. cbn. apply get_given in R; [|discriminate]. apply parse_absent_spec in A. now constructor.
Qed.
Lemma parse_precomputed_computed d r m n c a : computed_as d r m n c a ->
  parse_precomputed d = Done (PComputed {| c_repo := r; c_module := m; c_name := m; c_config := c; c_absent := a |}).
Proof.
  intros [d' r' m' n' c' a' T R G C A]. cbn. rewrite (get_some _ _ _ T). cbn. unfold parse_computed.
  rewrite (get_some _ _ _ R), (get_some _ _ _ G). apply parse_absent_spec in A. rewrite A.
  destruct C as [[C ->]|C]; [apply get_null in C; now rewrite C|now rewrite (get_some _ _ _ C)].
Qed.
Lemma parse_precomputed_structure d r a : structure_of d r a -> parse_precomputed d = Done (PTree r a).
Proof.
  intros [d' r' a' T R A]. cbn. rewrite (get_some _ _ _ T). cbn. unfold parse_tree. rewrite (get_some _ _ _ R).
  apply parse_absent_spec in A. now rewrite A.
Qed.
Lemma parse_precomputed_refers d r : refers d r <-> exists p, parse_precomputed d = Done p /\ referenced p = r.
Proof.
  split.
  - intros [(m & n & c & a & C)|(a & C)].
    + apply parse_precomputed_computed in C. eauto.
    + apply parse_precomputed_structure in C. eauto.
  - intros (p & P & <-). apply parse_precomputed_sound in P. destruct p as [c|r a]; cbn in *.
    + destruct P as (_ & n & P). left. eauto 6.
    + right. eauto.
Qed.
Lemma parse_precomputed_ends d : parse_precomputed d <> Endless.
Proof.
  unfold parse_precomputed, parse_computed, parse_tree. intros E.
  repeat match type of E with context [match ?x with _ => _ end] => destruct x; try discriminate end.
Qed.

(** *** Trails: the names visited, and where they end *)
Section Trail.
Variable repos : fields.

Definition stops (d : json) : Prop := match d with JStr r => forall e, ~ has_entry repos r e | _ => True end.
Inductive trail : json -> list string -> json -> Prop :=
| trail_stop d : stops d -> trail d [] d
| trail_on r e ns d : has_entry repos r e -> trail (get e "repository") ns d -> trail (JStr r) (r :: ns) d.

Lemma trail_fun d ns d1 : trail d ns d1 -> forall ns' d2, trail d ns' d2 -> ns = ns' /\ d1 = d2.
Proof.
  induction 1 as [d S|r e ns d E T IH]; intros ns' d2 T2; inversion T2; subst; auto.
  - exfalso. eapply S; eauto.
  - exfalso. eapply H; eauto.
  - assert (e = e0) as -> by (unfold has_entry in *; congruence). edestruct IH as [-> ->]; [eassumption|]. auto.
Qed.
Lemma trail_suffix d ns d1 : trail d ns d1 -> forall x, In x ns -> exists b a, ns = a ++ x :: b /\ trail (JStr x) (x :: b) d1.
Proof.
  induction 1 as [d S|r e ns d E T IH]; intros x I; [destruct I|].
  destruct I as [<-|I].
  - exists ns, []. split; [reflexivity|]. econstructor; eauto.
  - destruct (IH x I) as (b & a & -> & T'). exists b, (r :: a). split; [reflexivity|exact T'].
Qed.
Lemma trail_NoDup d ns d1 : trail d ns d1 -> NoDup ns.
Proof.
  induction 1 as [d S|r e ns d E T IH]; constructor; [|exact IH]. intros I.
  destruct (trail_suffix _ _ _ T _ I) as (b & a & -> & T').
  assert (trail (JStr r) (r :: a ++ r :: b) d) as T0 by (econstructor; eauto).
  destruct (trail_fun _ _ _ T0 _ _ T') as [Q _]. injection Q as Q. apply (f_equal (@length _)) in Q.
  rewrite app_length in Q. cbn in Q. lia.
Qed.
Lemma trail_keys d ns d1 : trail d ns d1 -> incl ns (keys repos).
Proof.
  induction 1 as [d S|r e ns d E T IH]; intros x I; [destruct I|]. destruct I as [<-|I]; [|auto].
  destruct (in_dec string_dec r (keys repos)) as [Y|N]; [exact Y|]. apply alookup_None in N. unfold has_entry in E. congruence.
Qed.
Lemma trail_length d ns d1 : trail d ns d1 -> length ns <= length repos.
Proof.
  intros T. pose proof (NoDup_incl_length (trail_NoDup _ _ _ T) (trail_keys _ _ _ T)) as L. unfold keys in L. now rewrite map_length in L.
Qed.

Definition at_end (d : json) : res (option string) :=
  match d with
  | JStr _ => Done None
  | _ => match parse_precomputed d with Done p => Done (Some (referenced p)) | Failed => Done None | Thrown => Thrown | Endless => Endless end
  end.

Lemma get_no_entry r : (forall e, ~ has_entry repos r e) -> forall d, get repos r <> JObj d.
Proof. intros N d E. apply get_given in E; [|discriminate]. eapply N; eauto. Qed.

Lemma target_repo_trail d ns d1 : trail d ns d1 -> forall n, length ns < n -> target_repo n repos d = at_end d1.
Proof.
  induction 1 as [d S|r e ns d E T IH]; intros n L; (destruct n as [|n]; [cbn in L; lia|]).
  - destruct d; try reflexivity. cbn [target_repo at_end]. cbn in S. destruct (get repos s) eqn:G; try reflexivity.
    exfalso. eapply get_no_entry; eauto.
  - cbn [target_repo]. rewrite (get_some _ _ _ E). apply IH. cbn in L. lia.
Qed.
Lemma target_repo_has_trail n : forall d, target_repo n repos d <> Endless -> exists ns d1, trail d ns d1.
Proof.
  induction n as [|n IH]; intros d E; [now destruct E|].
  destruct d; try (eexists [], _; constructor; exact Logic.I).
  cbn in E. destruct (get repos s) eqn:G; try (exists [], (JStr s); constructor; intros e' Q; apply get_some in Q; congruence).
  destruct (IH _ E) as (ns & d1 & T). exists (s :: ns), d1. econstructor; [|exact T]. apply get_given in G; [exact G|discriminate].
Qed.

(** Not having ended after that many rounds, the loop does not end. *)
Lemma target_repo_bound d : target_repo (S (S (length repos))) repos d = Endless -> forall n, target_repo n repos d = Endless.
Proof.
  intros E n. destruct (target_repo n repos d) eqn:Q; try reflexivity; exfalso;
    (destruct (target_repo_has_trail n d) as (ns & d1 & T); [congruence|];
     rewrite (target_repo_trail _ _ _ T) in E by (pose proof (trail_length _ _ _ T); lia);
     destruct n as [|n]; [discriminate Q|]).
  all: destruct (le_lt_dec (S n) (length ns)) as [L|L].
  all: try (rewrite (target_repo_trail _ _ _ T) in Q by lia; congruence).
  all: unfold at_end in E; destruct d1; try discriminate E;
       match type of E with context [parse_precomputed ?x] => pose proof (parse_precomputed_ends x); destruct (parse_precomputed x); try discriminate E; congruence end.
Qed.

Lemma leads_trail d d1 : leads repos d d1 -> exists ns, trail d ns d1 /\ forall s, d1 <> JStr s.
Proof.
  induction 1 as [d N|r e d d' E A L (ns & IH & N)].
  - exists []. split; [|exact N]. constructor. destruct d; try exact Logic.I. exfalso. eapply N; eauto.
  - exists (r :: ns). split; [|exact N]. econstructor; [exact E|]. now rewrite (get_some _ _ _ A).
Qed.
Lemma trail_leads d ns d1 : trail d ns d1 -> (forall s, d1 <> JStr s) -> d1 <> JNull -> leads repos d d1.
Proof.
  induction 1 as [d S|r e ns d E T IH]; intros N U; [now constructor|].
  destruct (alookup "repository" e) as [v|] eqn:A.
  - rewrite (get_some _ _ _ A) in *. econstructor; eauto.
  - unfold get in T. rewrite A in T. inversion T; subst. congruence.
Qed.
Lemma leads_fun d d1 d2 : leads repos d d1 -> leads repos d d2 -> d1 = d2.
Proof. intros A B. apply leads_trail in A as (ns & A & _). apply leads_trail in B as (ns' & B & _). eapply trail_fun; eauto. Qed.

Lemma chain_ends_trail d : chain_ends repos d <-> exists ns d1, trail d ns d1.
Proof.
  split.
  - induction 1 as [d N|r N|r e E A|r e d E A C (ns & d1 & T)].
    + exists [], d. constructor. destruct d; try exact Logic.I. exfalso. eapply N; eauto.
    + exists [], (JStr r). now constructor.
    + exists [r], JNull. econstructor; [exact E|]. unfold get. rewrite A. constructor. exact Logic.I.
    + exists (r :: ns), d1. econstructor; [exact E|]. now rewrite (get_some _ _ _ A).
  - intros (ns & d1 & T). induction T as [d S|r e ns d E T IH].
    + destruct d; try (apply ce_end; discriminate). now apply ce_break.
    + destruct (alookup "repository" e) as [v|] eqn:A; [|now apply (ce_none _ _ e)].
      rewrite (get_some _ _ _ A) in IH. eapply ce_on; eauto.
Qed.
Lemma target_repo_ends d : chain_ends repos d -> target_repo (S (S (length repos))) repos d <> Endless.
Proof.
  intros C. apply chain_ends_trail in C as (ns & d1 & T). rewrite (target_repo_trail _ _ _ T) by (pose proof (trail_length _ _ _ T); lia).
  unfold at_end. pose proof (parse_precomputed_ends d1). destruct d1; try discriminate; destruct (parse_precomputed _); congruence.
Qed.
Lemma target_repo_hangs d : ~ chain_ends repos d -> forall n, target_repo n repos d = Endless.
Proof.
  intros C n. destruct (target_repo n repos d) eqn:E; try reflexivity; exfalso; apply C, chain_ends_trail, (target_repo_has_trail n); congruence.
Qed.

Lemma target_done r o : target_repo_if_precomputed repos r = Done o ->
  forall x, o = Some x <-> exists d, described repos r d /\ refers d x.
Proof.
  unfold target_repo_if_precomputed. intros E x.
  destruct (target_repo_has_trail (S (S (length repos))) (JStr r)) as (ns & d1 & T); [congruence|].
  rewrite (target_repo_trail _ _ _ T) in E by (pose proof (trail_length _ _ _ T); lia). split.
  - intros ->. assert (exists p, parse_precomputed d1 = Done p /\ referenced p = x) as P.
    { unfold at_end in E. destruct d1; try discriminate E.
      destruct (parse_precomputed _) as [p| | |] eqn:P in E; try discriminate. exists p. split; [exact P|congruence]. }
    exists d1. split; [|now apply parse_precomputed_refers].
    destruct P as (p & P & _). apply (trail_leads _ _ _ T); intros Q; try intros Q'; subst; discriminate P.
  - intros (d & D & F). apply leads_trail in D as (ns' & D & N). destruct (trail_fun _ _ _ T _ _ D) as [_ ->].
    apply parse_precomputed_refers in F as (p & P & <-). unfold at_end in E. destruct d; try discriminate P. rewrite P in E. congruence.
Qed.

(** *** Resolving with the set of names seen *)
Lemma resolve_sound n : forall seen d d1, resolve n repos seen d = Some d1 -> leads repos d d1.
Proof.
  induction n as [|n IH]; intros seen d d1 E; [discriminate|]. cbn in E.
  destruct d; try (injection E as <-; constructor; discriminate).
  destruct (mem s seen); [discriminate|]. destruct (alookup s repos) as [v|] eqn:A; [|discriminate]. destruct v; try discriminate.
  destruct (alookup "repository" m) as [d'|] eqn:B; [|discriminate]. econstructor; eauto.
Qed.
Lemma resolve_complete d d1 : leads repos d d1 -> forall n seen ns, trail d ns d1 -> length ns < n ->
  (forall x, In x ns -> ~ In x seen) -> resolve n repos seen d = Some d1.
Proof.
  induction 1 as [d N|r e d d' E A L IH]; intros n seen ns T Ln Q; (destruct n as [|n]; [lia|]); cbn [resolve].
  - destruct d; try reflexivity. exfalso. eapply N; eauto.
  - inversion T; subst; [exfalso; eapply H; eauto|]. rewrite (proj2 (mem_notIn r seen)) by (apply Q; now left).
    unfold has_entry in E. rewrite E, A. assert (e0 = e) as -> by (unfold has_entry in *; congruence).
    rewrite (get_some _ _ _ A) in *. apply (IH n _ ns0); [assumption|cbn in Ln; lia|].
    intros x I [<-|J].
    + apply trail_NoDup in T. inversion T. auto.
    + exact (Q x (or_intror I) J).
Qed.
Lemma resolve_iff d d1 : resolve_repo repos d = Some d1 <-> leads repos d d1.
Proof.
  split; [apply resolve_sound|]. intros L. destruct (leads_trail _ _ L) as (ns & T & _).
  eapply resolve_complete; eauto. pose proof (trail_length _ _ _ T). lia.
Qed.
(** The bound is never what makes [resolve] fail. *)
Lemma resolve_bound d n : resolve n repos [] d <> None -> resolve_repo repos d = resolve n repos [] d.
Proof.
  destruct (resolve n repos [] d) as [d1|] eqn:E; [|congruence]. intros _. apply resolve_iff. eapply resolve_sound; eauto.
Qed.

(** *** The repositories reached *)
Lemma layer_names_In e l : In l (layer_names e) <-> has_layer e l.
Proof.
  unfold layer_names, has_layer. rewrite in_flat_map. split; intros (k & I & E); exists k; (split; [exact I|]).
  - destruct (get e k) eqn:G; try destruct E as [<-|[]]; try now destruct E. apply get_given in G; [exact G|discriminate].
  - rewrite (get_some _ _ _ E). now left.
Qed.
Lemma bound_names_In e x : In x (bound_names e) <-> exists b k, alookup "bindings" e = Some (JObj b) /\ In (k, JStr x) b.
Proof.
  unfold bound_names. split.
  - destruct (get e "bindings") eqn:G; intros I; try now destruct I. apply get_given in G; [|discriminate].
    apply in_flat_map in I as ([k v] & I & J). cbn in J. destruct v; try destruct J as [<-|[]]; try now destruct J. eauto.
  - intros (b & k & G & I). rewrite (get_some _ _ _ G). apply in_flat_map. exists (k, JStr x). split; [exact I|now left].
Qed.
Lemma layer_targets_In ls : forall t, layer_targets repos ls = Done t ->
  (forall x, In x t <-> exists l d, In l ls /\ described repos l d /\ refers d x) /\ length t <= length ls.
Proof.
  induction ls as [|l r IH]; intros t E; cbn [layer_targets] in E.
  - injection E as <-. split; [|reflexivity]. split; [intros []|intros (l & d & [] & _)].
  - destruct (target_repo_if_precomputed repos l) as [o| | |] eqn:O; try discriminate.
    destruct (layer_targets repos r) as [t'| | |] eqn:R; try discriminate. injection E as <-.
    destruct (IH _ eq_refl) as [IH1 IH2]. pose proof (target_done _ _ O) as D. split.
    + intros x. assert (In x (match o with Some x => x :: t' | None => t' end) <-> o = Some x \/ In x t') as ->.
      { destruct o as [z|]; cbn; split; [intros [->|Q]; auto|intros [Q|Q]; [left; congruence|auto]|auto|intros [Q|Q]; [discriminate|exact Q]]. }
      rewrite D, IH1. split.
      * intros [(d & A & B)|(l' & d & A & B & C)]; [exists l, d|exists l', d]; cbn; auto.
      * intros (l' & d & [<-|A] & B & C); [left|right]; eauto.
    + destruct o; cbn; lia.
Qed.

Lemma process_spec r push ls : process repos r = Done (push, ls) ->
  (forall x, In x push <-> needs repos r x) /\ (forall l, In l ls <-> exists e, has_entry repos r e /\ has_layer e l) /\
  length push <= match alookup r repos with Some v => entry_cost v - 1 | None => 0 end.
Proof.
  unfold process. destruct (get repos r) eqn:G; try (destruct (target_repo_if_precomputed repos r); discriminate).
  - intros E. injection E as <- <-.
    assert (forall e, ~ has_entry repos r e) as N by (intros e Q; apply get_some in Q; congruence).
    split; [|split; [|cbn; lia]].
    + intros x. split; [intros []|]. intros [e b k x' A _ _|e d x' A _ _|e l d x' A _ _ _]; exfalso; eapply N; eauto.
    + intros l. split; [intros []|]. intros (e & A & _). exfalso. eapply N; eauto.
  - apply get_given in G; [|discriminate]. destruct (target_repo_if_precomputed repos r) as [o| | |] eqn:O; try discriminate.
    destruct (layer_targets repos (layer_names m)) as [t| | |] eqn:L; try discriminate. intros E. injection E as <- <-.
    destruct (layer_targets_In _ _ L) as [T LT]. pose proof (target_done _ _ O) as D.
    assert (length (layer_names m) <= 3) as L3.
    { unfold layer_names, alt_dirs. cbn. rewrite !app_length. destruct (get m "target_root"), (get m "rule_root"), (get m "expression_root"); cbn; lia. }
    split; [|split].
    + intros x. rewrite !in_app_iff, bound_names_In, T.
      assert (In x (match o with Some x => [x] | None => [] end) <-> o = Some x) as ->.
      { destruct o; cbn; split; intros Q; try tauto; try discriminate; [destruct Q as [->|[]]; reflexivity|left; congruence]. }
      rewrite D. split.
      * intros [(d & A & B)|[(b & k & A & B)|(l & d & A & B & C)]].
        -- eapply needs_own; eauto.
        -- eapply needs_bound; eauto.
        -- eapply needs_layer; eauto. now apply layer_names_In.
      * intros [e b k x' A B C|e d x' A B C|e l d x' A B C F].
        -- right. left. unfold has_entry in A. rewrite G in A. injection A as <-. eauto.
        -- left. eauto.
        -- right. right. unfold has_entry in A. rewrite G in A. injection A as <-. exists l, d. split; [now apply layer_names_In|auto].
    + intros l. rewrite layer_names_In. split; [intros Q; exists m; auto|]. intros (e & A & B).
      unfold has_entry in A. rewrite G in A. injection A as <-. exact B.
    + rewrite G. cbn [entry_cost]. rewrite !app_length. destruct o; cbn; lia.
Qed.
Lemma process_ends r : (forall x, chain_ends repos (JStr x)) -> process repos r <> Endless.
Proof.
  intros C. unfold process.
  assert (target_repo_if_precomputed repos r <> Endless) as T by (apply target_repo_ends, C).
  assert (forall ls, layer_targets repos ls <> Endless) as L.
  { induction ls as [|l ls IH]; cbn [layer_targets]; [discriminate|]. pose proof (target_repo_ends _ (C l)) as Q. unfold target_repo_if_precomputed.
    destruct (target_repo _ repos (JStr l)); try discriminate; try congruence. destruct (layer_targets repos ls); discriminate || congruence. }
  destruct (get repos r); try discriminate; destruct (target_repo_if_precomputed repos r); try discriminate; try congruence.
  specialize (L (layer_names m)). destruct (layer_targets repos (layer_names m)); discriminate || congruence.
Qed.

(** The loop. *)
Definition sound (main : string) (queue include setup : list string) : Prop :=
  (forall x, In x queue -> reaches repos main x) /\
  (forall x, In x include -> reaches repos main x) /\
  (In main queue \/ In main include) /\
  (forall x y, In x include -> needs repos x y -> In y queue \/ In y include) /\
  (forall l, In l setup <-> exists x e, In x include /\ has_entry repos x e /\ has_layer e l).

Lemma reach_loop_sound main n : forall queue include setup i s, sound main queue include setup ->
  reach_loop n repos queue include setup = Done (i, s) ->
  (forall x, In x i <-> reaches repos main x) /\ (forall l, In l s <-> exists x e, In x i /\ has_entry repos x e /\ has_layer e l).
Proof.
  induction n as [|n IH]; intros queue include setup i s V E; (destruct queue as [|name rest];
    [cbn in E; injection E as <- <-; destruct V as (V1 & V2 & V3 & V4 & V5); split; [|exact V5]; intros x; split; [apply V2|];
     induction 1 as [|r r' R IHR N]; [now destruct V3 as [[]|V3]|destruct (V4 _ _ IHR N) as [[]|K]; exact K]|]).
  - discriminate.
  - cbn [reach_loop] in E. destruct (mem name include) eqn:M.
    + apply mem_In in M. eapply IH; [|exact E]. destruct V as (V1 & V2 & V3 & V4 & V5). repeat split; auto.
      * intros x I. apply V1. now right.
      * destruct V3 as [[<-|V3]|V3]; auto.
      * intros x y I N. destruct (V4 x y I N) as [[<-|K]|K]; auto.
      * apply V5.
      * apply V5.
    + destruct (process repos name) as [[push ls]| | |] eqn:P; try discriminate. destruct (process_spec _ _ _ P) as (P1 & P2 & _).
      eapply IH; [|exact E]. destruct V as (V1 & V2 & V3 & V4 & V5).
      assert (reaches repos main name) as Rn by (apply V1; now left). repeat split.
      * intros x I. apply in_app_iff in I as [I|I]; [apply V1; now right|]. apply P1 in I. econstructor; eauto.
      * intros x [<-|I]; auto.
      * destruct V3 as [[<-|V3]|V3]; [right; now left|left; apply in_app_iff; auto|right; now right].
      * intros x y [<-|I] N.
        -- left. apply in_app_iff. right. now apply P1.
        -- destruct (V4 x y I N) as [[<-|K]|K]; [right; now left|left; apply in_app_iff; auto|right; now right].
      * rewrite in_app_iff, P2, V5. intros [(e & A & B)|(x & e & A & B & C)]; [exists name, e|exists x, e]; cbn; auto.
      * rewrite in_app_iff, P2, V5. intros (x & e & [<-|A] & B & C); [left|right]; eauto.
Qed.

Definition pending (include : list string) : nat :=
  fold_right (fun p n => (if mem (fst p) include then 0 else entry_cost (snd p)) + n) 0 repos.
Lemma pending_some l include name v : alookup name l = Some v -> mem name include = false ->
  fold_right (fun p n => (if mem (fst p) (name :: include) then 0 else entry_cost (snd p)) + n) 0 l + entry_cost v
  <= fold_right (fun p n => (if mem (fst p) include then 0 else entry_cost (snd p)) + n) 0 l.
Proof.
  intros A M. assert (forall l : fields, fold_right (fun p n => (if mem (fst p) (name :: include) then 0 else entry_cost (snd p)) + n) 0 l
    <= fold_right (fun p n => (if mem (fst p) include then 0 else entry_cost (snd p)) + n) 0 l) as Mono.
  { clear. induction l as [|[k w] l IH]; cbn; [lia|]. cbn in IH. unfold mem in *. cbn in *.
    destruct (String.eqb k name), (existsb (String.eqb k) include); cbn; lia. }
  induction l as [|[k w] l IH]; [discriminate|]. cbn [alookup] in A. cbn [fold_right fst snd].
  destruct (String.eqb_spec name k) as [<-|N].
  - injection A as ->. rewrite M. assert (mem name (name :: include) = true) as -> by (apply mem_In; now left).
    specialize (Mono l). lia.
  - specialize (IH A). assert (mem k (name :: include) = mem k include) as ->.
    { unfold mem. cbn. destruct (String.eqb_spec k name); [congruence|reflexivity]. }
    lia.
Qed.
Lemma pending_none include name : pending (name :: include) <= pending include.
Proof.
  unfold pending. induction repos as [|[k w] l IH]; cbn; [lia|]. unfold mem in *. cbn in *.
  destruct (String.eqb k name), (existsb (String.eqb k) include); cbn; lia.
Qed.

Lemma reach_loop_ends n : (forall x, chain_ends repos (JStr x)) -> forall queue include setup,
  length queue + pending include <= n -> reach_loop n repos queue include setup <> Endless.
Proof.
  intros C. induction n as [|n IH]; intros queue include setup L; (destruct queue as [|name rest]; [discriminate|]); cbn in L; [lia|].
  cbn [reach_loop]. destruct (mem name include) eqn:M; [apply IH; lia|].
  pose proof (process_ends name C) as P. destruct (process repos name) as [[push ls]| | |] eqn:Q; try discriminate; [|congruence].
  apply IH. destruct (process_spec _ _ _ Q) as (_ & _ & K). rewrite app_length.
  destruct (alookup name repos) as [v|] eqn:A.
  - pose proof (pending_some repos include name v A M). unfold pending in *.
    assert (5 <= entry_cost v) by (destruct v; cbn; lia). lia.
  - pose proof (pending_none include name). lia.
Qed.
Lemma pending_nil : pending [] = fold_right (fun p n => entry_cost (snd p) + n) 0 repos.
Proof. reflexivity. Qed.

Lemma union_In a b x : In x (union a b) <-> In x a \/ In x b.
Proof.
  unfold union. rewrite in_app_iff, filter_In. split; [tauto|]. intros [I|I]; [now left|].
  destruct (mem x a) eqn:M; [left; now apply mem_In|right; cbn; auto].
Qed.
Lemma dedup_In l : forall x, In x (dedup l) <-> In x l.
Proof.
  induction l as [|y l IH]; intros x; [reflexivity|].
  change (dedup (y :: l)) with (if mem y (dedup l) then dedup l else y :: dedup l).
  destruct (mem y (dedup l)) eqn:M; cbn [In]; rewrite IH; [|tauto].
  apply mem_In, IH in M. split; [tauto|]. intros [<-|]; tauto.
Qed.

Lemma reachable_spec main i s : reachable_repositories repos main = Done (i, s) ->
  (forall x, In x i <-> reaches repos main x) /\
  (forall x, In x s <-> reaches repos main x \/ exists y e, reaches repos main y /\ has_entry repos y e /\ has_layer e x).
Proof.
  unfold reachable_repositories. destruct (reach_loop _ _ _ _ _) as [[i' s']| | |] eqn:E; try discriminate. intros Q. injection Q as <- <-.
  assert (sound main [main] [] []) as V.
  { repeat split; try (intros; contradiction).
    - intros x [<-|[]]. constructor.
    - left. now left.
    - intros (x & e & [] & _). }
  destruct (reach_loop_sound main _ _ _ _ _ _ V E) as [A B].
  split; [exact A|]. intros x. rewrite union_In, dedup_In, A, B. split.
  - intros [K|(y & e & K)]; [now left|right]. exists y, e. now rewrite <- A.
  - intros [K|(y & e & K)]; [now left|right]. exists y, e. now rewrite A.
Qed.
Lemma reach_rounds main : (forall x, chain_ends repos (JStr x)) -> reachable_repositories repos main <> Endless.
Proof.
  intros C. unfold reachable_repositories. pose proof (reach_loop_ends (reach_bound repos) C [main] [] []) as R.
  destruct (reach_loop _ _ _ _ _) as [[i s]| | |]; try discriminate. exfalso. apply R; [|reflexivity].
  rewrite pending_nil. unfold reach_bound. cbn [length]. lia.
Qed.
Lemma reach_hangs main : ~ chain_ends repos (JStr main) -> reachable_repositories repos main = Endless.
Proof.
  intros C. unfold reachable_repositories, reach_bound. cbn [reach_loop mem existsb Nat.add]. unfold process.
  destruct (alookup main repos) as [v|] eqn:A.
  2:{ exfalso. apply C. apply ce_break. intros e Q. unfold has_entry in Q. congruence. }
  rewrite (get_some _ _ _ A). unfold target_repo_if_precomputed. rewrite (target_repo_hangs _ C).
  destruct v; try reflexivity. exfalso. apply C. apply ce_break. intros e Q. unfold has_entry in Q. congruence.
Qed.
End Trail.
