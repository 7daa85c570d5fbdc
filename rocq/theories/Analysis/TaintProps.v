(** C61: taints and implied export targets; C65: export and configure targets; C66: undefined behaviour. *)
From Coq Require Import String Ascii List Bool Arith.
From Verif Require Import Common.Strs LinkedMap.Model LinkedMap.Proofs Path.Model Expr.Json Expr.Model Expr.OpsProofs Describe.Model.
From Verif Require Import Analysis.Stage Analysis.Model Analysis.Spec Analysis.Proofs Analysis.Taint Analysis.Crash Analysis.Examples.
Import ListNotations.
Local Open Scope string_scope.
Local Open Scope list_scope.
Local Open Scope nat_scope.

(** ** C61 *)

(** A target is tainted with everything a target it depends on, directly or not, is tainted with. *)
Theorem C61_taints_propagate (W : world) (k d : key) (a v : analysed) :
  source_children W -> analyses W k a -> reaches W k d v ->
  forall x, In x (an_tainted v) -> In x (an_tainted a).
Proof. intros SC Ha Hr. exact (taint_reaches W SC k d v Hr a Ha). Qed.
Print Assumptions C61_taints_propagate.

(** A target with an action that may fail or is not to be cached is tainted. *)
Theorem C61_unreliable_actions_taint (W : world) (k : key) (a : analysed) (x : raction) :
  analyses W k a -> In x (an_actions a) -> ra_may_fail x <> None \/ ra_no_cache x = true ->
  an_tainted a <> [].
Proof. intros Ha Hx Hu E. destruct (unreliable_tainted W k a x Ha Hx Hu) as [s Hs]. now rewrite E in Hs. Qed.
Print Assumptions C61_unreliable_actions_taint.

(** Export targets are untainted, and nothing they depend on has an action that may fail or is not to be
    cached. *)
Theorem C61_exports_reliable (W : world) (t : target) (c : env) (a : analysed) fl te fx :
  faithful_equality W -> source_children W ->
  w_definition W t = DExport fl te fx -> analyses W (t, c) a ->
  an_tainted a = [] /\
  forall d v x, reaches W (t, c) d v -> In x (an_actions v) -> ra_may_fail x = None /\ ra_no_cache x = false.
Proof.
  intros FE SC Ed Ha. split; [exact (proj1 (export_result W FE t c a fl te fx Ed Ha))|].
  intros d v x Hr Hx. pose proof (export_reliable W SC FE t c a fl te fx d v x Ed Ha Hr Hx) as Hn. unfold unreliable in Hn.
  destruct (ra_may_fail x); [exfalso; apply Hn; left; discriminate|]. destruct (ra_no_cache x); auto. exfalso. auto.
Qed.
Print Assumptions C61_exports_reliable.

(** The export targets a result depends on are all listed with it, provided they are eligible for caching and
    none was taken from a cache. *)
Theorem C61_implied_exports (W : world) (k d : key) (a v : analysed) (s : string) :
  faithful_equality W -> source_children W ->
  (forall k', ~ ineligible W k') -> (forall k', not_served W k') ->
  analyses W k a -> reaches W k d v -> export_key W d = Some s -> In s (an_implied a).
Proof. intros FE SC. exact (export_keys_implied W SC FE k a d v s). Qed.
Print Assumptions C61_implied_exports.

(** In general, what a dependency implies is implied, unless the target is an export target that is not
    eligible for caching. *)
Theorem C61_implied_propagate (W : world) (k d : key) (a v : analysed) :
  source_children W -> analyses W k a -> depends W k d v -> ~ ineligible W k ->
  forall x, In x (an_implied v) -> In x (an_implied a).
Proof. intros SC Ha Hd Hn. destruct (passes W SC k a d v Ha Hd) as [_ [Hi|Hi]]; [contradiction|exact Hi]. Qed.
Print Assumptions C61_implied_propagate.

Lemma got (t : string) (c : env) a : result_of t c = ODone a -> analyses ex_world (JStr t, c) a.
Proof. apply analyse_sound. Qed.
Lemma depends_of (t : string) c d v : (match program_of ex_world (JStr t, c) with
   | PRequest [x] _ => x = d | _ => False end) -> analyses ex_world d v -> depends ex_world (JStr t, c) d v.
Proof.
  intros Hp Hd. unfold depends. destruct (program_of ex_world (JStr t, c)) as [ | | |ks k]; try contradiction.
  destruct ks as [|x [|]]; try contradiction. subst x. apply req_now with (vs := [v]); [|now left].
  apply all_Forall2. constructor; [auto|constructor].
Qed.
Lemma eligible : forall k', ~ ineligible ex_world k'.
Proof.
  intros k' (fl & te & fx & E & En). cbn in E, En. unfold ex_definition in E. destruct (fst k'); try discriminate.
Qed.

(** The exported program implies its own key, and what uses the export implies it too; the test is tainted
    and cannot be exported. *)
Example C61_nonvacuous :
  faithful_equality ex_world /\ source_children ex_world /\
  (forall k', ~ ineligible ex_world k') /\ (forall k', not_served ex_world k') /\
  (exists a v, analyses ex_world (JStr "use", on_x86) a /\ reaches ex_world (JStr "use", on_x86) (JStr "out", on_x86) v /\
     an_implied a = ["key out x86"] /\ export_key ex_world (JStr "out", on_x86) = Some "key out x86") /\
  (exists a x, analyses ex_world (JStr "check", on_x86) a /\ an_tainted a = ["test"] /\ In x (an_actions a) /\ ra_may_fail x <> None) /\
  result_of "out check" on_x86 = OFail /\
  (exists v, analyses ex_world (JStr "out", on_x86) v).
Proof.
  split; [exact ex_faithful|]. split; [exact ex_sources|]. split; [exact eligible|]. split.
  { intros k'. unfold not_served. destruct (export_key ex_world k'); exact I. }
  split; [|split; [|split]].
  - destruct (result_of "use" on_x86) as [a| | |] eqn:E; try (vm_compute in E; discriminate).
    destruct (result_of "out" on_x86) as [v| | |] eqn:E'; try (vm_compute in E'; discriminate).
    exists a, v. split; [now apply got|]. split.
    { apply reach_direct. apply depends_of; [vm_compute; reflexivity|now apply got]. }
    change (an_implied a) with (implied_of' (ODone a)). rewrite <- E. vm_compute. auto.
  - destruct (result_of "check" on_x86) as [a| | |] eqn:E; try (vm_compute in E; discriminate).
    vm_compute in E. injection E as <-. eexists. eexists. split; [apply got; vm_compute; reflexivity|].
    split; [reflexivity|]. split; [left; reflexivity|]. discriminate.
  - vm_compute. reflexivity.
  - destruct (result_of "out" on_x86) as [v| | |] eqn:E'; try (vm_compute in E'; discriminate). exists v. now apply got.
Qed.

(** ** C65 *)

(** An export target that is not served from a cache has the result of the exported target, in the
    configuration restricted to the flexible variables and extended by the fixed ones, which are others. *)
Theorem C65_export (W : world) (t : target) (c : env) (a : analysed) fl te fx :
  faithful_equality W -> w_definition W t = DExport fl te fx -> analyses W (t, c) a ->
  not_served W (t, c) ->
  exists et m v c', w_parse W t te = Some et /\ fx = EMap m /\
    (forall x, In x (map fst m) -> ~ In x fl) /\
    (forall x, Find c' x = match alookup x m with
                           | Some y => Some y
                           | None => if in_dec string_dec x fl then Some (env_get c x) else None
                           end) /\
    analyses W (et, c') v /\ an_result a = an_result v /\
    an_tainted v = [] /\ IsCacheable (EMap (t_provides (an_result v))) = true.
Proof.
  intros FE Ed Ha Hs. destruct (export_result W FE t c a fl te fx Ed Ha) as (_ & _ & _ & He).
  destruct (He Hs) as (et & m & v & H1 & H2 & H3 & H4 & H5 & H6 & H7 & _).
  exists et, m, v, (update (Prune c fl) fx). split; [auto|]. split; [auto|]. split; [auto|]. split; [|auto].
  intros x. rewrite update_find. subst fx. cbn [map_expr Find IsNotNull]. rewrite prune_lookup.
  destruct (alookup x m); auto.
Qed.
Print Assumptions C65_export.

(** If the cache or the serve endpoint has an entry for the key of the target in the configuration restricted
    to the flexible variables, the result and the implied export targets are those of the entry. *)
Theorem C65_export_from_cache (W : world) (t : target) (c : env) (a : analysed) fl te fx s r im :
  faithful_equality W -> w_definition W t = DExport fl te fx -> analyses W (t, c) a ->
  w_cache_key W t (Prune c fl) = Some s -> w_served W s = SEntry (Some (r, im)) ->
  an_result a = r /\ an_implied a = im /\ an_tainted a = [] /\ an_vars a = fl.
Proof.
  intros FE Ed Ha Hk Hs. destruct (export_result W FE t c a fl te fx Ed Ha) as (E1 & E2 & _).
  destruct (export_served W FE t c a fl te fx s r im Ed Ha) as [E3 E4]; auto.
  unfold export_key. cbn. now rewrite Ed.
Qed.
Print Assumptions C65_export_from_cache.

(** A configure target has the result of its target in the configuration updated by the given map. *)
Theorem C65_configure (W : world) (t : target) (c : env) (a : analysed) vars te ce tn :
  w_definition W t = DConfigure vars te ce tn -> analyses W (t, c) a ->
  exists name ct m v c', evaluate W te (Prune c vars) = Some name /\ w_parse W t name = Some ct /\
    evaluate W ce (Prune c vars) = Some (EMap m) /\
    (forall x, Find c' x = match alookup x m with Some y => Some y | None => Find c x end) /\
    analyses W (ct, c') v /\ an_result a = an_result v.
Proof.
  intros Ed Ha. destruct (configure_result W t c a vars te ce tn Ed Ha) as (ct & m & v & (e & H1 & H2) & H3 & H4 & H5).
  exists e, ct, m, v, (update c (EMap m)). split; [auto|]. split; [auto|]. split; [auto|]. split; [|auto].
  intros x. rewrite update_find. cbn [map_expr Find IsNotNull]. destruct (alookup x m); auto.
Qed.
Print Assumptions C65_configure.

Example C65_nonvacuous :
  (exists a, analyses ex_world (JStr "out", on_x86) a /\ stage_of (ODone a) = ["out"] /\ not_served ex_world (JStr "out", on_x86)) /\
  (exists a v, analyses ex_world (JStr "for arm", on_x86) a /\ analyses ex_world (JStr "bin", on_arm) v /\ an_result a = an_result v /\
     an_vars a = ["OS"]) /\
  result_of "out check" on_x86 = OFail.
Proof.
  split; [|split].
  - destruct (result_of "out" on_x86) as [v| | |] eqn:E; try (vm_compute in E; discriminate). exists v. split; [now apply got|].
    split; [rewrite <- E; vm_compute; reflexivity|]. unfold not_served. destruct (export_key _ _); exact I.
  - destruct (result_of "for arm" on_x86) as [a| | |] eqn:E; try (vm_compute in E; discriminate).
    destruct (result_of "bin" on_arm) as [v| | |] eqn:E'; try (vm_compute in E'; discriminate).
    exists a, v. split; [now apply got|]. split; [now apply got|].
    vm_compute in E, E'. injection E as <-. injection E' as <-. split; reflexivity.
  - vm_compute. reflexivity.
Qed.

(** ** C66 *)

(** Full statement: no analysis runs into undefined behaviour. It is false: a "generic" target whose "deps"
    cannot be evaluated dereferences a null pointer after the error has been reported. *)
Theorem C66_no_undefined_behaviour_refuted :
  exists (W : world) (k : key), faithful_equality W /\ source_children W /\ crashes W k.
Proof.
  exists ex_world, (JStr "bad", on_x86). split; [exact ex_faithful|]. split; [exact ex_sources|].
  eapply generic_crash; reflexivity.
Qed.
Print Assumptions C66_no_undefined_behaviour_refuted.

(** It holds if the "deps" of "generic" targets can be evaluated (and source files have an entry). *)
Theorem C66_no_undefined_behaviour_partial (W : world) (k : key) :
  source_children W ->
  (forall t st, w_definition W t = DSource st -> st <> []) ->
  (forall t vars deps outs od cmds cwd env_e sh tmo props tn c,
     w_definition W t = DGeneric vars deps outs od cmds cwd env_e sh tmo props tn -> evaluate W deps (Prune c vars) <> None) ->
  ~ crashes W k.
Proof. intros SC SN GN. exact (no_crash W SC SN GN k). Qed.
Print Assumptions C66_no_undefined_behaviour_partial.
