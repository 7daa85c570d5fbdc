(** Configurations stay plain: the configurations in which dependencies are requested. *)
From Coq Require Import String Ascii List Bool Arith.
From Verif Require Import Common.Strs LinkedMap.Model Path.Model Expr.Json Expr.Model LinkedMap.Proofs Expr.OpsProofs Describe.Model.
From Verif Require Import Analysis.Stage Analysis.Model Analysis.Spec Analysis.HonestSpec Analysis.Proofs.
Import ListNotations.
Local Open Scope string_scope.
Local Open Scope list_scope.
Local Open Scope nat_scope.

Lemma special_list x l : special_in x (EList l) <-> exists e, In e l /\ special_in x e.
Proof.
  induction l as [|y r IH]; [split; [intros []|intros (e & [] & _)]|].
  change (special_in x y \/ special_in x (EList r) <-> (exists e, In e (y :: r) /\ special_in x e)). rewrite IH. split.
  - intros [A|(e & A & B)]; [exists y|exists e]; split; auto; [now left|now right].
  - intros (e & [->|A] & B); [now left|right; eauto].
Qed.
Lemma special_map x m : special_in x (EMap m) <-> exists e, In e m /\ special_in x (snd e).
Proof.
  induction m as [|[k y] r IH]; [split; [intros []|intros (e & [] & _)]|].
  change (special_in x y \/ special_in x (EMap r) <-> (exists e, In e ((k, y) :: r) /\ special_in x (snd e))). rewrite IH. split.
  - intros [A|(e & A & B)]; [exists (k, y)|exists e]; split; auto; [now left|now right].
  - intros (e & [<-|A] & B); [now left|right; eauto].
Qed.

Lemma plain_none : plain ENone. Proof. intros x []. Qed.
Lemma plain_list l : plain (EList l) <-> forall e, In e l -> plain e.
Proof.
  split; [intros H e He x Hx; apply (H x); apply special_list; eauto|].
  intros H x Hx. apply special_list in Hx as (e & He & Hx). exact (H e He x Hx).
Qed.
Lemma plain_map m : plain (EMap m) <-> forall e, In e m -> plain (snd e).
Proof.
  split; [intros H e He x Hx; apply (H x); apply special_map; eauto|].
  intros H x Hx. apply special_map in Hx as (e & He & Hx). exact (H e He x Hx).
Qed.

Lemma strings_plain v l : strings v = Some l -> plain v.
Proof.
  unfold strings. destruct v as [| | | | | | | |vs|]; try discriminate. destruct (forallb _ vs) eqn:E; [|discriminate]. intros _.
  apply plain_list. intros e He. rewrite forallb_forall in E. specialize (E e He). destruct e; try discriminate. intros x [].
Qed.

Lemma prune_plain c vars : plain_env c -> plain_env (Prune c vars).
Proof.
  intros H x v Hv. rewrite prune_lookup in Hv. destruct (in_dec string_dec x vars); [|discriminate]. injection Hv as <-.
  unfold env_get. destruct (Find c x) eqn:E; [exact (H _ _ E)|exact plain_none].
Qed.
Lemma update_plain c tr : plain_env c -> plain tr -> plain_env (update c tr).
Proof.
  intros H Ht x v Hv. rewrite update_find in Hv. destruct (Find (map_expr tr) x) as [w|] eqn:E; [|exact (H _ _ Hv)]. injection Hv as <-.
  unfold map_expr in E. destruct tr as [| | | | | | | | |m]; try discriminate. cbn in E.
  destruct (alookup x m) eqn:Ey; [|discriminate]. injection E as <-. apply alookup_In in Ey. rewrite plain_map in Ht. exact (Ht _ Ey).
Qed.

Lemma honest_weaken s : forall G G' : expr -> Prop, (forall x, G x -> G' x) -> honest G s -> honest G' s.
Proof.
  induction s as [v| |c k IH]; intros G G' HG; cbn [honest]; [eauto|auto|]. intros [Hc Hk]. split.
  - destruct c; cbn [call_within] in *; eauto.
  - intros a. eapply IH; [|exact (Hk a)]. cbn. intros x [Hx|Hx]; auto.
Qed.

Lemma run_plain h s : (forall c e a e', h c e = Some (Some a, e') -> plain a) ->
  forall e v e', honest (fun _ => False) s -> run h s e = Some (v, e') -> plain v.
Proof.
  intros Hh. induction s as [v0| |c k IH]; intros e v e' Hs; cbn [run]; [|discriminate|].
  - intros X. injection X as <- <-. exact Hs.
  - destruct Hs as [_ Hk]. destruct (h c e) as [[a e1]|] eqn:E; [|discriminate]. apply IH.
    eapply honest_weaken; [|exact (Hk a)]. cbn. intros x [[]|Hx]. destruct a as [a|]; [|exact Hx]. exact (Hh _ _ _ _ E x Hx).
Qed.

Section Clean.
Variable W : world.
Hypothesis HE : honest_evaluator W.
Hypothesis PD : plain_definitions W.

Definition clean (k : key) : Prop := plain_env (snd k).

Lemma evaluate_plain e c v : plain e -> plain_env c -> evaluate W e c = Some v -> plain v.
Proof.
  intros He Hc. unfold evaluate. destruct (run no_functions (w_eval W e c) no_effects) as [[v0 e0]|] eqn:E; [|discriminate].
  cbn. intros X. injection X as <-. eapply run_plain; [|exact (HE e c He Hc)|exact E]. intros ? ? ? ? X. discriminate X.
Qed.

Lemma eval_fields_plain ev ex ns : forall ps ps', (forall e, In e ps -> plain (snd e)) -> eval_fields ev ex ns ps = Some ps' -> forall e, In e ps' -> plain (snd e).
Proof.
  induction ns as [|n r IH]; intros ps ps' Hps; cbn [eval_fields]; [intros X; injection X as <-; auto|].
  unfold bind. destruct (ev (ex n)) as [v|]; [|discriminate]. destruct (strings v) eqn:E; [|discriminate].
  apply IH. intros e He. apply in_app_or in He as [He|[<-|[]]]; auto. cbn. eapply strings_plain; eauto.
Qed.

Lemma eval_transitions_plain r ps c names : forall ts, (forall n, plain (r_transitions r n)) -> plain_env c -> (forall e, In e ps -> plain (snd e)) ->
  eval_transitions W r ps c names = Some ts -> forall n tr, In tr (transitions_of ts n) -> plain tr.
Proof.
  intros ts Hr Hc Hp. revert ts. induction names as [|m rest IH]; intros ts; cbn [eval_transitions].
  - intros X. injection X as <-. intros n tr [].
  - unfold bind. destruct (run (transition_functions ps) (w_eval W (r_transitions r m) c) no_effects) as [[v e0]|] eqn:E; [|discriminate]. cbn [option_map fst].
    destruct (is_transition v) as [l|] eqn:Et; [|discriminate]. destruct (eval_transitions W r ps c rest) as [ts0|]; [|discriminate].
    intros X. injection X as <-. intros n tr. unfold transitions_of. cbn [alookup]. destruct (String.eqb n m); [|exact (IH ts0 eq_refl n tr)].
    intros Htr. assert (Hv : plain v).
    { eapply run_plain; [|exact (HE _ c (Hr m) Hc)|exact E]. intros cl e a e' X. unfold transition_functions in X. destruct cl as [name| | | | | | | | | | | | |]; try discriminate.
      unfold bind, field in X. destruct name; try discriminate. destruct (alookup s ps) as [w|] eqn:Ew; [|discriminate]. injection X as <- <-.
      apply alookup_In in Ew. exact (Hp _ Ew). }
    unfold is_transition in Et. destruct v; try discriminate. destruct (forallb _ l0); [|discriminate]. injection Et as <-.
    rewrite plain_list in Hv. exact (Hv _ Htr).
Qed.

(** The requests of a program. *)
Lemma rq_bind {A} (x : option A) f d v : requested W (pbind x f) d v -> exists y, x = Some y /\ requested W (f y) d v.
Proof. destruct x; cbn [pbind]; [eauto|inversion 1]. Qed.
Lemma rq_if (b : bool) p q d v : requested W (if b then p else q) d v -> (b = true /\ requested W p d v) \/ (b = false /\ requested W q d v).
Proof. destruct b; auto. Qed.
Lemma rq_req ks f d v : requested W (PRequest ks f) d v -> In d ks \/ exists vs, requested W (f vs) d v.
Proof. inversion 1; subst; [left; eauto using in_combine_l|right; eauto]. Qed.

Lemma plain_deps_clean c ts d : plain_env c -> In d (plain_deps c ts) -> clean d.
Proof. intros Hc Hd. apply in_map_iff in Hd as (t & <- & _). exact Hc. Qed.
Lemma keys_clean c ks d : plain_env c -> (forall k, In k ks -> plain (snd k)) -> In d (keys_in c ks) -> clean d.
Proof. intros Hc Hk Hd. apply in_map_iff in Hd as (k & <- & Hin). apply update_plain; auto. Qed.
Lemma transitioned_snd ts ns k : In k (transitioned ts ns) -> In (snd k) ts.
Proof. intros H. apply in_flat_map in H as (tr & Htr & H). apply in_map_iff in H as (t & <- & _). exact Htr. Qed.

Ltac dead H := try (now inversion H).
Theorem requests_clean k d v : clean k -> depends W k d v -> clean d.
Proof.
  destruct k as [t c]. unfold clean, depends. cbn [snd]. intros Hc H. specialize (PD t). unfold program_of in H.
  destruct (w_definition W t) as [|st|sts|n j|n ch|r|r dd|ty vars deps nm data tn|dj vars deps nm tn|vars deps files dirs tn
    |vars deps outs od cmds cwd ev sh tmo props tn|vars te ce tn|fl te fx|fl] eqn:Ed; dead H.
  - unfold source_tree in H. apply rq_req in H as [H|(vs & H)]; [eapply plain_deps_clean; [|exact H]; intros x w X; discriminate X|].
    destruct (tree_entries vs []); inversion H.
  - destruct PD as [Pe Pt]. unfold withRuleDefinition in H. cbv zeta in H.
    apply rq_bind in H as (ps0 & E0 & H). apply rq_bind in H as (ts & E1 & H). apply rq_bind in H as ([ps1 decl] & E2 & H).
    assert (Hts : forall n tr, In tr (transitions_of ts n) -> plain tr).
    { eapply eval_transitions_plain; [exact Pt|apply prune_plain; exact Hc| |exact E1]. eapply eval_fields_plain; [|exact E0]. intros e []. }
    assert (Hdecl : forall k, In k decl -> plain (snd (snd k))).
    { assert (G : forall fs ps ks ps' ks', (forall k, In k ks -> plain (snd (snd k))) -> target_fields W t dd (Prune c (td_vars dd)) ts fs ps ks = Some (ps', ks') ->
        forall k, In k ks' -> plain (snd (snd k))).
      { induction fs as [|f r0 IH]; intros ps ks ps' ks' Hks; cbn [target_fields]; [intros X; injection X as <- <-; auto|].
        unfold bind. destruct (evaluate W (td_target dd f) (Prune c (td_vars dd))) as [w|]; [|discriminate]. destruct w; try discriminate.
        destruct (dep_names _ _ _ _) as [nms|]; [|discriminate]. apply IH. intros k Hk. apply in_app_or in Hk as [Hk|Hk]; auto.
        apply in_map_iff in Hk as (q & <- & Hq). cbn [snd]. apply transitioned_snd in Hq. exact (Hts _ _ Hq). }
      eapply G; [|exact E2]. intros k []. }
    apply rq_req in H as [H|(vs & H)].
    { eapply keys_clean; [exact Hc| |exact H]. intros k Hk. apply in_map_iff in Hk as (q & <- & Hq). apply in_app_or in Hq as [Hq|Hq]; [auto|].
      unfold implicit_keys in Hq. apply in_flat_map in Hq as (p & _ & Hq). apply in_map_iff in Hq as (q' & <- & Hq). cbn [snd].
      apply transitioned_snd in Hq. exact (Hts _ _ Hq). }
    apply rq_bind in H as ([ps3 akeys] & E3 & H).
    assert (Ha : forall k, In k akeys -> plain (snd k)).
    { assert (G : forall defs ps ks ps' ks', (forall k, In k ks -> plain (snd k)) -> anonymous W ts (map fst (decl ++ implicit_keys r ts)) vs defs ps ks = Some (ps', ks') ->
        forall k, In k ks' -> plain (snd k)).
      { induction defs as [|[n0 df] r0 IH]; intros ps ks ps' ks' Hks; cbn [anonymous]; [intros X; injection X as <- <-; auto|].
        unfold bind. destruct (anon_names _ _ _ _) as [nms|]; [|discriminate]. apply IH. intros k Hk. apply in_app_or in Hk as [Hk|Hk]; auto.
        apply transitioned_snd in Hk. exact (Hts _ _ Hk). }
      eapply G; [|exact E3]. intros k []. }
    apply rq_req in H as [H|(avs & H)]; [eapply keys_clean; [exact Hc|exact Ha|exact H]|].
    unfold withDependencies in H. cbv zeta in H. apply rq_bind in H as (tn0 & _ & H). apply rq_if in H as [[_ H]|[_ H]]; dead H.
    apply rq_bind in H as (ps4 & _ & H). apply rq_bind in H as ([w e] & _ & H).
    destruct w as [| | | | | |r1 r2 r3 b| | |]; dead H. destruct r1; dead H. destruct r2; dead H. destruct r3; inversion H.
  - unfold blob_gen in H. apply rq_bind in H as (? & _ & H). apply rq_bind in H as (? & _ & H).
    apply rq_req in H as [H|(vs & H)]; [eapply plain_deps_clean; [exact Hc|exact H]|].
    unfold blob_gen_with_deps in H. cbv zeta in H. apply rq_bind in H as (? & _ & H). apply rq_if in H as [[_ H]|[_ H]]; dead H.
    apply rq_bind in H as (nv & _ & H). destruct nv; dead H. apply rq_bind in H as (dv & _ & H). destruct dv; dead H.
    apply rq_if in H as [[_ H]|[_ H]]; inversion H.
  - unfold tree_rule in H. apply rq_bind in H as (? & _ & H). apply rq_bind in H as (? & _ & H). apply rq_bind in H as (nv & _ & H).
    destruct nv; dead H. apply rq_req in H as [H|(vs & H)]; [eapply plain_deps_clean; [exact Hc|exact H]|].
    unfold tree_with_deps in H. cbv zeta in H. apply rq_bind in H as (? & _ & H). apply rq_if in H as [[_ H]|[_ H]]; dead H.
    destruct dj; dead H. apply rq_bind in H as (st & _ & H). destruct (tree_conflict st); inversion H.
  - unfold install_rule in H. cbv zeta in H. apply rq_bind in H as (? & _ & H). apply rq_bind in H as (? & _ & H).
    destruct files; dead H. apply rq_bind in H as (? & _ & H). apply rq_bind in H as (dv & _ & H). destruct dv; dead H.
    apply rq_bind in H as (? & _ & H). apply rq_req in H as [H|(vs & H)]; [eapply plain_deps_clean; [exact Hc|exact H]|].
    unfold install_with_deps in H. cbv zeta in H. apply rq_bind in H as (? & _ & H). apply rq_if in H as [[_ H]|[_ H]]; dead H.
    do 4 apply rq_bind in H as (? & _ & H). apply rq_bind in H as (fin & _ & H). destruct (tree_conflict fin); inversion H.
  - unfold generic_rule in H. destruct (evaluate W deps (Prune c vars)); dead H. apply rq_bind in H as (? & _ & H).
    apply rq_req in H as [H|(vs & H)]; [eapply plain_deps_clean; [exact Hc|exact H]|].
    unfold generic_with_deps in H. cbv zeta in H. apply rq_bind in H as (? & _ & H). apply rq_if in H as [[_ H]|[_ H]]; dead H.
    do 5 apply rq_bind in H as (? & _ & H). apply rq_bind in H as (wd & _ & H). destruct wd; dead H.
    do 5 apply rq_bind in H as (? & _ & H).
    match type of H with requested _ (match ?x with Some _ => _ | None => _ end) _ _ => destruct x end; dead H.
    match type of H with requested _ (let '(_, _) := ?x in _) _ _ => destruct x end.
    match type of H with requested _ (match ?x with Some _ => _ | None => _ end) _ _ => destruct x end; inversion H.
  - unfold configure_rule in H. cbv zeta in H. apply rq_bind in H as (? & _ & H). apply rq_bind in H as (? & _ & H).
    destruct ce as [| | | | | | | | |cm]; dead H. apply rq_bind in H as (tr & Etr & H). destruct tr as [| | | | | | | | |m]; dead H.
    apply rq_req in H as [[<-|[]]|(vs & H)].
    + cbn [snd]. apply update_plain; [exact Hc|]. eapply evaluate_plain; [exact PD|apply prune_plain; exact Hc|exact Etr].
    + destruct vs as [|w [|]]; dead H. apply rq_if in H as [[_ H]|[_ H]]; inversion H.
  - assert (Hu : forall ck, requested W (export_uncached W fl te fx t (Prune c fl) ck) d v -> plain_env (snd d)).
    { intros ck Hu. unfold export_uncached in Hu. apply rq_bind in Hu as (et & _ & Hu). destruct fx as [| | | | | | | | |fm]; dead Hu.
      apply rq_if in Hu as [[_ Hu]|[_ Hu]]; dead Hu. apply rq_req in Hu as [[<-|[]]|(vs & Hu)].
      - cbn [snd]. apply update_plain; [apply prune_plain; exact Hc|exact PD].
      - destruct vs as [|w [|]]; dead Hu. unfold finalize_export in Hu. destruct (negb _); dead Hu. destruct (negb _); inversion Hu. }
    unfold export_rule in H. cbv zeta in H. apply rq_if in H as [[_ H]|[_ H]].
    + destruct (w_cache_key W t (Prune c fl)) as [s|]; [|exact (Hu _ H)].
      destruct (w_served W s) as [| |[[r im]|]]; dead H; exact (Hu _ H).
    + apply rq_req in H as [[<-|[]]|(vs & H)]; [cbn [snd]; now apply prune_plain|]. destruct vs as [|w [|]]; inversion H.
  - unfold absent_target in H. cbv zeta in H. apply rq_if in H as [[_ H]|[_ H]].
    + destruct (w_cache_key W t (Prune c fl)) as [s|]; dead H. destruct (w_served_absent W s) as [| |[[r im]|]]; inversion H.
    + apply rq_req in H as [[<-|[]]|(vs & H)]; [cbn [snd]; now apply prune_plain|]. destruct vs as [|w [|]]; inversion H.
Qed.

Lemma runsP_requested (P Q : key -> analysed -> Prop) p a : (forall d v, P d v -> analyses W d v) -> runsP P p a ->
  (forall d v, requested W p d v -> Q d v) -> runsP (fun d v => P d v /\ Q d v) p a.
Proof.
  intros HP H. induction H as [a|ks k vs a Hv H IH]; intros HQ; [constructor|].
  assert (Hall : all_analyse W ks vs).
  { apply all_Forall2. clear -Hv HP. induction Hv; constructor; auto. }
  apply (rp_request _ ks k vs).
  - assert (Hq : forall d v, In (d, v) (combine ks vs) -> Q d v) by (intros d v Hin; apply HQ; econstructor; eauto).
    clear -Hv Hq. induction Hv as [|x y l m Hxy Hv IHv]; constructor; [split; [exact Hxy|apply Hq; now left]|]. apply IHv. intros d v Hin. apply Hq. now right.
  - apply IH. intros d v Hd. apply HQ. eapply req_later; eauto.
Qed.

(** Induction over the analysis of targets in plain configurations. *)
Theorem clean_ind (Q : key -> analysed -> Prop) :
  (forall k a, clean k -> analyses W k a -> runsP (fun d v => analyses W d v /\ depends W k d v /\ Q d v) (program_of W k) a -> Q k a) ->
  forall k a, analyses W k a -> clean k -> Q k a.
Proof.
  intros Hstep. apply (analyses_ind' W (fun k a => clean k -> Q k a)). intros k a Hr Hk.
  assert (Ha : analyses W k a).
  { apply analyses_of. clear -Hr. induction Hr as [|ks f vs a Hv H IH]; [constructor|]. apply (rp_request _ ks f vs); [|exact IH].
    clear -Hv. induction Hv; constructor; tauto. }
  apply Hstep; auto.
  assert (Hr' : runsP (fun d v => (analyses W d v /\ (clean d -> Q d v)) /\ depends W k d v) (program_of W k) a).
  { apply runsP_requested; [tauto|exact Hr|auto]. }
  clear Hr. revert Hr'. generalize (program_of W k) as p. induction 1 as [a|ks f vs a Hv H IH]; [constructor|]. apply (rp_request _ ks f vs); [|exact (IH Ha)].
  clear -Hv Hk HE PD. induction Hv as [|d v l m Hdv Hv IH]; constructor; auto. destruct Hdv as [[A B] C]. split; [exact A|]. split; [exact C|].
  apply B. eapply requests_clean; eauto.
Qed.
End Clean.
