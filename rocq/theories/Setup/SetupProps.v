(** C110-C114: from the configuration of just-mr to the roots just uses. *)
From Coq Require Import String Ascii List Bool Arith Lia Sorted.
From Verif Require Import Common.Strs Expr.Json Setup.Model Setup.Spec Setup.Chains Setup.Fill Setup.Just Setup.Succeeds Setup.Examples.
Import ListNotations.
Local Open Scope string_scope.
Local Open Scope list_scope.
Local Open Scope nat_scope.

Lemma left_out_some m i r : left_out (Some m) i r = false <-> (i = true -> r <> m).
Proof.
  unfold left_out. destruct i; cbn; [|split; [discriminate|reflexivity]]. destruct (String.eqb_spec r m); split; congruence || tauto.
Qed.
Lemma left_out_yes m r : left_out (Some m) true r = true <-> r = m.
Proof. unfold left_out. cbn. apply String.eqb_eq. Qed.

Section P.
Variable fetch : fields -> option json.
Variable order_setup order_include : list string -> list string.
Hypothesis Hs : enumerates order_setup.
Hypothesis Hi : enumerates order_include.
Notation mr_setup := (mr_setup fetch order_setup order_include).

Lemma setup_main args conf c repos m : mr_setup args conf = Done c -> alookup "repositories" conf = Some (JObj repos) -> is_main args conf repos m ->
  match j_main c with Some m => Some m | None => least (keys repos) end = Some m.
Proof.
  intros E R M. destruct (mr_setup_inv _ _ _ Hs Hi _ _ _ E) as (repos' & main & include & setup & vs & A1 & A2 & _).
  rewrite R in A1. injection A1 as <-. now apply (main_chosen args conf repos (j_main c) m A2).
Qed.

(** C110: the configuration has exactly the repositories reached from the main one. *)
Theorem C110_exactly : forall args conf c repos m, mr_setup args conf = Done c -> alookup "repositories" conf = Some (JObj repos) ->
  is_main args conf repos m -> a_all args = false -> forall r, In r (keys (j_repos c)) <-> reaches repos m r.
Proof.
  intros args conf c repos m E R M A. pose proof (setup_main _ _ _ _ _ E R M) as Q.
  destruct (setup_fields _ _ _ Hs Hi _ _ _ _ _ E R Q) as (_ & K & _). now apply K.
Qed.
(** With --all, it has all of them. *)
Theorem C110_all : forall args conf c repos, mr_setup args conf = Done c -> alookup "repositories" conf = Some (JObj repos) ->
  a_all args = true -> forall r, In r (keys (j_repos c)) <-> In r (keys repos).
Proof.
  intros args conf c repos E R A.
  destruct (setup_fields _ _ _ Hs Hi _ _ _ _ _ E R eq_refl) as (_ & _ & K & _). apply K. auto.
Qed.
(** Whatever the configuration written refers to is in it: bindings, and the repositories any of the roots is to be
    computed in. *)
Theorem C110_closed : forall args conf c repos m, mr_setup args conf = Done c -> alookup "repositories" conf = Some (JObj repos) ->
  is_main args conf repos m -> a_all args = false -> fetches_trees fetch ->
  forall r f, In (r, f) (j_repos c) ->
  (forall b x r', alookup "bindings" f = Some (JObj b) -> In (x, JStr r') b -> In r' (keys (j_repos c))) /\
  (forall k ty r' l, In k ["workspace_root"; "target_root"; "rule_root"; "expression_root"] -> In ty ["computed"; "tree structure"] ->
     alookup k f = Some (JArr (JStr ty :: JStr r' :: l)) -> In r' (keys (j_repos c))).
Proof.
  intros args conf c repos m E R M A Ft r f I. pose proof (setup_main _ _ _ _ _ E R M) as Q.
  destruct (setup_fields _ _ _ Hs Hi _ _ _ _ _ E R Q) as (S1 & K & _ & F & _). specialize (K A m eq_refl).
  assert (reaches repos m r) as Rr by (apply K; apply (in_map fst) in I; exact I).
  apply sorted_alookup_In in I; [|exact S1]. specialize (F r f I). split.
  - intros b x r' B J. apply K. apply (reaches_on _ _ r); [exact Rr|].
    apply (ff_taken _ _ _ _ _ _ _ F "bindings" (or_introl eq_refl)) in B as (e & He & B & _). eapply needs_bound; eauto.
  - intros k ty r' l J T V. apply K. apply (reaches_on _ _ r); [exact Rr|].
    assert (forall d root, written fetch d root -> root = JArr (JStr ty :: JStr r' :: l) -> refers d r') as W.
    { intros d root [d' ty' root' _ _ P|d' p P] Z.
      - subst root'. destruct (Ft _ _ P) as (k' & l' & X & Y). injection X as -> _. exfalso. cbn in T, Y. intuition congruence.
      - apply parse_precomputed_refers. exists p. split; [exact P|]. destruct p; cbn in *; congruence. }
    destruct (left_out (Some m) (a_interactive args) r) eqn:LO.
    { rewrite (ff_left _ _ _ _ _ _ _ F LO k) in V; [discriminate|exact J]. }
    destruct (ff_root _ _ _ _ _ _ _ F LO) as (e & d & root & He & D & Wd & Ws & L). destruct J as [<-|J].
    + rewrite Ws in V. injection V as V. eapply needs_own; eauto.
    + destruct (L k J) as [[_ N]|(l' & El & [[_ N]|[_ [[_ N]|(d' & root' & D' & W' & N)]]])]; rewrite N in V; try discriminate.
      injection V as V. eapply (needs_layer _ _ e l'); eauto. exists k. auto.
Qed.

(** C111: the workspace root of a repository is that of its description. Missing: for computed roots, only if module and
    name of the target are the same. *)
Theorem C111_roots_partial : forall args conf c repos m r f, mr_setup args conf = Done c -> alookup "repositories" conf = Some (JObj repos) ->
  is_main args conf repos m -> In (r, f) (j_repos c) -> (a_interactive args = true -> r <> m) ->
  exists d root, described repos r d /\ alookup "workspace_root" f = Some root /\
    ((forall r' mo n cf a, computed_as d r' mo n cf a -> mo = n) -> root_for fetch d root).
Proof.
  intros args conf c repos m r f E R M I LO. pose proof (setup_main _ _ _ _ _ E R M) as Q. apply left_out_some in LO.
  destruct (setup_fields _ _ _ Hs Hi _ _ _ _ _ E R Q) as (S1 & _ & _ & F & _). apply sorted_alookup_In in I; [|exact S1].
  destruct (ff_root _ _ _ _ _ _ _ (F r f I) LO) as (e & d & root & He & D & Wd & Ws & _). exists d, root. split; [exact D|]. split; [exact Ws|].
  intros P. eapply written_root; eauto.
Qed.
(** In all other cases it is not. *)
Theorem C111_other_target : forall args conf c repos m r f d r' mo n cf a, mr_setup args conf = Done c -> alookup "repositories" conf = Some (JObj repos) ->
  is_main args conf repos m -> In (r, f) (j_repos c) -> (a_interactive args = true -> r <> m) ->
  described repos r d -> computed_as d r' mo n cf a -> mo <> n ->
  alookup "workspace_root" f = Some (JArr ([JStr "computed"; JStr r'; JStr mo; JStr mo; JObj cf] ++ said a)).
Proof.
  intros args conf c repos m r f d r' mo n cf a E R M I LO D C _. pose proof (setup_main _ _ _ _ _ E R M) as Q. apply left_out_some in LO.
  destruct (setup_fields _ _ _ Hs Hi _ _ _ _ _ E R Q) as (S1 & _ & _ & F & _). apply sorted_alookup_In in I; [|exact S1].
  destruct (ff_root _ _ _ _ _ _ _ (F r f I) LO) as (e & d' & root & He & D' & Wd & Ws & _). rewrite Ws. f_equal.
  rewrite (leads_fun _ _ _ _ D' D) in Wd. apply parse_precomputed_computed in C. apply (written_precomputed fetch) in C.
  exact (written_fun _ _ _ _ Wd C).
Qed.
(** The layers are the roots of the repositories named. Missing: as above; for setup-env, layers that are the main
    repository; with --all, layers that are not repositories. *)
Theorem C111_layers_partial : forall args conf c repos m r f e, mr_setup args conf = Done c -> alookup "repositories" conf = Some (JObj repos) ->
  is_main args conf repos m -> In (r, f) (j_repos c) -> (a_interactive args = true -> r <> m) -> has_entry repos r e ->
  forall k, In k ["target_root"; "rule_root"; "expression_root"] ->
  (not_given e k /\ alookup k f = None) \/
  exists l, alookup k e = Some (JStr l) /\
    ((a_interactive args = true -> l <> m) -> (a_all args = true -> In l (keys repos)) ->
     exists d root, described repos l d /\ alookup k f = Some root /\
       ((forall r' mo n cf a, computed_as d r' mo n cf a -> mo = n) -> root_for fetch d root) /\
       (forall f', In (l, f') (j_repos c) -> alookup "workspace_root" f' = Some root)).
Proof.
  intros args conf c repos m r f e E R M I LO He k J. pose proof (setup_main _ _ _ _ _ E R M) as Q. apply left_out_some in LO.
  destruct (setup_fields _ _ _ Hs Hi _ _ _ _ _ E R Q) as (S1 & _ & _ & F & _). apply sorted_alookup_In in I; [|exact S1].
  destruct (ff_root _ _ _ _ _ _ _ (F r f I) LO) as (e' & d & root & He' & _ & _ & _ & L). assert (e' = e) as -> by (unfold has_entry in *; congruence).
  destruct (L k J) as [K|(l & El & K)]; [now left|right]. exists l. split; [exact El|]. intros LM AK. apply left_out_some in LM.
  destruct K as [[X _]|[_ [[X _]|(d' & root' & D' & W' & N)]]]; [congruence| |].
  - exfalso. apply X. destruct (a_all args) eqn:AA; [left; now apply AK|right]. split; [reflexivity|discriminate].
  - exists d', root'. split; [exact D'|]. split; [exact N|]. split; [intros P; eapply written_root; eauto|].
    intros f' I'. apply sorted_alookup_In in I'; [|exact S1]. destruct (ff_root _ _ _ _ _ _ _ (F l f' I') LM) as (e2 & d2 & root2 & _ & D2 & W2 & Ws & _).
    rewrite (leads_fun _ _ _ _ D2 D') in W2. rewrite Ws. f_equal. eapply written_fun; eauto.
Qed.
(** Bindings and file names are as given. *)
Theorem C111_taken_over : forall args conf c repos r f, mr_setup args conf = Done c -> alookup "repositories" conf = Some (JObj repos) ->
  In (r, f) (j_repos c) -> forall k, In k ["bindings"; "target_file_name"; "rule_file_name"; "expression_file_name"] ->
  forall v, alookup k f = Some v <-> exists e, has_entry repos r e /\ alookup k e = Some v /\ v <> JNull.
Proof.
  intros args conf c repos r f E R I k J v.
  destruct (setup_fields _ _ _ Hs Hi _ _ _ _ _ E R eq_refl) as (S1 & _ & _ & F & _). apply sorted_alookup_In in I; [|exact S1].
  exact (ff_taken _ _ _ _ _ _ _ (F r f I) k J v).
Qed.
(** Nothing else is written. *)
Theorem C111_nothing_else : forall args conf c repos r f, mr_setup args conf = Done c -> alookup "repositories" conf = Some (JObj repos) ->
  In (r, f) (j_repos c) -> forall k v, alookup k f = Some v ->
  In k ["workspace_root"; "target_root"; "rule_root"; "expression_root"; "bindings"; "target_file_name"; "rule_file_name"; "expression_file_name"].
Proof.
  intros args conf c repos r f E R I k v V.
  destruct (setup_fields _ _ _ Hs Hi _ _ _ _ _ E R eq_refl) as (S1 & _ & _ & F & _). apply sorted_alookup_In in I; [|exact S1].
  apply (ff_other _ _ _ _ _ _ _ (F r f I) k). congruence.
Qed.
(** For setup-env, the main repository has no roots. *)
Theorem C111_main_left_out : forall args conf c repos m f, mr_setup args conf = Done c -> alookup "repositories" conf = Some (JObj repos) ->
  is_main args conf repos m -> a_interactive args = true -> In (m, f) (j_repos c) ->
  forall k, In k ["workspace_root"; "target_root"; "rule_root"; "expression_root"] -> alookup k f = None.
Proof.
  intros args conf c repos m f E R M A I k J. pose proof (setup_main _ _ _ _ _ E R M) as Q.
  destruct (setup_fields _ _ _ Hs Hi _ _ _ _ _ E R Q) as (S1 & _ & _ & F & _). apply sorted_alookup_In in I; [|exact S1].
  apply (ff_left _ _ _ _ _ _ _ (F m f I)); [|exact J]. rewrite A. now apply left_out_yes.
Qed.

(** *** just *)
Variable opens : string -> string -> bool.
Variable here : option string.
Notation determine_roots := (determine_roots opens here).

Lemma main_again args conf c repos m : mr_setup args conf = Done c -> alookup "repositories" conf = Some (JObj repos) -> is_main args conf repos m ->
  main_of no_options c = m.
Proof.
  intros E R M. pose proof (setup_main _ _ _ _ _ E R M) as Q. unfold main_of. cbn [b_main no_options].
  destruct (j_main c) as [m'|] eqn:J; [congruence|].
  assert (match j_main c with Some m => Some m | None => least (keys repos) end = Some m) as Q2 by (now rewrite J).
  destruct (setup_fields _ _ _ Hs Hi _ _ _ _ _ E R Q2) as (S1 & K1 & K2 & F & H). destruct (least_spec _ _ Q) as [Lm Ll].
  assert (In m (keys (j_repos c))) as Im.
  { destruct (a_all args) eqn:A; [apply K2; auto|apply (K1 eq_refl m eq_refl); constructor]. }
  destruct (j_repos c) as [|[k f] rest] eqn:C; [destruct Im|]. destruct Im as [Z|Im]; [exact Z|].
  assert (str_lt k m) as L.
  { unfold keys in Im. apply in_map_iff in Im as ([m' g] & Z & Im). cbn in Z. subst m'. exact (sorted_keys_head _ _ _ S1 Im). }
  assert (k <> m) as N by (intros ->; eapply str_lt_irrefl; eauto).
  assert (In k (keys repos)) as Kr.
  { destruct (H k) as [e He]; [now left|apply left_out_some; auto|]. destruct (in_dec string_dec k (keys repos)) as [Y|X]; [exact Y|].
    apply alookup_None in X. unfold has_entry in He. congruence. }
  destruct (Ll k Kr) as [->|L2]; [congruence|]. exfalso. eapply str_lt_asym; eauto.
Qed.

(** C112: just takes the same repository for the main one as just-mr. *)
Theorem C112_same_main : forall args conf c repos m m' infos, mr_setup args conf = Done c -> alookup "repositories" conf = Some (JObj repos) ->
  is_main args conf repos m -> determine_roots no_options c = Some (m', infos) -> m' = m.
Proof.
  intros args conf c repos m m' infos E R M D. rewrite <- (main_again _ _ _ _ _ E R M). unfold Model.determine_roots, obind in D.
  destruct (infos_of _ _ _ _ _ _) in D; [|discriminate]. congruence.
Qed.

Lemma just_reads args conf c repos m m' infos r i : mr_setup args conf = Done c -> alookup "repositories" conf = Some (JObj repos) ->
  is_main args conf repos m -> a_all args = false -> determine_roots no_options c = Some (m', infos) -> In (r, i) infos ->
  exists f, alookup r (j_repos c) = Some f /\ info_of opens here no_options (keys (j_repos c)) (String.eqb r m) f = Some i /\ keys infos = keys (j_repos c).
Proof.
  intros E R M A D I. pose proof (setup_main _ _ _ _ _ E R M) as Q. unfold Model.determine_roots in D. rewrite (main_again _ _ _ _ _ E R M) in D.
  destruct (setup_fields _ _ _ Hs Hi _ _ _ _ _ E R Q) as (S1 & K1 & _ & F & _).
  assert (mem m (keys (j_repos c)) = true) as Im by (apply mem_In, (K1 A m eq_refl); constructor). rewrite Im in D.
  destruct (infos_of opens here no_options (keys (j_repos c)) m (j_repos c)) as [is|] eqn:Is; [|discriminate]. injection D as <- <-.
  destruct (infos_of_spec _ _ _ _ _ _ _ Is) as [Ks B]. destruct (B r i I) as (f & If & Ef). exists f. split; [now apply sorted_alookup_In|auto].
Qed.
Lemma keyword_root_plain is_main desc dflt key arg : arg = None -> keyword_root opens is_main desc dflt key arg =
  match alookup key desc with Some r => match parse_root opens r with Some (f, _) => Some f | None => None end | None => Some dflt end.
Proof. intros ->. unfold keyword_root. destruct (alookup key desc) as [x|]; [destruct (parse_root opens x) as [[f p]|]; [|reflexivity]|]; destruct is_main; reflexivity. Qed.
Lemma keyword_file_plain is_main desc dflt key arg : arg = None -> keyword_file is_main desc dflt key arg =
  match alookup key desc with Some (JStr s) => Some s | Some _ => None | None => Some dflt end.
Proof. intros ->. unfold keyword_file. destruct (alookup key desc) as [[]|]; try reflexivity; destruct is_main; reflexivity. Qed.

Ltac unpack H := unfold info_of, obind in H;
  repeat match type of H with
  | match ?x with Some _ => _ | None => None end = Some _ => let Q := fresh "Q" in destruct x eqn:Q; [|discriminate H]
  end.

(** Each repository has the root of its description. Missing: module and name of targets of computed roots are to be the
    same; directories of the main repository do not keep being marked "ignore-special"; for setup-env, the main repository
    is where just is called. *)
Theorem C112_roots_partial : forall args conf c repos m m' infos r i, mr_setup args conf = Done c -> alookup "repositories" conf = Some (JObj repos) ->
  is_main args conf repos m -> a_all args = false -> plain_targets repos -> fetches_trees fetch ->
  determine_roots no_options c = Some (m', infos) -> In (r, i) infos ->
  (a_interactive args = true -> r <> m) ->
  exists f, own_root fetch opens repos r f /\
    (i_workspace i = f \/ r = m /\ exists p, f = RDir p true /\ i_workspace i = RDir p false).
Proof.
  intros args conf c repos m m' infos r i E R M A Pt Ft D I LO. pose proof (setup_main _ _ _ _ _ E R M) as Q. apply left_out_some in LO.
  destruct (just_reads _ _ _ _ _ _ _ _ _ E R M A D I) as (f & Lf & Ef & _).
  destruct (setup_fields _ _ _ Hs Hi _ _ _ _ _ E R Q) as (_ & _ & _ & F & _).
  destruct (ff_root _ _ _ _ _ _ _ (F r f Lf) LO) as (e & d & root & He & Dd & Wd & Ws & _).
  unpack Ef. injection Ef as <-. cbn [i_workspace]. unfold workspace_of in Q0. rewrite Ws in Q0.
  destruct (parse_root opens root) as [[g p]|] eqn:Pr; [|discriminate]. destruct (parse_written _ _ _ _ _ _ Ft Wd Pr) as [Sf ->].
  exists g. split; [exists d, root; split; [exact Dd|]; split; [eapply written_root; eauto|exact Sf]|].
  destruct (String.eqb_spec r m) as [->|]; cbn in Q0; [|left; congruence].
  destruct g as [p []| | |]; cbn in Q0; injection Q0 as <-; try (left; reflexivity). right. split; [reflexivity|]. eauto.
Qed.
(** The other roots are those of the repositories named as layers, or the default. Missing: as above, and for setup-env
    repositories that have the main one as layer. *)
Theorem C112_layers_partial : forall args conf c repos m m' infos r i e, mr_setup args conf = Done c -> alookup "repositories" conf = Some (JObj repos) ->
  is_main args conf repos m -> a_all args = false -> plain_targets repos -> fetches_trees fetch ->
  determine_roots no_options c = Some (m', infos) -> In (r, i) infos -> has_entry repos r e ->
  (a_interactive args = true -> r <> m /\ ~ has_layer e m) ->
  layer_root fetch opens repos e "target_root" (i_workspace i) (i_target i) /\
  layer_root fetch opens repos e "rule_root" (i_target i) (i_rule i) /\
  layer_root fetch opens repos e "expression_root" (i_rule i) (i_expression i).
Proof.
  intros args conf c repos m m' infos r i e E R M A Pt Ft D I He LO. pose proof (setup_main _ _ _ _ _ E R M) as Q.
  destruct (just_reads _ _ _ _ _ _ _ _ _ E R M A D I) as (f & Lf & Ef & _).
  destruct (setup_fields _ _ _ Hs Hi _ _ _ _ _ E R Q) as (_ & _ & _ & F & _).
  assert (left_out (Some m) (a_interactive args) r = false) as LO1 by (apply left_out_some; intros X; apply LO, X).
  destruct (ff_root _ _ _ _ _ _ _ (F r f Lf) LO1) as (e' & d & root & He' & Dd & Wd & Ws & L). assert (e' = e) as -> by (unfold has_entry in *; congruence).
  assert (forall k dflt g, In k layers -> keyword_root opens (String.eqb r m) f dflt k None = Some g -> layer_root fetch opens repos e k dflt g) as G.
  { intros k dflt g J Kr. rewrite keyword_root_plain in Kr by reflexivity.
    destruct (L k J) as [[N Lk]|(l & El & Lk)].
    - rewrite Lk in Kr. left. split; [exact N|congruence].
    - right. exists l. split; [exact El|].
      assert (left_out (Some m) (a_interactive args) l = false) as LO2.
      { apply left_out_some. intros X ->. apply (LO X). exists k. auto. }
      destruct Lk as [[X _]|[_ [[X _]|(d' & root' & D' & W' & N)]]]; [congruence|exfalso; apply X; right; split; [exact A|discriminate]|].
      rewrite N in Kr. destruct (parse_root opens root') as [[h p]|] eqn:Pr; [|discriminate]. injection Kr as <-.
      destruct (parse_written _ _ _ _ _ _ Ft W' Pr) as [Sf _]. exists d', root'. split; [exact D'|]. split; [eapply written_root; eauto|exact Sf]. }
  unpack Ef. injection Ef as <-. cbn [i_workspace i_target i_rule i_expression]. cbn [b_target_root b_rule_root b_expression_root no_options] in *.
  split; [|split]; apply G; auto; cbn; tauto.
Qed.
(** Names are bound as written, to repositories just knows; the files read are those named, or the default. *)
Theorem C112_names : forall args conf c repos m m' infos r i, mr_setup args conf = Done c -> alookup "repositories" conf = Some (JObj repos) ->
  is_main args conf repos m -> a_all args = false -> determine_roots no_options c = Some (m', infos) -> In (r, i) infos ->
  (forall x g, In (x, g) (i_names i) <-> exists e b, has_entry repos r e /\ alookup "bindings" e = Some (JObj b) /\ In (x, JStr g) b) /\
  (forall x g, In (x, g) (i_names i) -> In g (keys infos)) /\
  (forall e, has_entry repos r e ->
     file_name e "target_file_name" "TARGETS" (i_target_file i) /\
     file_name e "rule_file_name" "RULES" (i_rule_file i) /\
     file_name e "expression_file_name" "EXPRESSIONS" (i_expression_file i)).
Proof.
  intros args conf c repos m m' infos r i E R M A D I. pose proof (setup_main _ _ _ _ _ E R M) as Q.
  destruct (just_reads _ _ _ _ _ _ _ _ _ E R M A D I) as (f & Lf & Ef & Ks). rewrite Ks.
  destruct (setup_fields _ _ _ Hs Hi _ _ _ _ _ E R Q) as (_ & _ & _ & F & _). pose proof (ff_taken _ _ _ _ _ _ _ (F r f Lf)) as T.
  unpack Ef. injection Ef as <-. cbn [i_names i_target_file i_rule_file i_expression_file].
  assert (forall k dflt s, In k ["target_file_name"; "rule_file_name"; "expression_file_name"] -> keyword_file (String.eqb r m) f dflt k None = Some s ->
     forall e, has_entry repos r e -> file_name e k dflt s) as G.
  { intros k dflt s' J Kf e He. rewrite keyword_file_plain in Kf by reflexivity. specialize (T k (or_intror J)).
    destruct (alookup k f) as [v|] eqn:V.
    - destruct (proj1 (T v) eq_refl) as (e' & He' & V' & _). assert (e' = e) as -> by (unfold has_entry in *; congruence).
      destruct v; try discriminate. injection Kf as <-. now right.
    - left. split; [|congruence]. unfold not_given. destruct (alookup k e) as [v|] eqn:V'; [right|now left]. destruct v; try reflexivity;
        exfalso; (assert (None = alookup k e) as X; [rewrite V'; apply (T _); exists e; split; [exact He|]; split; [exact V'|discriminate]|congruence]). }
  cbn [b_target_file b_rule_file b_expression_file no_options] in *. split; [|split; [|intros e He; split; [|split]; eapply G; eauto; cbn; tauto]].
  - intros x g. unfold names_of in Q4. destruct (alookup "bindings" f) as [v|] eqn:V.
    + destruct (proj1 (T "bindings" (or_introl eq_refl) v) V) as (e & He & V' & _). destruct v; try discriminate.
      destruct (bindings_of_spec _ _ _ Q4) as [B _]. rewrite B. split; [intros K; exists e, m0; auto|].
      intros (e' & b & He' & V2 & K). assert (e' = e) as -> by (unfold has_entry in *; congruence). rewrite V' in V2. injection V2 as <-. exact K.
    + injection Q4 as <-. split; [intros []|]. intros (e & b & He & V' & _). exfalso.
      assert (alookup "bindings" f = Some (JObj b)) as X by (apply (T "bindings" (or_introl eq_refl)); exists e; split; [exact He|]; split; [exact V'|discriminate]). congruence.
  - intros x g K. unfold names_of in Q4. destruct (alookup "bindings" f) as [v|] eqn:V; [|injection Q4 as <-; destruct K].
    destruct v; try discriminate. destruct (bindings_of_spec _ _ _ Q4) as [_ B]. eauto.
Qed.
(** What setup writes, just accepts, if the roots are there and names are strings. Missing: --all, and setup-env. *)
Theorem C112_accepted_partial : forall args conf c repos m, mr_setup args conf = Done c -> alookup "repositories" conf = Some (JObj repos) ->
  is_main args conf repos m -> a_all args = false -> a_interactive args = false -> well_typed repos ->
  (forall d root, fetch d = Some root -> exists f, stands_for opens root f) ->
  exists infos, determine_roots no_options c = Some (m, infos).
Proof.
  intros args conf c repos m E R M A AI Wt So. pose proof (setup_main _ _ _ _ _ E R M) as Q.
  destruct (setup_fields _ _ _ Hs Hi _ _ _ _ _ E R Q) as (S1 & K1 & _ & F & _). specialize (K1 A m eq_refl).
  unfold Model.determine_roots. rewrite (main_again _ _ _ _ _ E R M).
  assert (mem m (keys (j_repos c)) = true) as -> by (apply mem_In, K1; constructor).
  destruct (infos_of_total opens here no_options (keys (j_repos c)) m (j_repos c)) as [is ->]; [|eexists; reflexivity].
  intros r f I. assert (In r (keys (j_repos c))) as Ir by (apply (in_map fst) in I; exact I).
  apply sorted_alookup_In in I; [|exact S1]. specialize (F r f I).
  assert (forall x, left_out (Some m) (a_interactive args) x = false) as LO by (intros x; apply left_out_some; congruence).
  destruct (ff_root _ _ _ _ _ _ _ F (LO r)) as (e & d & root & He & Dd & Wd & Ws & L). pose proof (ff_taken _ _ _ _ _ _ _ F) as T.
  assert (forall d root, written fetch d root -> exists g, parse_root opens root = Some (g, path_of g)) as Pw.
  { intros d0 root0 [d1 ty root1 _ _ P|d1 p _]; [destruct (So _ _ P) as [g G]|exists (RPrecomputed p)]; [exists g; now apply parse_stands|].
    apply parse_stands, precomputed_stands. }
  assert (exists w, workspace_of opens here no_options (String.eqb r m) f = Some w) as [w Hw].
  { unfold workspace_of. rewrite Ws. destruct (Pw _ _ Wd) as [g ->]. cbn [b_workspace no_options].
    destruct (String.eqb r m); [|eauto]. destruct (path_of g); eauto. }
  assert (forall k dflt, In k layers -> exists g, keyword_root opens (String.eqb r m) f dflt k None = Some g) as G.
  { intros k dflt J. rewrite keyword_root_plain by reflexivity.
    destruct (L k J) as [[_ Lk]|(l & El & [[X _]|[_ [[X _]|(d' & root' & D' & W' & N)]]])].
    - rewrite Lk. eauto.
    - rewrite LO in X. discriminate.
    - exfalso. apply X. right. split; [exact A|discriminate].
    - rewrite N. destruct (Pw _ _ W') as [g ->]. eauto. }
  destruct (Wt r e He) as [Wb Wf].
  assert (forall k dflt, In k ["target_file_name"; "rule_file_name"; "expression_file_name"] -> exists s, keyword_file (String.eqb r m) f dflt k None = Some s) as Gf.
  { intros k dflt J. rewrite keyword_file_plain by reflexivity. destruct (alookup k f) as [v|] eqn:V; [|eauto].
    apply (T k (or_intror J)) in V as (e' & He' & V & NN). assert (e' = e) as -> by (unfold has_entry in *; congruence).
    destruct (Wf k J) as [[N|N]|[s N]]; try congruence. rewrite V in N. injection N as ->. eauto. }
  assert (exists ns, names_of (keys (j_repos c)) f = Some ns) as [ns Hn].
  { unfold names_of. destruct (alookup "bindings" f) as [v|] eqn:V; [|eauto].
    apply (T "bindings" (or_introl eq_refl)) in V as (e' & He' & V & NN). assert (e' = e) as -> by (unfold has_entry in *; congruence).
    destruct Wb as [[N|N]|(b & N & Sb)]; try congruence. rewrite V in N. injection N as ->. apply bindings_of_total.
    intros x v Iv. destruct (Sb x v Iv) as [s ->]. exists s. split; [reflexivity|]. apply K1. apply (reaches_on _ _ r); [now apply K1|].
    eapply needs_bound; eauto. }
  unfold info_of, obind. rewrite Hw. cbn [b_target_root b_rule_root b_expression_root b_target_file b_rule_file b_expression_file no_options].
  destruct (G "target_root" w) as [t ->]; [cbn; tauto|]. destruct (G "rule_root" t) as [ru ->]; [cbn; tauto|].
  destruct (G "expression_root" ru) as [x ->]; [cbn; tauto|]. rewrite Hn.
  destruct (Gf "target_file_name" "TARGETS") as [tf ->]; [cbn; tauto|]. destruct (Gf "rule_file_name" "RULES") as [rf ->]; [cbn; tauto|].
  destruct (Gf "expression_file_name" "EXPRESSIONS") as [xf ->]; [cbn; tauto|]. eauto.
Qed.

(** Each root in the configuration is read as what it stands for. *)
Theorem C112_parsed : forall root f, stands_for opens root f -> exists p, parse_root opens root = Some (f, p).
Proof. intros root f S. exists (path_of f). now apply parse_stands. Qed.

(** C113: if no chain of names goes round in circles, just-mr comes to an end. *)
Theorem C113_ends_partial : forall args conf, (forall repos, alookup "repositories" conf = Some (JObj repos) -> forall r, chain_ends repos (JStr r)) ->
  mr_setup args conf <> Endless.
Proof.
  intros args conf C. unfold Model.mr_setup. destruct (get conf "repositories") as [| | | | | |repos] eqn:G; try discriminate.
  apply get_given in G; [|discriminate]. specialize (C _ G).
  assert (explicit_main args conf <> Endless) as X by (unfold explicit_main; destruct (a_main args); [discriminate|]; destruct (get conf "main"); discriminate).
  destruct (explicit_main args conf) as [given| | |]; try discriminate; [|congruence].
  set (main := match given with Some m => Some m | None => least (keys repos) end).
  set (lists := match main with Some m => _ | None => _ end).
  assert (lists <> Endless) as L.
  { unfold lists. destruct main as [m|]; [|discriminate]. destruct (a_all args); [discriminate|].
    pose proof (reach_rounds repos m C). destruct (reachable_repositories repos m) as [[]| | |]; try discriminate. congruence. }
  destruct lists as [[include setup]| | |]; try discriminate; [|congruence].
  pose proof (setup_all_ends fetch repos main (a_interactive args) (S (S (length repos))) setup) as Se.
  destruct (setup_all fetch (S (S (length repos))) repos main (a_interactive args) setup) as [vs| | |]; try discriminate; [|congruence].
  destruct (assemble repos main (a_interactive args) vs include); discriminate.
Qed.
(** If the one of the main repository does, it never ends: the loop has no end after any number of rounds. *)
Theorem C113_ends_refuted : forall args conf repos m, alookup "repositories" conf = Some (JObj repos) -> is_main args conf repos m -> a_all args = false ->
  explicit_main args conf <> Failed -> ~ chain_ends repos (JStr m) ->
  mr_setup args conf = Endless /\ forall n, target_repo n repos (JStr m) = Endless.
Proof.
  intros args conf repos m R M A X C. split; [|intros n; now apply target_repo_hangs].
  unfold Model.mr_setup. rewrite (get_some _ _ _ R).
  destruct (explicit_main args conf) as [given| | |] eqn:G; [| |unfold explicit_main in G; destruct (a_main args); [discriminate|]; destruct (get conf "main"); discriminate..]; [|congruence].
  rewrite (proj2 (main_chosen _ _ repos _ m G) M), A. now rewrite (reach_hangs repos m C).
Qed.
(** A repository without description - a chain of names that breaks off or goes round in circles - is never passed over. *)
Theorem C113_reported : forall args conf repos m r, alookup "repositories" conf = Some (JObj repos) -> is_main args conf repos m ->
  (if a_all args then In r (keys repos) else reaches repos m r \/ exists y e, reaches repos m y /\ has_entry repos y e /\ has_layer e r) ->
  (a_interactive args = true -> r <> m) -> (forall d, ~ described repos r d) ->
  forall c, mr_setup args conf <> Done c.
Proof.
  intros args conf repos m r R M I LO N c E. pose proof (setup_main _ _ _ _ _ E R M) as Q. apply left_out_some in LO.
  destruct (mr_setup_inv _ _ _ Hs Hi _ _ _ E) as (repos' & main & include & setup & vs & A1 & A2 & A3 & A4 & A5 & A6 & A7).
  rewrite R in A1. injection A1 as <-. rewrite Q in A3. subst main. destruct (setup_all_done _ _ _ _ _ _ _ A6) as [K V].
  assert (In r setup) as Is.
  { destruct (a_all args); [destruct A5 as [_ ->]; auto|apply (A4 eq_refl m eq_refl); exact I]. }
  rewrite <- K in Is. unfold keys in Is. apply in_map_iff in Is as ([r' f] & Z & Is). cbn in Z. subst r'. apply V in Is.
  destruct (setup_repo_done _ _ _ _ _ _ _ Is LO) as (e & d & root & _ & D & _). eapply N; eauto.
Qed.
(** Neither are roots that are to be computed in circles. Missing: for setup-env, circles by way of the main repository,
    which has no root then. *)
Theorem C113_circles_reported : forall args conf repos m r, alookup "repositories" conf = Some (JObj repos) -> is_main args conf repos m ->
  (if a_all args then In r (keys repos) else reaches repos m r \/ exists y e, reaches repos m y /\ has_entry repos y e /\ has_layer e r) ->
  (a_interactive args = true -> r <> m /\ ~ computed_via repos r m) -> computed_via repos r r ->
  forall c, mr_setup args conf <> Done c.
Proof.
  intros args conf repos m r R M I LO C c E. pose proof (setup_main _ _ _ _ _ E R M) as Q.
  destruct (mr_setup_inv _ _ _ Hs Hi _ _ _ E) as (repos' & main & include & setup & vs & A1 & A2 & A3 & A4 & A5 & A6 & A7).
  rewrite R in A1. injection A1 as <-. rewrite Q in A3. subst main. destruct (setup_all_done _ _ _ _ _ _ _ A6) as [K V].
  assert (In r setup) as Is.
  { destruct (a_all args); [destruct A5 as [_ ->]; auto|apply (A4 eq_refl m eq_refl); exact I]. }
  rewrite <- K in Is. unfold keys in Is. apply in_map_iff in Is as ([r' f] & Z & Is). cbn in Z. subst r'. apply V in Is.
  eapply (setup_repo_no_circle _ _ _ _ _ r f r Is); [|now left|exact C].
  intros y Y. apply left_out_some. intros X ->. destruct (LO X) as [N1 N2]. destruct Y as [Y|Y]; [congruence|contradiction].
Qed.
(** Configurations that are in order are set up. *)
Theorem C113_succeeds : forall args conf repos m, alookup "repositories" conf = Some (JObj repos) -> is_main args conf repos m ->
  (a_main args = None -> not_given conf "main" \/ exists s, alookup "main" conf = Some (JStr s)) ->
  In m (keys repos) -> in_order fetch repos -> exists c, mr_setup args conf = Done c.
Proof. intros args conf repos m R M W I Io. exact (setup_succeeds fetch repos Io order_setup order_include args conf m Hs Hi R M W I). Qed.

Lemma infos_same args known m l : forall is is', infos_of opens here args known m l = Some is -> infos_of opens here no_options known m l = Some is' ->
  forall r i, In (r, i) is -> r <> m -> In (r, i) is'.
Proof.
  induction l as [|[k d] l IH]; intros is is' E E' r i I N; cbn [infos_of] in E, E'.
  - injection E as <-. destruct I.
  - unfold obind in E, E'. destruct (info_of opens here args known (String.eqb k m) d) as [x|] eqn:X; [|discriminate].
    destruct (infos_of opens here args known m l) as [t|]; [|discriminate]. injection E as <-.
    destruct (info_of opens here no_options known (String.eqb k m) d) as [x'|] eqn:X'; [|discriminate].
    destruct (infos_of opens here no_options known m l) as [t'|]; [|discriminate]. injection E' as <-.
    destruct I as [I|I]; [|right; eapply IH; eauto]. injection I as -> ->. left. destruct (String.eqb_spec r m); [contradiction|].
    assert (info_of opens here args known false d = info_of opens here no_options known false d) as Q by reflexivity. congruence.
Qed.
(** The options of just for roots and file names concern the main repository only, and there have precedence. *)
Theorem C112_options : forall args c m infos infos', b_main args = None ->
  determine_roots args c = Some (m, infos) -> determine_roots no_options c = Some (m, infos') ->
  keys infos = keys infos' /\
  (forall r i, In (r, i) infos -> r <> m -> In (r, i) infos') /\
  (forall i, In (m, i) infos ->
     (forall p, b_workspace args = Some p -> i_workspace i = RDir p false) /\
     (forall p, b_target_root args = Some p -> i_target i = RDir p false) /\
     (forall p, b_rule_root args = Some p -> i_rule i = RDir p false) /\
     (forall p, b_expression_root args = Some p -> i_expression i = RDir p false) /\
     (forall p, b_target_file args = Some p -> i_target_file i = p) /\
     (forall p, b_rule_file args = Some p -> i_rule_file i = p) /\
     (forall p, b_expression_file args = Some p -> i_expression_file i = p)).
Proof.
  intros args c m infos infos' B D D'. unfold Model.determine_roots, obind in D, D'.
  assert (main_of args c = main_of no_options c) as Em by (unfold main_of; now rewrite B). rewrite Em in D.
  destruct (infos_of opens here args _ _ _) as [is|] eqn:Is in D; [|discriminate]. injection D as <- <-.
  destruct (infos_of opens here no_options _ _ _) as [is'|] eqn:Is' in D'; [|discriminate]. injection D' as <-.
  set (m := main_of no_options c) in *. set (l := if mem m (keys (j_repos c)) then j_repos c else ainsert m [] (j_repos c)) in *.
  destruct (infos_of_spec _ _ _ _ _ _ _ Is) as [K V]. destruct (infos_of_spec _ _ _ _ _ _ _ Is') as [K' _].
  split; [congruence|]. split; [intros r i I N; exact (infos_same _ _ _ _ _ _ Is Is' r i I N)|].
  intros j I. destruct (V m j I) as (f & _ & Ef). rewrite String.eqb_refl in Ef. unpack Ef. injection Ef as <-.
  cbn [i_workspace i_target i_rule i_expression i_target_file i_rule_file i_expression_file].
  assert (forall dflt key arg g p, keyword_root opens true f dflt key arg = Some g -> arg = Some p -> g = RDir p false) as G1.
  { intros dflt key arg g p G ->. unfold keyword_root in G. destruct (match alookup key f with Some _ => _ | None => _ end); [congruence|discriminate]. }
  assert (forall dflt key arg g p, keyword_file true f dflt key arg = Some g -> arg = Some p -> g = p) as G2.
  { intros dflt key arg g p G ->. unfold keyword_file in G. destruct (match alookup key f with Some _ => _ | None => _ end); [congruence|discriminate]. }
  repeat split; try (intros p P; eapply G1; eauto; fail); try (intros p P; eapply G2; eauto; fail).
  intros p P. unfold workspace_of in Q. rewrite P in Q. destruct (match alookup "workspace_root" f with Some _ => _ | None => _ end) as [[ws path]|]; [congruence|discriminate].
Qed.
End P.

(** C114: with a file of absent repositories, the description of each repository has the mark "absent" that the file says,
    and is otherwise unchanged, as is all the rest. *)
Lemma mark_all_spec names repos : forall repos', mark_all names repos = Some repos' ->
  forall r, match alookup r repos with
            | Some v => exists v', alookup r repos' = Some v' /\ mark_absent names r v = Some v'
            | None => alookup r repos' = None
            end.
Proof.
  induction repos as [|[k v] repos IH]; intros repos' E r; cbn [mark_all] in E.
  - injection E as <-. reflexivity.
  - destruct (mark_absent names k v) as [v'|] eqn:M; [|discriminate]. destruct (mark_all names repos) as [rest|]; [|discriminate]. injection E as <-.
    cbn [alookup]. destruct (String.eqb_spec r k) as [->|]; [eauto|]. now apply IH.
Qed.
Lemma strings_map names : strings (map JStr names) = Some names.
Proof. induction names as [|x l IH]; [reflexivity|]. cbn. now rewrite IH. Qed.

Theorem C114_marked : forall conf conf' repos names, alookup "repositories" conf = Some (JObj repos) ->
  read_configuration conf (Some (JArr (map JStr names))) = Some conf' ->
  (forall k, k <> "repositories" -> alookup k conf' = alookup k conf) /\
  exists repos', alookup "repositories" conf' = Some (JObj repos') /\
  forall r, match alookup r repos with
            | None => alookup r repos' = None
            | Some v => exists e e', v = JObj e /\ alookup r repos' = Some (JObj e') /\
                (forall k, k <> "repository" -> alookup k e' = alookup k e) /\
                (forall d, alookup "repository" e = Some (JObj d) -> exists d', alookup "repository" e' = Some (JObj d') /\
                   absent_mark d' (if in_dec string_dec r names then true else false) /\
                   (forall k, k <> "pragma" -> alookup k d' = alookup k d) /\
                   (forall p, alookup "pragma" d = Some (JObj p) -> exists p', alookup "pragma" d' = Some (JObj p') /\
                      forall k, k <> "absent" -> alookup k p' = alookup k p)) /\
                (forall s, alookup "repository" e = Some (JStr s) -> alookup "repository" e' = Some (JStr s))
            end.
Proof.
  intros conf conf' repos names R E. unfold read_configuration in E. rewrite strings_map, R in E.
  destruct (mark_all names repos) as [repos'|] eqn:M; [|discriminate]. injection E as <-. split.
  { intros k N. rewrite ainsert_lookup. destruct (String.eqb_spec k "repositories"); [contradiction|reflexivity]. }
  exists repos'. split; [now rewrite ainsert_lookup|]. intros r. pose proof (mark_all_spec _ _ _ M r) as S.
  destruct (alookup r repos) as [v|]; [|exact S]. destruct S as (v' & L & S). unfold mark_absent in S. destruct v as [| | | | | |e]; try discriminate.
  assert (mem r names = if in_dec string_dec r names then true else false) as Mm.
  { destruct (in_dec string_dec r names) as [Y|Y]; [now apply mem_In|now apply mem_notIn]. }
  destruct (alookup "repository" e) as [w|] eqn:W.
  - destruct w as [| | | |s| |ws]; try (injection S as <-; exists e, e; rewrite W; repeat split; auto; discriminate || (intros ? Q; congruence)).
    destruct (alookup "pragma" ws) as [p|] eqn:P.
    + destruct p as [| | | | | |p]; try discriminate; injection S as <-; eexists e, _; (split; [reflexivity|]); (split; [exact L|]); (split; [|split]).
      all: try (intros k N; rewrite ainsert_lookup; destruct (String.eqb_spec k "repository"); [contradiction|reflexivity]).
      all: try (intros s Q; congruence).
      all: intros d Q; rewrite W in Q; injection Q as <-; eexists; (split; [now rewrite ainsert_lookup|]); (split; [|split]).
      all: try (intros k N; rewrite ainsert_lookup; destruct (String.eqb_spec k "pragma"); [contradiction|reflexivity]).
      * rewrite <- Mm. eapply am_said; [now rewrite ainsert_lookup|reflexivity].
      * intros p Q. congruence.
      * rewrite <- Mm. eapply am_said; [now rewrite ainsert_lookup|now rewrite ainsert_lookup].
      * intros p' Q. rewrite P in Q. injection Q as <-. eexists. split; [now rewrite ainsert_lookup|]. intros k N. rewrite ainsert_lookup.
        destruct (String.eqb_spec k "absent"); [contradiction|reflexivity].
    + injection S as <-. eexists e, _. split; [reflexivity|]. split; [exact L|]. split; [|split].
      * intros k N; rewrite ainsert_lookup; destruct (String.eqb_spec k "repository"); [contradiction|reflexivity].
      * intros d Q; rewrite W in Q; injection Q as <-; eexists; (split; [now rewrite ainsert_lookup|]); split; [|split].
        -- rewrite <- Mm. eapply am_said; [now rewrite ainsert_lookup|reflexivity].
        -- intros k N; rewrite ainsert_lookup; destruct (String.eqb_spec k "pragma"); [contradiction|reflexivity].
        -- intros p Q. congruence.
      * intros s Q. congruence.
  - injection S as <-. eexists e, _. split; [reflexivity|]. split; [exact L|]. split; [|split].
    + intros k N; rewrite ainsert_lookup; destruct (String.eqb_spec k "repository"); [contradiction|reflexivity].
    + intros d Q. congruence.
    + intros s Q. congruence.
Qed.

(** *** Counterexamples *)
Ltac by_computing := vm_compute; reflexivity.

(** C111: the target ["gen", "headers"] of a computed root becomes ["gen", "gen"]. *)
Definition repos_target : fields :=
  [("app", JObj [("repository", target "tools" "gen" "headers")]); ("tools", JObj [("repository", git "t-tools")])].
Theorem C111_roots_refuted : exists fetch args conf c repos m r f d,
  mr_setup fetch id_order id_order args conf = Done c /\ alookup "repositories" conf = Some (JObj repos) /\ is_main args conf repos m /\
  In (r, f) (j_repos c) /\ a_interactive args = false /\ described repos r d /\
  (exists cf, computed_as d "tools" "gen" "headers" cf false) /\
  (exists cf, alookup "workspace_root" f = Some (JArr [JStr "computed"; JStr "tools"; JStr "gen"; JStr "gen"; JObj cf])) /\
  forall root, alookup "workspace_root" f = Some root -> ~ root_for fetch d root.
Proof.
  eexists fetch0, args0, (conf0 repos_target), _, repos_target, "app", "app", _, _.
  split; [by_computing|]. split; [reflexivity|]. split; [now apply main0|]. split; [now left|]. split; [reflexivity|].
  split; [eapply leads_on; [reflexivity|reflexivity|]; apply leads_end; discriminate|].
  split; [eexists; econstructor; try reflexivity; [right; reflexivity|apply am_none; left; reflexivity]|]. split; [eexists; reflexivity|].
  intros root E. cbn in E. injection E as <-. intros X. inversion X; subst.
  - unfold fetch0 in *. cbn in *. discriminate.
  - match goal with H : computed_as _ _ _ _ _ _ |- _ => inversion H; subst end. cbn in *. congruence.
Qed.

(** C112: a main repository that is a directory with special files ignored is one with them respected. *)
Definition repos_special : fields :=
  [("app", JObj [("repository", JObj [("path", JStr "/app"); ("pragma", JObj [("special", JStr "ignore")]); ("type", JStr "file")])])].
Theorem C112_roots_refuted : exists fetch opens here args conf c repos m infos i,
  mr_setup fetch id_order id_order args conf = Done c /\ alookup "repositories" conf = Some (JObj repos) /\ is_main args conf repos m /\
  a_all args = false /\ a_interactive args = false /\ plain_targets repos /\
  determine_roots opens here no_options c = Some (m, infos) /\ In (m, i) infos /\
  own_root fetch opens repos m (RDir "/app" true) /\ i_workspace i = RDir "/app" false.
Proof.
  eexists fetch0, opens0, None, args0, (conf0 repos_special), _, repos_special, "app", _, _.
  split; [by_computing|]. split; [reflexivity|]. split; [now apply main0|]. split; [reflexivity|]. split; [reflexivity|]. split.
  - intros r d rr m n c a D C. destruct C as [d r' m n c a T R G _ _]. destruct (leads_somewhere _ _ _ D) as [X|(x & e & He & X)]; [discriminate|].
    unfold has_entry, repos_special in He. cbn [alookup] in He. destruct (String.eqb x "app"); [|discriminate]. injection He as <-. cbn in X. injection X as <-. discriminate.
  - split; [by_computing|]. split; [now left|]. split; [|reflexivity]. eexists _, _. split; [|split].
    + eapply leads_on; [reflexivity|reflexivity|]. apply leads_end. discriminate.
    + eapply root_fetched; [reflexivity|cbn; tauto|reflexivity].
    + apply sf_file_special.
Qed.
(** For setup-env, a repository that has the rules of the main one loses them. *)
Definition repos_env : fields :=
  [("app", JObj [("bindings", JObj [("lib", JStr "lib")]); ("repository", dir "/app")]); ("lib", JObj [("repository", git "t-lib"); ("rule_root", JStr "app")])].
Theorem C112_layers_refuted : exists fetch opens here args conf c repos m infos r i e,
  mr_setup fetch id_order id_order args conf = Done c /\ alookup "repositories" conf = Some (JObj repos) /\ is_main args conf repos m /\
  a_all args = false /\ a_interactive args = true /\
  determine_roots opens here no_options c = Some (m, infos) /\ In (r, i) infos /\ r <> m /\ has_entry repos r e /\
  alookup "rule_root" e = Some (JStr m) /\ i_rule i = i_workspace i /\
  ~ layer_root fetch opens repos e "rule_root" (i_target i) (i_rule i).
Proof.
  eexists fetch0, opens0, (Some "/app"), env0, (conf0 repos_env), _, repos_env, "app", _, "lib", _, _.
  split; [by_computing|]. split; [reflexivity|]. split; [now apply main0|]. split; [reflexivity|]. split; [reflexivity|]. split; [by_computing|].
  split; [right; now left|]. split; [discriminate|]. split; [reflexivity|]. split; [reflexivity|]. split; [reflexivity|].
  intros [[[X|X] _]|(l & X & d & root & D & Rf & Sf)]; [discriminate X|discriminate X|]. cbn in X. injection X as <-.
  assert (d = dir "/app") as -> by (refine (leads_fun repos_env _ _ _ D _); eapply leads_on; [reflexivity|reflexivity|]; apply leads_end; discriminate).
  inversion Rf; subst.
  - match goal with H : fetch0 _ = Some _ |- _ => cbn in H; injection H as <- end. inversion Sf.
  - match goal with H : computed_as _ _ _ _ _ _ |- _ => inversion H; subst end. discriminate.
  - match goal with H : structure_of _ _ _ |- _ => inversion H; subst end. discriminate.
Qed.
(** With --all, a layer that is no repository becomes null, which just rejects; without, it is an error. *)
Definition repos_all : fields := [("app", JObj [("repository", dir "/app"); ("rule_root", JStr "no-such")])].
Theorem C112_accepted_refuted : exists fetch opens here args conf c repos m,
  mr_setup fetch id_order id_order args conf = Done c /\ alookup "repositories" conf = Some (JObj repos) /\ is_main args conf repos m /\
  a_all args = true /\ a_interactive args = false /\ (forall g t, opens g t = true) /\
  determine_roots opens here no_options c = None /\
  (exists f, In (m, f) (j_repos c) /\ alookup "rule_root" f = Some JNull) /\
  mr_setup fetch id_order id_order {| a_main := a_main args; a_all := false; a_interactive := false |} conf = Failed.
Proof.
  eexists fetch0, opens0, None, all0, (conf0 repos_all), _, repos_all, "app".
  split; [by_computing|]. split; [reflexivity|]. split; [now apply main0|]. split; [reflexivity|]. split; [reflexivity|]. split; [reflexivity|].
  split; [by_computing|]. split; [eexists; split; [now left|reflexivity]|by_computing].
Qed.
(** C113: two repositories that are said to be the same. *)
Definition repos_circle : fields := [("app", JObj [("repository", JStr "other")]); ("other", JObj [("repository", JStr "app")])].
Lemma circle : ~ chain_ends repos_circle (JStr "app").
Proof.
  assert (forall d, chain_ends repos_circle d -> d <> JStr "app" /\ d <> JStr "other") as W; [|intros X; now apply W in X].
  induction 1 as [d D|r N|r e He N|r e d He Hd X [IH1 IH2]].
  - split; apply D.
  - split; intros Y; injection Y as ->; eapply N; reflexivity.
  - split; intros Y; injection Y as ->; unfold has_entry in He; cbn in He; injection He as <-; discriminate.
  - split; intros Y; injection Y as ->; unfold has_entry in He; cbn in He; injection He as <-; cbn in Hd; injection Hd as <-; congruence.
Qed.
Theorem C113_circle_refuted : exists repos, forall fetch order_setup order_include, enumerates order_setup -> enumerates order_include ->
  mr_setup fetch order_setup order_include args0 (conf0 repos) = Endless /\ forall n, target_repo n repos (JStr "app") = Endless.
Proof.
  exists repos_circle. intros fetch os oi Hs Hi. apply (C113_ends_refuted fetch os oi); try reflexivity; [now apply main0|discriminate|apply circle].
Qed.
(** C114: a repository listed as absent whose description is the name of another one is not absent, and a repository not
    listed is absent if its description is the name of one that is. *)
Definition repos_absent : fields :=
  [("a", JObj [("repository", git "t-a")]); ("b", JObj [("repository", JStr "a")]); ("c", JObj [("repository", git "t-c")]); ("d", JObj [("repository", JStr "c")])].
Theorem C114_absent_refuted : exists conf conf' repos' names,
  read_configuration conf (Some (JArr (map JStr names))) = Some conf' /\ alookup "repositories" conf' = Some (JObj repos') /\
  (In "d" names /\ exists d, described repos' "d" (JObj d) /\ absent_mark d false) /\
  (~ In "b" names /\ exists d, described repos' "b" (JObj d) /\ absent_mark d true).
Proof.
  eexists (conf0 repos_absent), _, _, ["a"; "d"]. split; [by_computing|]. split; [reflexivity|]. split.
  - split; [cbn; tauto|]. eexists. split; [eapply leads_on; [reflexivity|reflexivity|]; eapply leads_on; [reflexivity|reflexivity|]; apply leads_end; discriminate|].
    eapply am_said; reflexivity.
  - split; [cbn; intuition discriminate|]. eexists. split; [eapply leads_on; [reflexivity|reflexivity|]; eapply leads_on; [reflexivity|reflexivity|]; apply leads_end; discriminate|].
    eapply am_said; reflexivity.
Qed.

(** *** The hypotheses can be met *)
Example C110_nonvacuous : exists c m, setup0 args0 repos0 = Done c /\ is_main args0 (conf0 repos0) repos0 m /\ a_all args0 = false /\ fetches_trees fetch0 /\
  enumerates id_order /\ In "tools" (keys (j_repos c)) /\ ~ In "unused" (keys (j_repos c)) /\ ~ In "rules" (keys (j_repos c)) /\ In "unused" (keys repos0).
Proof.
  exists written0, "app". split; [apply setup0_run|]. split; [now apply main0|]. split; [reflexivity|]. split; [apply fetch0_trees|]. split; [apply id_enumerates|].
  cbn. repeat split; try tauto; intuition discriminate.
Qed.
Example C110_all_nonvacuous : exists c, setup0 all0 repos0 = Done c /\ In "unused" (keys (j_repos c)).
Proof. eexists. split; [by_computing|]. cbn. tauto. Qed.
Example C111_nonvacuous : exists c f root, setup0 args0 repos0 = Done c /\ In ("app", f) (j_repos c) /\ alookup "rule_root" f = Some root /\
  (exists e, has_entry repos0 "app" e /\ alookup "rule_root" e = Some (JStr "rules") /\ In "rules" (keys repos0)).
Proof.
  eexists written0, _, _. split; [apply setup0_run|]. split; [now left|]. split; [reflexivity|]. eexists. split; [reflexivity|]. split; [reflexivity|]. cbn. tauto.
Qed.
Example C111_env_nonvacuous : exists c f, setup0 env0 repos0 = Done c /\ In ("app", f) (j_repos c) /\ alookup "bindings" f <> None /\ alookup "rule_root" f = None.
Proof. eexists _, _. split; [by_computing|]. split; [now left|]. split; [discriminate|reflexivity]. Qed.
Example C112_nonvacuous : exists c infos i, setup0 args0 repos0 = Done c /\ determine_roots opens0 None no_options c = Some ("app", infos) /\ In ("app", i) infos /\
  plain_targets repos0 /\ fetches_trees fetch0 /\ well_typed repos0 /\ (forall d root, fetch0 d = Some root -> exists f, stands_for opens0 root f) /\
  i_rule i = RGit "/git" "t-rules" false /\ i_workspace i = RDir "/app" false /\ In ("lib", "lib-alias") (i_names i) /\ i_target_file i = "TARGETS.app" /\ length infos = 4.
Proof.
  eexists written0, _, _. split; [apply setup0_run|]. split; [by_computing|]. split; [now left|]. split; [apply plain0|]. split; [apply fetch0_trees|].
  split; [apply typed0|]. split; [now apply fetch0_opens|]. cbn. repeat split; tauto.
Qed.
Example C113_nonvacuous : (exists repos, alookup "repositories" (conf0 repos) = Some (JObj repos) /\ forall d, ~ described repos "app" d) /\
  (forall r, chain_ends repos_env (JStr r)).
Proof.
  split.
  - exists repos_circle. split; [reflexivity|]. intros d D. apply circle. unfold described in D. revert D. generalize (JStr "app"). intros j D.
    induction D as [x X|x e y z He Hy D IH]; [now apply ce_end|eapply ce_on; eauto].
  - intros r. destruct (alookup r repos_env) as [v|] eqn:E; [|apply ce_break; unfold has_entry; congruence].
    assert (exists e, v = JObj e /\ exists x, alookup "repository" e = Some (JObj x)) as (e & -> & x & X).
    { unfold repos_env in E. cbn [alookup] in E. destruct (String.eqb r "app"); [injection E as <-; eexists; split; [reflexivity|]; eexists; reflexivity|].
      destruct (String.eqb r "lib"); [injection E as <-; eexists; split; [reflexivity|]; eexists; reflexivity|discriminate]. }
    eapply ce_on; [exact E|exact X|]. apply ce_end. discriminate.
Qed.
Example C112_parsed_nonvacuous : stands_for opens0 (JArr [JStr "computed"; JStr "tools"; JStr "gen"; JStr "headers"; JObj []; JObj [("absent", JBool true)]])
  (RPrecomputed (PComputed {| c_repo := "tools"; c_module := "gen"; c_name := "headers"; c_config := []; c_absent := true |})).
Proof. exact (sf_computed opens0 "tools" "gen" "headers" [] true). Qed.
Example C113_succeeds_nonvacuous : in_order fetch0 repos0 /\ In "app" (keys repos0).
Proof. split; [apply in_order0|cbn; tauto]. Qed.
Definition repos_round : fields := [("app", JObj [("repository", target "tools" "gen" "gen")]); ("tools", JObj [("repository", target "app" "" "")])].
Example C113_circles_nonvacuous : computed_via repos_round "app" "app" /\ is_main args0 (conf0 repos_round) repos_round "app" /\ reaches repos_round "app" "app".
Proof.
  split; [|split; [now apply main0|constructor]].
  eapply (via_more _ _ "tools"); [|apply via_one]; (eexists; split; [eapply leads_on; [reflexivity|reflexivity|]; apply leads_end; discriminate|]);
    left; do 4 eexists; econstructor; try reflexivity; [right; reflexivity|apply am_none; left; reflexivity|right; reflexivity|apply am_none; left; reflexivity].
Qed.
Example C112_options_nonvacuous : exists c args infos infos', setup0 args0 repos0 = Done c /\ b_main args = None /\ b_rule_root args = Some "/my/rules" /\
  determine_roots opens0 None args c = Some ("app", infos) /\ determine_roots opens0 None no_options c = Some ("app", infos') /\ infos <> infos'.
Proof.
  eexists written0, {| b_main := None; b_workspace := None; b_target_root := None; b_rule_root := Some "/my/rules"; b_expression_root := None;
     b_target_file := None; b_rule_file := None; b_expression_file := None |}, _, _.
  split; [apply setup0_run|]. split; [reflexivity|]. split; [reflexivity|]. split; [by_computing|]. split; [by_computing|]. discriminate.
Qed.
Example C114_nonvacuous : exists conf', read_configuration (conf0 repos_absent) (Some (JArr (map JStr ["a"]))) = Some conf' /\ conf' <> conf0 repos_absent.
Proof. eexists. split; [by_computing|]. discriminate. Qed.

Print Assumptions C110_exactly.
Print Assumptions C110_all.
Print Assumptions C110_closed.
Print Assumptions C111_roots_partial.
Print Assumptions C111_other_target.
Print Assumptions C111_layers_partial.
Print Assumptions C111_taken_over.
Print Assumptions C111_nothing_else.
Print Assumptions C111_main_left_out.
Print Assumptions C112_same_main.
Print Assumptions C112_roots_partial.
Print Assumptions C112_layers_partial.
Print Assumptions C112_names.
Print Assumptions C112_accepted_partial.
Print Assumptions C113_ends_partial.
Print Assumptions C113_ends_refuted.
Print Assumptions C113_reported.
Print Assumptions C114_marked.
Print Assumptions C113_circles_reported.
Print Assumptions C113_succeeds.
Print Assumptions C112_options.
Print Assumptions C112_parsed.
Print Assumptions C111_roots_refuted.
Print Assumptions C112_roots_refuted.
Print Assumptions C112_layers_refuted.
Print Assumptions C112_accepted_refuted.
Print Assumptions C113_circle_refuted.
Print Assumptions C114_absent_refuted.
