(** Proofs about no_proxy, and uniqueness of the entry to be used. *)
From Coq Require Import String Ascii List Bool Arith Lia.
From Verif Require Import GitConfig.Model GitConfig.Spec GitConfig.Proofs.
Import ListNotations.
Local Open Scope string_scope.
Local Open Scope list_scope.
Local Open Scope nat_scope.

Lemma labels_In d s t : t <> "" -> (In t (labels d s) <-> In t (pieces d s)).
Proof.
  intros N. unfold labels. destruct (String.eqb_spec (last (pieces d s) "") "") as [E|_]; [|tauto].
  pose proof (app_removelast_last "" (pieces_nonempty d s)) as A. rewrite E in A. rewrite A at 2. rewrite in_app_iff. cbn. intuition congruence.
Qed.
Lemma tokens_spec s t : In t (filter (fun t => negb (String.eqb t "")) (flat_map (getlines ",") (getlines " " s))) <-> token s t.
Proof.
  rewrite filter_In, negb_true_iff, String.eqb_neq, in_flat_map. unfold token. split.
  - intros [(w & W & T) N]. split; [exact N|]. rewrite getlines_labels in W, T. apply labels_In in T; [|exact N]. exists w. split; [|exact T].
    apply labels_In in W; [exact W|]. intros ->. cbn in T. destruct T as [<-|[]]. congruence.
  - intros [N (w & W & T)]. split; [|exact N]. exists w. rewrite !getlines_labels. split; [|now apply labels_In].
    apply labels_In; [|exact W]. intros ->. cbn in T. destruct T as [<-|[]]. congruence.
Qed.

Lemma until_spec h p : ~ In ":"%char (list_ascii_of_string h) -> until ":" (h ++ ":" ++ p) = h /\ until ":" h = h.
Proof.
  induction h as [|c h IH]; cbn; [auto|]. intros N. destruct (Ascii.eqb_spec c ":") as [->|_]; [tauto|].
  destruct IH as [E1 E2]; [tauto|]. cbn in E1. now rewrite E1, E2.
Qed.
Lemma drop_app h p : drop (String.length h) (h ++ p) = p.
Proof. induction h as [|c h IH]; cbn; [now destruct p|exact IH]. Qed.
Lemma drop_app1 h c p : drop (String.length h + 1) (h ++ String c p) = p.
Proof. induction h as [|x h IH]; cbn; [now destruct p|exact IH]. Qed.

Lemma undotted_strip h' h : undotted h' h -> match h' with String c r => if Ascii.eqb c "." then r else h' | EmptyString => h' end = h.
Proof.
  intros [->|[-> X]]; [reflexivity|]. destruct h as [|c r]; [reflexivity|]. destruct (Ascii.eqb_spec c ".") as [->|_]; [now destruct (X r)|reflexivity].
Qed.
Lemma pattern_parse t h p : pattern_host t h p -> ParseNoproxyPattern t = mkNo (labels "." h) p.
Proof.
  intros (h' & U & NC & E). unfold ParseNoproxyPattern. destruct p as [p|]; subst t.
  - rewrite (proj1 (until_spec h' p NC)). destruct (Nat.eqb_spec (String.length h') (String.length (h' ++ ":" ++ p))) as [L|_].
    { rewrite app_str_length in L. cbn in L. lia. }
    change (":" ++ p)%string with (String ":" p). rewrite drop_app1, (undotted_strip _ _ U), getlines_labels. reflexivity.
  - rewrite (proj2 (until_spec h' "" NC)), Nat.eqb_refl, (undotted_strip _ _ U), getlines_labels. reflexivity.
Qed.
Lemma pattern_exists t : exists h p, pattern_host t h p.
Proof.
  assert (X : exists h' p, ~ In ":"%char (list_ascii_of_string h') /\ match p with None => t = h' | Some p => t = (h' ++ ":" ++ p)%string end).
  { induction t as [|c t (h' & p & N & E)]; [exists "", None; cbn; auto|]. destruct (Ascii.eqb_spec c ":") as [->|NC].
    - exists "", (Some t). cbn. auto.
    - exists (String c h'), p. split; [cbn; intuition|]. destruct p; subst; reflexivity. }
  destruct X as (h' & p & N & E).
  assert (U : exists h, undotted h' h).
  { destruct h' as [|c r]; [exists ""; right; split; [reflexivity|discriminate]|]. destruct (Ascii.eqb_spec c ".") as [->|NC].
    - exists r. now left.
    - exists (String c r). right. split; [reflexivity|]. intros r' E'. congruence. }
  destruct U as [h U]. exists h, p, h'. auto.
Qed.

Lemma suffix_match test target : List.length test <= List.length target ->
  (all_match String.eqb (rev test) (rev target) = true <-> exists l, target = l ++ test).
Proof.
  intros L. rewrite all_match_prefix. split.
  - intros [l E]. exists (rev l). rewrite <- (rev_involutive target), E, rev_app_distr, rev_involutive. reflexivity.
  - intros [l ->]. exists (rev l). apply rev_app_distr.
Qed.

Lemma pattern_matches t h p host port : pattern_host t h p -> labels "." host = host_tokens (mkNo (labels "." host) port) ->
  NoproxyPatternMatches (ParseNoproxyPattern t) (mkNo (labels "." host) port) = true <->
  (p = None \/ p = port) /\ labels "." h <> [] /\ exists l, labels "." host = l ++ labels "." h.
Proof.
  intros P _. rewrite (pattern_parse _ _ _ P). unfold NoproxyPatternMatches. cbn [no_port host_tokens].
  assert (PP : (match p with Some _ => negb (opt_eqb p port) | None => false end) = false <-> (p = None \/ p = port)).
  { destruct p as [x|]; [|tauto]. rewrite negb_false_iff, opt_eqb_eq. intuition congruence. }
  destruct (match p with Some _ => negb (opt_eqb p port) | None => false end).
  { split; [discriminate|]. intros [X _]. apply PP in X. discriminate. }
  destruct (labels "." h) as [|a la] eqn:EA; [split; [discriminate|intros (_ & X & _); congruence]|].
  destruct (labels "." host) as [|b lb] eqn:EB.
  { split; [discriminate|]. intros (_ & _ & l & E). destruct l; discriminate. }
  rewrite andb_true_iff, negb_true_iff, Nat.ltb_ge. split.
  - intros [L M]. apply suffix_match in M; [|exact L]. split; [now apply PP|]. split; [discriminate|exact M].
  - intros (_ & _ & l & E). assert (L : List.length (a :: la) <= List.length (b :: lb)) by (rewrite E, app_length; lia).
    split; [exact L|]. apply suffix_match; [exact L|]. now exists l.
Qed.

Lemma noproxy_spec u s h : p_host u = Some h -> ~ In ":"%char (list_ascii_of_string h) -> (forall r, h <> String "." r) ->
  exists b, NoproxyStringMatches u s = Some b /\ (b = true <-> exempt s h (p_given u)).
Proof.
  intros EH NC ND. unfold NoproxyStringMatches. rewrite EH. eexists. split; [reflexivity|].
  assert (HP : ParseNoproxyPattern (h ++ match p_given u with Some p => ":" ++ p | None => "" end) = mkNo (labels "." h) (p_given u)).
  { apply pattern_parse. exists h. split; [right; auto|]. split; [exact NC|]. destruct (p_given u); [reflexivity|apply app_str_nil]. }
  rewrite HP, existsb_exists. unfold exempt. split.
  - intros (t & T & M). apply tokens_spec in T. exists t. split; [exact T|]. apply orb_true_iff in M. destruct M as [M|M]; [left; now apply String.eqb_eq|].
    right. destruct (pattern_exists t) as (ph & pp & P). apply (pattern_matches _ _ _ _ _ P eq_refl) in M. destruct M as (A & B & l & E). exists ph, pp, l. auto.
  - intros (t & T & M). exists t. split; [now apply tokens_spec|]. apply orb_true_iff. destruct M as [->|(ph & pp & l & P & A & B & E)]; [left; apply String.eqb_refl|].
    right. apply (pattern_matches _ _ _ _ _ P eq_refl). eauto.
Qed.

(** ** Uniqueness *)
Lemma best_unique parse u entries d v d' v' : best parse u entries d v -> best parse u entries d' v' -> v = v'.
Proof.
  intros (b & k & a & E & A & B1 & B2) (b' & k' & a' & E' & A' & B1' & B2').
  assert (X : List.length b < List.length b' \/ List.length b = List.length b' \/ List.length b' < List.length b) by lia.
  rewrite E in E'.
  assert (G : forall (b : list (string * string)) k v a b' k' v' a', b ++ (k, v) :: a = b' ++ (k', v') :: a' -> List.length b < List.length b' ->
     In (k, v) b' /\ In (k', v') a).
  { clear. intros b k v a b'. revert b. induction b' as [|x b' IH]; intros b k' v' a' E L; [cbn in L; lia|]. destruct b as [|y b]; cbn in *.
    - injection E as <- ->. split; [now left|]. apply in_or_app. right. now left.
    - injection E as <- E. destruct (IH b k' v' a' E) as [I1 I2]; [lia|]. auto. }
  destruct X as [X|[X|X]].
  - destruct (G _ _ _ _ _ _ _ _ E' X) as [I1 I2]. exfalso. exact (B1' _ _ I1 A (B2 _ _ I2 A')).
  - clear - E' X. revert b' X E'. induction b as [|x b IH]; intros [|y b'] X E'; try discriminate; cbn in *; [congruence|].
    injection X as X. injection E' as _ E'. exact (IH _ X E').
  - symmetry in E'. destruct (G _ _ _ _ _ _ _ _ E' X) as [I1 I2]. exfalso. exact (B1 _ _ I1 A' (B2' _ _ I2 A)).
Qed.

Lemma to_use_best parse u entries v : to_use parse u entries v <-> exists d, best parse u entries d v.
Proof.
  split; [intros (b & k & d & a & E & A & B1 & B2); exists d, b, k, a; auto|intros (d & b & k & a & E & A & B1 & B2); exists b, k, d, a; auto].
Qed.

Lemma collected parse u entries : p_port u <> None -> (forall e, In e entries -> key_fine parse u (fst e)) ->
  exists l, collect parse u entries [] = Some l /\ tracks parse u entries l.
Proof.
  intros PU KF. destruct (collect_tracks parse u PU entries KF [] []) as (l & E & T).
  - split; [intros e d []|]. intros d v. cbn. split; [tauto|intros (k & [] & _)].
  - exists l. auto.
Qed.

Lemma collect_error parse u entries e k kh : In e entries -> reads parse (fst e) k kh -> p_scheme k = p_scheme u -> p_user k <> None ->
  p_user u = None -> forall l, collect parse u entries l = None.
Proof.
  intros I R S UK UU. induction entries as [|[key v] r IH]; [destruct I|]. intros l. cbn [collect]. destruct I as [<-|I].
  - unfold MatchConfigKey. cbn [fst] in R. rewrite (reads_parse _ _ _ _ R). cbn [k_scheme k_user].
    assert (ES : opt_eqb (p_scheme k) (p_scheme u) = true) by now apply opt_eqb_eq. rewrite ES. cbn [negb].
    destruct (p_user k); [|congruence]. now rewrite UU.
  - destruct (MatchConfigKey parse u key); [reflexivity|now apply IH|now apply IH].
Qed.

Lemma first_set_spec l : match first_set l with Some w => first_of l w | None => Forall (fun x => x = None) l end.
Proof.
  induction l as [|[w|] l IH]; cbn; [constructor| |].
  - exists [], l. auto.
  - destruct (first_set l) as [w|]; [|now constructor]. destruct IH as (a & b & -> & F). exists (None :: a), b. split; [reflexivity|now constructor].
Qed.
Lemma first_of_set l w : first_of l w -> first_set l = Some w.
Proof. intros (a & b & -> & F). induction F as [|x a -> F IH]; [reflexivity|exact IH]. Qed.
Lemma none_set l : Forall (fun x => x = None) l -> first_set l = None.
Proof. induction 1 as [|x l -> F IH]; [reflexivity|exact IH]. Qed.
