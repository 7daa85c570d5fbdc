(** Stages: conflicts, normalisation, directories for working directories. *)
From Coq Require Import String Ascii List Bool Arith NArith Lia.
From Verif Require Import Common.Strs Path.Model Path.Spec Path.Proofs Path.Proofs2 Expr.Json Expr.Model Describe.Model Analysis.Stage Analysis.StageSpec.
Import ListNotations.
Local Open Scope string_scope.
Local Open Scope list_scope.
Local Open Scope nat_scope.

Definition normal (s : string) : Prop := ToNormalPath s = s.

(** Names of a normal path inside. *)
Definition spell (ns : list string) : string := match ns with [] => "." | _ => join_slash ns end.

Lemma okname_good ns : Forall okname ns -> Forall goodname ns.
Proof. intros H. eapply Forall_impl; [|exact H]. intros a (A & _ & _ & B). now split. Qed.

Lemma normal_inside s : normal s -> inside s -> exists ns, Forall okname ns /\ s = spell ns /\ place_of s = mkPlace 0 (rev ns).
Proof.
  intros N [A U]. pose proof (place_of_wf s) as [Wf _]. exists (rev (down (place_of s))).
  split; [now apply Forall_rev|]. split.
  - transitivity (ToNormalPath s); [symmetry; exact N|]. rewrite ToNormalPath_render, A. unfold render, names. rewrite U. cbn [repeat app].
    destruct (rev (down (place_of s))); reflexivity.
  - rewrite rev_involutive. destruct (place_of s) as [u d]. cbn in *. now subst.
Qed.

Lemma spell_place ns : Forall okname ns -> place_of (spell ns) = mkPlace 0 (rev ns) /\ is_absolute (spell ns) = false.
Proof.
  intros H. assert (Wf : wf_place false (mkPlace 0 (rev ns))) by (split; [now apply Forall_rev|discriminate]).
  destruct (render_place false _ Wf) as [A B]. unfold render, names in A, B. cbn [up down repeat app] in A, B.
  rewrite rev_involutive in A, B. unfold spell. destruct ns; auto.
Qed.
Lemma spell_inside ns : Forall okname ns -> inside (spell ns).
Proof. intros H. destruct (spell_place ns H) as [P A]. split; [auto|]. now rewrite P. Qed.
Lemma spell_normal ns : Forall okname ns -> normal (spell ns).
Proof.
  intros H. destruct (spell_place ns H) as [P A]. unfold normal. rewrite ToNormalPath_render, P, A. unfold render, names.
  cbn [up down repeat app]. rewrite rev_involutive. destruct ns; reflexivity.
Qed.

Definition prefix_of (a b : list string) : Prop := exists l, b = a ++ l.

Lemma below_prefix a b : at_or_below (mkPlace 0 (rev a)) (mkPlace 0 (rev b)) <-> prefix_of a b.
Proof.
  unfold at_or_below, prefix_of. cbn. split.
  - intros [_ [l E]]. exists (rev l). rewrite <- (rev_involutive b), E, rev_app_distr, rev_involutive. reflexivity.
  - intros [l ->]. split; [auto|]. exists (rev l). now rewrite rev_app_distr.
Qed.

Lemma list_str_eqb_eq a : forall b, list_str_eqb a b = true <-> a = b.
Proof.
  induction a as [|x a IH]; intros [|y b]; cbn; try (split; [discriminate|discriminate]); [tauto|].
  rewrite andb_true_iff, IH, String.eqb_eq. split; [intros [-> ->]; auto|intros E; injection E; auto].
Qed.

Lemma spell_elements ns : ns <> [] -> Forall okname ns -> elements (spell ns) = ns.
Proof.
  intros Hn H. unfold elements. destruct (spell_place ns H) as [_ ->]. cbn [app].
  destruct ns as [|n r]; [congruence|]. unfold spell. apply (rel_elements_join false (n :: r)); [discriminate|now apply okname_good].
Qed.
Lemma dot_elements : elements "." = ["."]. Proof. reflexivity. Qed.

Lemma spell_eqb a b : Forall okname a -> Forall okname b -> path_eqb (spell a) (spell b) = true <-> a = b.
Proof.
  intros Ha Hb. unfold path_eqb. rewrite list_str_eqb_eq.
  destruct a as [|x a]; destruct b as [|y b].
  - tauto.
  - rewrite (spell_elements (y :: b)) by (auto; discriminate). cbn [spell]. rewrite dot_elements. split; [|discriminate].
    intros E. injection E as E1 E2. subst. inversion Hb; subst. destruct H1 as (_ & H1 & _). congruence.
  - rewrite (spell_elements (x :: a)) by (auto; discriminate). cbn [spell]. rewrite dot_elements. split; [|discriminate].
    intros E. injection E as E1 E2. subst. inversion Ha; subst. destruct H1 as (_ & H1 & _). congruence.
  - rewrite !spell_elements by (auto; discriminate). tauto.
Qed.

Lemma spell_inj a b : Forall okname a -> Forall okname b -> spell a = spell b -> a = b.
Proof. intros Ha Hb E. apply spell_eqb; auto. rewrite E. unfold path_eqb. now apply list_str_eqb_eq. Qed.

Lemma spell_parent ns x : Forall okname (ns ++ [x]) -> parent_path (spell (ns ++ [x])) = match ns with [] => "" | _ => spell ns end.
Proof.
  intros H. apply Forall_app in H as [Hn Hx]. inversion Hx as [|? ? Ho _]; subst.
  destruct ns as [|n r].
  - cbn [app spell join_slash]. apply parent_path_single. destruct Ho as (A & _ & _ & B). now split.
  - unfold spell. cbn [app]. change (n :: r ++ [x]) with ((n :: r) ++ [x]). rewrite join_snoc by discriminate.
    apply parent_path_join.
    + destruct Ho as (A & _ & _ & B). now split.
    + intros E. pose proof (pre_join_nonempty false (n :: r) ltac:(discriminate) (okname_good _ Hn)) as Hne. cbn [pre] in Hne. contradiction.
    + rewrite split_join; [now apply okname_good|discriminate|apply goodname_sfree; now apply okname_good].
Qed.
Lemma dot_parent : parent_path "." = "". Proof. reflexivity. Qed.

Lemma spell_ne ns : Forall okname ns -> spell ns <> "".
Proof.
  intros H. destruct ns as [|n r]; [discriminate|]. intros E.
  pose proof (pre_join_nonempty false (n :: r) ltac:(discriminate) (okname_good _ H)) as Hne. cbn [pre] in Hne. contradiction.
Qed.

Lemma spell_length ns x : ns <> [] -> String.length (spell ns) < String.length (spell (ns ++ [x])).
Proof.
  intros Hn. destruct ns as [|n r]; [congruence|]. unfold spell. cbn [app]. change (n :: r ++ [x]) with ((n :: r) ++ [x]).
  rewrite join_snoc by discriminate. rewrite !app_str_length. cbn [String.length]. lia.
Qed.

(** The paths met in the loops are the nonempty prefixes. *)
Lemma ancestors_spec ns : ns <> [] -> Forall okname ns -> forall fuel, String.length (spell ns) < fuel ->
  forall p, In p (ancestors fuel (spell ns)) <-> exists a, a <> [] /\ prefix_of a ns /\ p = spell a.
Proof.
  intros Hn Ho. revert Hn Ho. induction ns as [|x ns IH] using rev_ind; [congruence|]. intros _ Ho fuel Hf p.
  destruct fuel as [|f]; [lia|]. cbn [ancestors].
  assert (Hne := spell_ne _ Ho). rewrite match_ne by exact Hne. rewrite (spell_parent ns x Ho).
  assert (Ho' : Forall okname ns) by (apply Forall_app in Ho; tauto).
  assert (Hsub : forall a, prefix_of a (ns ++ [x]) <-> a = ns ++ [x] \/ prefix_of a ns).
  { intros a. split.
    - intros [l E]. destruct (rev l) as [|y l'] eqn:El.
      + apply (f_equal (@rev string)) in El. rewrite rev_involutive in El. cbn in El. subst l. rewrite app_nil_r in E. now left.
      + apply (f_equal (@rev string)) in El. rewrite rev_involutive in El. cbn in El. subst l.
        rewrite app_assoc in E. apply app_inj_tail in E as [E _]. right. now exists (rev l').
    - intros [->|[l ->]]; [exists []; now rewrite app_nil_r|]. exists (l ++ [x]). now rewrite app_assoc. }
  destruct ns as [|n r].
  - destruct f; cbn [ancestors]; (split; [intros [<-|[]]; exists [x]; split; [discriminate|split; [exists []; reflexivity|reflexivity]]|]);
      intros (a & Ha & Hp & ->); apply Hsub in Hp as [->|[l E]]; try (now left); destruct a; [congruence|discriminate|congruence|discriminate].
  - assert (Hl := spell_length (n :: r) x ltac:(discriminate)).
    specialize (IH ltac:(discriminate) Ho' f ltac:(lia) p). split.
    + intros [<-|Hin].
      * exists ((n :: r) ++ [x]). split; [discriminate|]. split; [apply Hsub; now left|reflexivity].
      * apply IH in Hin as (a & Ha & Hp & E). exists a. split; [auto|]. split; [apply Hsub; now right|auto].
    + intros (a & Ha & Hp & ->). apply Hsub in Hp as [->|Hp]; [now left|]. right. apply IH. now exists a.
Qed.

Lemma self_and_parents_spec ns p : Forall okname ns -> ns <> [] ->
  In p (self_and_parents (spell ns)) <-> exists a, a <> [] /\ prefix_of a ns /\ p = spell a.
Proof. intros Ho Hn. unfold self_and_parents. apply ancestors_spec; auto. Qed.

Lemma strict_parents_spec ns x p : Forall okname (ns ++ [x]) ->
  In p (self_and_parents (parent_path (spell (ns ++ [x])))) <-> exists a, a <> [] /\ prefix_of a ns /\ p = spell a.
Proof.
  intros Ho. rewrite spell_parent by exact Ho. assert (Ho' : Forall okname ns) by (apply Forall_app in Ho; tauto).
  destruct ns as [|n r].
  - cbn. split; [intros []|]. intros (a & Ha & [l E] & _). destruct a; [congruence|discriminate].
  - apply self_and_parents_spec; [auto|discriminate].
Qed.

(** Sorted order: a prefix comes first. *)
Lemma str_lt_app a c b : str_lt a (a ++ String c b)%string.
Proof. unfold str_lt. induction a as [|x a IH]; cbn; [reflexivity|]. now rewrite N.compare_refl. Qed.
Lemma join_prefix_lt a l : a <> [] -> l <> [] -> str_lt (join_slash a) (join_slash (a ++ l)).
Proof.
  intros Ha Hl. assert (E : join_slash (a ++ l) = (join_slash a ++ "/" ++ join_slash l)%string).
  { clear -Ha Hl. induction a as [|x a IH]; [congruence|]. destruct a as [|y a].
    - cbn [app]. rewrite join_cons by exact Hl. reflexivity.
    - change ((x :: y :: a) ++ l) with (x :: (y :: a) ++ l). rewrite join_cons by discriminate. rewrite IH by discriminate.
      rewrite (join_cons x (y :: a)) by discriminate. now rewrite !app_str_assoc. }
  rewrite E. cbn [String.append]. apply str_lt_app.
Qed.

(** ** [tree_conflict] *)

Lemma unrelated_spell a b : unrelated (mkPlace 0 (rev a)) (mkPlace 0 (rev b)) <-> ~ prefix_of a b /\ ~ prefix_of b a.
Proof. unfold unrelated. now rewrite !below_prefix. Qed.

Lemma first_dotdot s : normal s -> is_absolute s = false ->
  (match elements s with e :: _ => String.eqb e ".." | [] => false end) = negb (Nat.eqb (up (place_of s)) 0).
Proof.
  intros N A. pose proof (place_of_wf s) as Wf. unfold normal in N. rewrite ToNormalPath_render, A in N.
  pose proof (names_good _ _ Wf) as G. unfold render in N. unfold elements. rewrite A. cbn [app].
  destruct (names (place_of s)) as [|n ns] eqn:E.
  - rewrite <- N at 1. unfold names in E. destruct (up (place_of s)); [reflexivity|discriminate].
  - assert (Er : rel_elements s = n :: ns) by (rewrite <- N; apply (rel_elements_join false (n :: ns)); [discriminate|exact G]). rewrite Er.
    unfold names in E. destruct (up (place_of s)) eqn:U.
    + cbn [repeat app] in E. destruct Wf as [Wd _]. apply Forall_rev in Wd. rewrite E in Wd. inversion Wd as [|? ? Hw _]; subst.
      destruct Hw as (_ & _ & Hd & _). cbn. now apply String.eqb_neq.
    + cbn in E. injection E as <- _. reflexivity.
Qed.

Section Conflict.
Context {size : nat}.

Definition good_pair (p q : string) : Prop := unrelated (place_of p) (place_of q).

Lemma conflict_go m : forall blocked,
  (forall e, In e m -> normal (fst e)) ->
  (forall p, In p blocked -> normal p /\ inside p) ->
  sorted_keys m ->
  (forall p e, In p blocked -> In e m -> str_lt p (fst e)) ->
  (In "." (map fst m) \/ In "." blocked -> length m + length blocked = size) ->
  (size > 1 -> ~ In "." blocked) ->
  (1 < size \/ length m + length blocked <= 1) ->
  tree_conflict_go size m blocked = None <->
  (forall e, In e m -> inside (fst e)) /\
  (forall e e', In e m -> In e' m -> e <> e' -> good_pair (fst e) (fst e')) /\
  (forall p e, In p blocked -> In e m -> good_pair p (fst e)).
Proof.
  induction m as [|[path x] r IH]; intros blocked Hn Hb Hs Hlt Hdot Hnb Hsz; cbn [tree_conflict_go].
  { split; [|auto]. intros _. repeat split; intros; contradiction. }
  assert (Np : normal path) by (apply (Hn (path, x)); now left).
  destruct (String.eqb path "." && Nat.ltb 1 size) eqn:Ed.
  { apply andb_prop in Ed as [E1 E2]. apply String.eqb_eq in E1. apply Nat.ltb_lt in E2. subst path.
    split; [discriminate|]. intros (Hi & Hp & Hq). exfalso.
    specialize (Hdot (or_introl (or_introl eq_refl))). cbn [length] in Hdot.
    assert (Hdotp : forall q, inside q -> at_or_below (place_of ".") (place_of q)).
    { intros q [_ Hq0]. change (place_of ".") with (mkPlace 0 []). split; [auto|]. exists (down (place_of q)). cbn. now rewrite app_nil_r. }
    destruct blocked as [|b bl].
    - destruct r as [|e r']; [cbn in *; lia|].
      assert (Hne : (".", x) <> e).
      { intros E. pose proof (sorted_NoDup _ Hs) as ND. inversion ND as [|? ? Hx _]; subst. apply Hx. now left. }
      destruct (Hp (".", x) e (or_introl eq_refl) (or_intror (or_introl eq_refl)) Hne) as [Hc _]. apply Hc. apply Hdotp.
      apply Hi. right. now left.
    - destruct (Hq b (".", x) (or_introl eq_refl) (or_introl eq_refl)) as [_ Hc]. apply Hc. apply Hdotp. apply Hb. now left. }
  destruct (is_absolute path) eqn:Ea.
  { split; [discriminate|]. intros (Hi & _). destruct (Hi (path, x) (or_introl eq_refl)) as [Hi' _]. cbn [fst] in Hi'. congruence. }
  rewrite (first_dotdot path Np Ea).
  destruct (Nat.eqb_spec (up (place_of path)) 0) as [Eu|Eu]; cbn [negb].
  2:{ split; [discriminate|]. intros (Hi & _). destruct (Hi (path, x) (or_introl eq_refl)) as [_ Hi']. contradiction. }
  assert (Hin : inside path) by (split; auto).
  destruct (normal_inside path Np Hin) as (ns & Ho & Es & Ep).
  assert (Hbl : forall b, In b blocked -> exists bs, Forall okname bs /\ b = spell bs /\ place_of b = mkPlace 0 (rev bs)).
  { intros b Hbb. destruct (Hb b Hbb) as [B1 B2]. exact (normal_inside b B1 B2). }
  (* duplicates *)
  destruct (existsb (path_eqb path) blocked) eqn:Edup.
  { exfalso. apply existsb_exists in Edup as (b & Hbb & Eb). destruct (Hbl b Hbb) as (bs & Ho' & Eb' & _).
    rewrite Es, Eb' in Eb. apply spell_eqb in Eb; auto. subst bs.
    pose proof (Hlt b (path, x) Hbb (or_introl eq_refl)) as L. cbn in L. apply (str_lt_neq _ _ L). congruence. }
  (* parents *)
  assert (Hpar : find (fun p => existsb (path_eqb p) (path :: blocked)) (self_and_parents (parent_path path)) = None <->
                 (forall b, In b blocked -> ns = [] \/ b = "." \/ ~ at_or_below (place_of b) (place_of path))).
  { destruct ns as [|y ns' _] using rev_ind.
    { assert (path = ".") by (rewrite Es; reflexivity). subst path. cbn. split; auto. }
    split.
    - intros Hf b Hbb. destruct (Hbl b Hbb) as (bs & Ho' & Eb' & Pb).
      destruct bs as [|b0 bs]; [right; left; auto|]. right. right. rewrite Pb, Ep, below_prefix. intros [l El].
      destruct (rev l) as [|z l'] eqn:Er.
      { apply (f_equal (@rev string)) in Er. rewrite rev_involutive in Er. cbn in Er. subst l. rewrite app_nil_r in El.
        pose proof (Hlt b (path, x) Hbb (or_introl eq_refl)) as L. cbn in L. apply (str_lt_neq _ _ L). rewrite Eb', Es. now rewrite El. }
      apply (f_equal (@rev string)) in Er. rewrite rev_involutive in Er. cbn in Er. subst l. rewrite app_assoc in El.
      apply app_inj_tail in El as [El _].
      assert (Hin' : In b (self_and_parents (parent_path path))).
      { rewrite Es. apply strict_parents_spec; auto. exists (b0 :: bs). split; [discriminate|]. split; [now exists (rev l')|auto]. }
      pose proof (find_none _ _ Hf b Hin') as Hc. cbn beta in Hc.
      assert (existsb (path_eqb b) (path :: blocked) = true); [|congruence].
      apply existsb_exists. exists b. split; [now right|]. rewrite Eb'. now apply spell_eqb.
    - intros Hall. destruct (find _ _) as [p|] eqn:Ef; [|reflexivity]. exfalso. apply find_some in Ef as [Hp He].
      rewrite Es in Hp. apply strict_parents_spec in Hp; auto. destruct Hp as (a & Ha & [l Hl] & ->).
      assert (Hoa : Forall okname a). { apply Forall_app in Ho as [Ho _]. rewrite Hl in Ho. apply Forall_app in Ho. tauto. }
      cbn [existsb] in He. apply orb_prop in He as [He|He].
      + rewrite Es in He. apply spell_eqb in He; auto. rewrite Hl in He. apply (f_equal (@length string)) in He. rewrite !app_length in He. cbn in He. lia.
      + apply existsb_exists in He as (b & Hbb & Eb). destruct (Hbl b Hbb) as (bs & Ho' & Eb' & Pb). rewrite Eb' in Eb.
        apply spell_eqb in Eb; auto. subst bs. destruct (Hall b Hbb) as [Hx|[Hx|Hx]].
        * destruct ns'; discriminate.
        * rewrite Eb' in Hx. change "." with (spell []) in Hx. apply spell_inj in Hx; auto.
        * apply Hx. rewrite Pb, Ep. apply below_prefix. exists (l ++ [y]). now rewrite Hl, app_assoc. }
  set (F := find _ _) in *.
  assert (Hrest : tree_conflict_go size r (path :: blocked) = None <->
    (forall e, In e r -> inside (fst e)) /\
    (forall e e', In e r -> In e' r -> e <> e' -> good_pair (fst e) (fst e')) /\
    (forall p e, In p (path :: blocked) -> In e r -> good_pair p (fst e))).
  { apply IH.
    - intros e He. apply Hn. now right.
    - intros p [<-|Hp]; [now split|auto].
    - exact (sorted_keys_tail _ _ Hs).
    - intros p e [<-|Hp] He; [exact (sorted_keys_head _ _ _ Hs He)|]. apply Hlt; auto. now right.
    - cbn [length]. intros Hd. rewrite <- Hdot; [cbn [length]; lia|]. cbn. destruct Hd as [Hd|[Hd|Hd]]; auto.
    - intros Hz [E|Hd]; [|exact (Hnb Hz Hd)]. 
      apply Nat.ltb_lt in Hz.
      rewrite E, Hz in Ed.
      cbn in Ed.
      congruence.
    - cbn [length] in *. lia. }
  assert (HF : F = None <-> forall b, In b blocked -> good_pair b path).
  { rewrite Hpar. split.
    - intros Hall b Hbb. destruct (Hbl b Hbb) as (bs & Ho' & Eb' & Pb). unfold good_pair. rewrite Pb, Ep, unrelated_spell.
      pose proof (Hlt b (path, x) Hbb (or_introl eq_refl)) as L. cbn in L.
      assert (Hsz2 : size > 1). { destruct Hsz as [Hz|Hz]; auto. destruct blocked; [contradiction|]. cbn in Hz. lia. }
      assert (Hbd : bs <> []). { intros ->. cbn in Eb'. apply (Hnb Hsz2). rewrite <- Eb'. exact Hbb. }
      assert (Hnd : ns <> []). { intros ->. cbn in Es. apply Nat.ltb_lt in Hsz2. rewrite Es, Hsz2 in Ed. cbn in Ed. congruence. }
      split.
      + destruct (Hall b Hbb) as [Hx|[Hx|Hx]]; [contradiction| |].
        * exfalso. apply (Hnb Hsz2). rewrite <- Hx. exact Hbb.
        * now rewrite Pb, Ep, below_prefix in Hx.
      + intros [l El]. destruct l as [|z l].
        * rewrite app_nil_r in El. apply (str_lt_neq _ _ L). rewrite Eb', Es. now rewrite El.
        * apply (str_lt_asym _ _ L). rewrite Eb', Es, El. unfold spell.
          destruct ns as [|n0 ns0]; [congruence|]. cbn [app]. apply (join_prefix_lt (n0 :: ns0) (z :: l)); discriminate.
    - intros Hall b Hbb. right. right. apply Hall. exact Hbb. }
  destruct F as [p|].
  { split; [discriminate|]. intros (_ & _ & Hq). exfalso. assert (Some p = None); [|discriminate]. apply HF. intros b Hbb. apply (Hq b (path, x)); [auto|now left]. }
  rewrite Hrest. clear Hrest IH. assert (HF' := proj1 HF eq_refl). clear HF Hpar.
  split.
  - intros (H1 & H2 & H3). split; [|split].
    + intros e [<-|He]; [exact Hin|auto].
    + intros e e' [<-|He] [<-|He'] Hd; auto.
      * congruence.
      * apply (H3 path e'); [now left|auto].
      * pose proof (H3 path e (or_introl eq_refl) He) as [G1 G2]. split; auto.
    + intros p e Hp [<-|He]; [auto|]. apply H3; [now right|auto].
  - intros (H1 & H2 & H3). split; [|split].
    + intros e He. apply H1. now right.
    + intros e e' He He'. apply H2; now right.
    + intros p e [<-|Hp] He; [|apply H3; [auto|now right]].
      apply (H2 (path, x) e); [now left|now right|]. intros E. pose proof (sorted_NoDup _ Hs) as ND. inversion ND as [|? ? Hx _]; subst. apply Hx. apply in_map with (f := fst) in He. exact He.
Qed.
End Conflict.

(** For stages with normal paths: no conflict is found exactly if the stage can be installed. *)
Lemma tree_conflict_spec m : sorted_keys m -> (forall e, In e m -> normal (fst e)) ->
  tree_conflict m = None <-> installable m.
Proof.
  intros Hs Hn. unfold tree_conflict, installable.
  assert (HG := @conflict_go (length m) m []). cbn [length In] in HG. rewrite Nat.add_0_r in HG.
  rewrite HG; clear HG.
  - split; [intros (A & B & _); auto|]. intros (A & B). split; [auto|]. split; [auto|]. intros p e [].
  - exact Hn.
  - intros p [].
  - exact Hs.
  - intros p e [].
  - intros _. reflexivity.
  - intros _ [].
  - lia.
Qed.

(** ** [artifacts_tree] *)

Definition faithful (eqb : expr -> expr -> bool) : Prop := forall a b, eqb a b = true <-> a = b.

Section Tree.
Variable eqb : expr -> expr -> bool.
Hypothesis eqb_sound : forall a b, eqb a b = true -> a = b.

Lemma In_aemplace_iff {V} k (v : V) l e : sorted_keys l -> alookup k l = None -> In e (aemplace k v l) <-> e = (k, v) \/ In e l.
Proof.
  intros Hs Hl. split; [apply In_aemplace|].
  assert (Hs' := aemplace_sorted k v l Hs).
  intros [->|He].
  - apply alookup_In. rewrite aemplace_lookup by auto. rewrite Hl, String.eqb_refl. reflexivity.
  - destruct e as [k' v']. apply alookup_In. rewrite aemplace_lookup by auto. now rewrite (sorted_alookup_In k' v' l Hs He).
Qed.
Lemma aemplace_present {V} k (v w : V) l : sorted_keys l -> alookup k l = Some w -> aemplace k v l = l.
Proof.
  intros Hs Hl. apply sorted_ext; auto using aemplace_sorted. intros x. rewrite aemplace_lookup by auto.
  destruct (alookup x l) eqn:E; auto. destruct (String.eqb_spec x k); [congruence|reflexivity].
Qed.

Lemma artifacts_tree_spec m : forall acc n, sorted_keys acc -> (forall e, In e acc -> normal (fst e)) ->
  artifacts_tree_go eqb m acc = inr n ->
  sorted_keys n /\ (forall e, In e n -> normal (fst e)) /\
  (forall e, In e acc -> In e n) /\
  (forall e, In e m -> In (ToNormalPath (fst e), snd e) n) /\
  (forall e, In e n -> In e acc \/ exists e', In e' m /\ e = (ToNormalPath (fst e'), snd e')).
Proof.
  induction m as [|[key art] r IH]; intros acc n Hs Hn; cbn [artifacts_tree_go].
  { intros E. injection E as <-. repeat split; auto; intros e []. }
  destruct (alookup (ToNormalPath key) acc) as [old|] eqn:El.
  - destruct (eqb old art) eqn:Ee; [|discriminate]. apply eqb_sound in Ee. subst old.
    rewrite (aemplace_present _ art art acc Hs El). intros E.
    destruct (IH acc n Hs Hn E) as (A & B & C & D & F). split; [auto|]. split; [auto|]. split; [auto|]. split.
    + intros e [<-|He]; auto. cbn. apply C. now apply alookup_In.
    + intros e He. destruct (F e He) as [G|(e' & G & G')]; auto. right. exists e'. split; [now right|auto].
  - intros E.
    assert (Hs' := aemplace_sorted (ToNormalPath key) art acc Hs).
    destruct (IH (aemplace (ToNormalPath key) art acc) n Hs') as (A & B & C & D & F); auto.
    { intros e He. apply In_aemplace in He as [->|He]; auto. apply ToNormalPath_idem. }
    split; [auto|]. split; [auto|]. split; [|split].
    + intros e He. apply C. apply In_aemplace_iff; auto.
    + intros e [<-|He]; auto. cbn. apply C. apply In_aemplace_iff; auto.
    + intros e He. destruct (F e He) as [G|(e' & G & G')].
      * apply In_aemplace in G as [->|G]; auto. right. exists (key, art). split; [now left|auto].
      * right. exists e'. split; [now right|auto].
Qed.

Lemma artifacts_tree_complete m : (forall a, eqb a a = true) ->
  forall acc, sorted_keys acc ->
  (forall e e', In e m -> In e' m -> ToNormalPath (fst e) = ToNormalPath (fst e') -> snd e = snd e') ->
  (forall e e', In e acc -> In e' m -> fst e = ToNormalPath (fst e') -> snd e = snd e') ->
  exists n, artifacts_tree_go eqb m acc = inr n.
Proof.
  intros Hr. induction m as [|[key art] r IH]; intros acc Hs Hm Ha; cbn [artifacts_tree_go]; [eauto|].
  assert (Hm' : forall e e', In e r -> In e' r -> ToNormalPath (fst e) = ToNormalPath (fst e') -> snd e = snd e')
    by (intros e e' He He'; apply Hm; now right).
  destruct (alookup (ToNormalPath key) acc) as [old|] eqn:El.
  - assert (old = art) by (apply (Ha (ToNormalPath key, old) (key, art)); [now apply alookup_In|now left|reflexivity]). subst old.
    rewrite Hr, (aemplace_present _ art art acc Hs El). apply IH; auto. intros e e' He He'. apply Ha; [auto|now right].
  - apply IH; auto using aemplace_sorted. intros e e' He He' E. apply In_aemplace in He as [->|He].
    + apply (Hm (key, art) e'); [now left|now right|exact E].
    + apply Ha; auto. now right.
Qed.
End Tree.
