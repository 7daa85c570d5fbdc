(** The partial trees stand for a directory with exactly the artifacts added so far. *)
From Coq Require Import String Ascii List Bool NArith ZArith Arith Permutation Lia.
From Verif Require Import Common.Strs Hex.Model Hex.Proofs GitTree.Model GitTree.Spec GitTree.Proofs TreeOps.Model TreeOps.Spec TreeOps.Proofs
  Path.Model Path.Spec Path.Proofs Path.Proofs2 Upload.Model Upload.Spec Upload.Root Upload.Build Computed.Model Computed.Paths.
Import ListNotations.
Local Open Scope string_scope.
Local Open Scope list_scope.

Notation level := (list (string * node)).

(** The directory that results from closing all open directories; innermost first. *)
Fixpoint plug (n : node) (rc : list string) (st : list level) : node :=
  match rc, st with
  | x :: rc', es :: st' => plug (Dir (ainsert x n es)) rc' st'
  | _, _ => n
  end.

(** The open directories are not yet in their parents. *)
Fixpoint opened (rc : list string) (st : list level) : Prop :=
  match rc, st with
  | [], [es] => proper (Dir es)
  | x :: rc', es :: st' =>
      proper (Dir es) /\ valid_name x /\ okname x /\ match st' with es1 :: _ => alookup x es1 = None | [] => False end /\ opened rc' st'
  | _, _ => False
  end.

Definition whole (rc : list string) (st : list level) : node :=
  match st with es :: r => plug (Dir es) rc r | [] => Dir [] end.

Lemma opened_stack rc st : opened rc st -> exists es r, st = es :: r /\ length r = length rc /\ proper (Dir es).
Proof.
  revert st. induction rc as [|x rc IH]; intros [|es [|es1 r]] O; cbn [opened] in O; try contradiction.
  - exists es, []. auto.
  - destruct O as (_ & _ & _ & F & _). destruct F.
  - destruct O as (P & _ & _ & _ & O). destruct (IH _ O) as (e & r' & E & L & _). injection E as <- <-. exists es, (es1 :: r). cbn. auto.
Qed.

Lemma ainsert_In {V} k (v : V) l p : In p (ainsert k v l) -> p = (k, v) \/ In p l.
Proof.
  induction l as [|[k' v'] l IH]; cbn; [intuition|]. destruct (str_cmp k k'); cbn; intuition.
Qed.

Lemma proper_insert x n es : valid_name x -> proper n -> proper (Dir es) -> proper (Dir (ainsert x n es)).
Proof.
  intros V N P. apply proper_dir in P as [S P]. apply proper_dir. split; [now apply ainsert_sorted|].
  intros y c I. apply ainsert_In in I as [I|I]; [injection I as -> ->; auto|eauto].
Qed.

Lemma opened_proper rc : forall n st, opened rc (n :: st) -> forall m, proper m -> proper (plug m rc st).
Proof.
  induction rc as [|x rc IH]; intros n st O m P; cbn [plug]; [exact P|]. destruct st as [|es st]; [exact P|].
  cbn [opened] in O. destruct O as (_ & V & _ & _ & O). eapply IH; [exact O|]. apply proper_insert; auto.
  apply (opened_stack rc) in O as (e & r & E & _ & Pe). now injection E as <- <-.
Qed.
Lemma whole_proper rc st : opened rc st -> proper (whole rc st).
Proof. intros O. destruct (opened_stack _ _ O) as (es & r & -> & _ & P). cbn [whole]. eapply opened_proper; eauto. Qed.

(** What is at a path below the innermost directory. *)
Lemma view_plug rc : forall n st s, length st = length rc -> view (plug n rc st) (rev rc ++ s) = view n s.
Proof.
  induction rc as [|x rc IH]; intros n [|es st] s L; try discriminate; [reflexivity|]. cbn [plug rev]. rewrite <- app_assoc. cbn [app].
  rewrite IH by (cbn in L; lia). cbn [view]. rewrite ainsert_lookup, String.eqb_refl. reflexivity.
Qed.

Lemma list_str_eq (a b : list string) : {a = b} + {a <> b}.
Proof. apply list_eq_dec, string_dec. Defined.

Lemma view_none n : forall p s, view n p = None -> view n (p ++ s) = None.
Proof.
  intros p. revert n. induction p as [|x p IH]; intros n s V; [destruct n; discriminate|]. cbn [app view] in *.
  destruct n as [t i|es]; [reflexivity|]. destruct (alookup x es); [now apply IH|reflexivity].
Qed.

(** Changing one path in the innermost directory changes one path of the whole. *)
Lemma plug_change rc : forall n n' st s o, length st = length rc ->
  (forall q, view n' q = if list_str_eq q s then o else view n q) ->
  forall q, view (plug n' rc st) q = if list_str_eq q (rev rc ++ s) then o else view (plug n rc st) q.
Proof.
  induction rc as [|x rc IH]; intros n n' [|es st] s o L C q; try discriminate; [exact (C q)|].
  cbn [plug rev]. rewrite <- app_assoc. cbn [app]. apply IH; [cbn in L; lia|].
  intros [|y r]; cbn [view].
  - now destruct (list_str_eq [] (x :: s)).
  - rewrite !ainsert_lookup. destruct (String.eqb_spec y x) as [->|N].
    + rewrite C. destruct (list_str_eq r s) as [E1|N]; destruct (list_str_eq (x :: r) (x :: s)) as [E|E]; try reflexivity; congruence.
    + destruct (list_str_eq (y :: r) (x :: s)); [congruence|reflexivity].
Qed.

Definition leaf (n : node) : Prop := n = Dir [] \/ exists t i, n = Blob t i.
Lemma view_insert x n es : leaf n -> alookup x es = None ->
  forall q, view (Dir (ainsert x n es)) q = if list_str_eq q [x] then view n [] else view (Dir es) q.
Proof.
  intros Lf A [|y r]; cbn [view]; [now destruct (list_str_eq [] [x])|]. rewrite ainsert_lookup. destruct (String.eqb_spec y x) as [->|N].
  - rewrite A. destruct r as [|z r]; [destruct (list_str_eq [x] [x]); [destruct n; reflexivity|congruence]|].
    destruct (list_str_eq (x :: z :: r) [x]); [congruence|]. destruct Lf as [->|(t & i & ->)]; reflexivity.
  - destruct (list_str_eq (y :: r) [x]); [congruence|reflexivity].
Qed.

Section H.
Variable H : string -> string.
Hypothesis HL : raw_ids H.
Notation nid := (nid H).
Notation ditems := (ditems H).

Definition same (te : tree_entries) (es : level) : Prop := Permutation (items te) (ditems es).
Definition repr (t : partial_tree) (rc : list string) (st : list level) : Prop :=
  opened rc st /\ fst t = join_slash (rev rc) /\ Forall2 same (snd t) st.

Lemma same_insert te es x n raw t : same te es -> alookup x es = None -> sorted_keys es -> raw = nid n -> t = ntype n ->
  same (AddEntryRaw te x raw t) (ainsert x n es).
Proof.
  intros S A K -> ->. unfold same, AddEntryRaw in *. eapply perm_trans; [apply emplace_back_perm|]. cbn [fst snd].
  eapply perm_trans; [apply perm_skip, S|]. clear S.
  assert (P : Permutation ((x, n) :: es) (ainsert x n es)).
  { apply NoDup_Permutation.
    - constructor; [|now apply (NoDup_map_inv fst), sorted_NoDup]. intros I. apply sorted_alookup_In in I; congruence.
    - apply (NoDup_map_inv fst), sorted_NoDup, ainsert_sorted, K.
    - intros [y c]. split; intros I.
      + apply alookup_In. rewrite ainsert_lookup. destruct I as [I|I]; [injection I as -> ->; now rewrite String.eqb_refl|].
        destruct (String.eqb_spec y x) as [->|]; [|now apply sorted_alookup_In]. apply sorted_alookup_In in I; congruence.
      + apply ainsert_In in I as [I|I]; [left; congruence|now right]. }
  apply (Permutation_map (fun p => match p with (x, c) => (x, (ntype c, nid c)) end)) in P. exact P.
Qed.

Lemma same_id te es : proper (Dir es) -> same te es -> fst (CreateShallowTree H te) = nid (Dir es).
Proof.
  intros P S. unfold CreateShallowTree. cbn [fst TreeOps.Spec.nid]. f_equal. apply tree_content_order.
  - pose proof (proper_items H HL es P) as [N F]. split.
    + eapply Permutation_NoDup; [apply Permutation_map, Permutation_sym, S|exact N].
    + eapply Permutation_Forall; [apply Permutation_sym, S|exact F].
  - change (valid_items (items (groups H es))). rewrite items_groups. now apply proper_items.
  - intros i. change (In i (items te) <-> In i (items (groups H es))). rewrite items_groups. split; apply Permutation_in; [exact S|now apply Permutation_sym].
Qed.

(** [Up] does not change the directory. *)
Lemma up_repr t x rc st : repr t (x :: rc) st -> exists t' st', Up H t = Value t' /\ repr t' rc st' /\ whole rc st' = whole (x :: rc) st /\ length (snd t) = S (length (snd t')).
Proof.
  intros (O & E & F). cbn [opened] in O. destruct st as [|es [|es1 st]]; [contradiction|destruct O as (_ & _ & _ & [] & _)|].
  destruct O as (P & V & Ok & N & O).
  destruct t as [cur stack]. cbn [fst snd] in *. inversion F as [|te ? rest ? S F1]; subst. inversion F1 as [|te1 ? rest1 ? S1 F2]; subst.
  assert (G : Forall goodname (rev rc ++ [x])).
  { apply Forall_app. split; [|repeat constructor; apply Ok]. apply ok_good. apply Forall_rev. clear - O. revert O. generalize (es1 :: st). revert rc.
    induction rc as [|y rc IH]; intros l O; [constructor|]. destruct l; cbn [opened] in O; [contradiction|]. destruct O as (_ & _ & Y & _ & O). constructor; eauto. }
  eexists _, (ainsert x (Dir es) es1 :: st). unfold Up. cbn [fst snd]. split; [reflexivity|]. cbn [rev] in *.
  pose proof (opened_stack _ _ O) as (e & r & E & _ & P1). injection E as <- <-.
  split; [|split; [reflexivity|reflexivity]]. split; [|split].
  - destruct rc as [|y rc]; destruct st as [|es2 st]; cbn [opened] in O |- *; try contradiction.
    + now apply proper_insert.
    + destruct O as (_ & _ & _ & [] & _).
    + destruct O as (_ & O). split; [now apply proper_insert|exact O].
  - cbn [fst]. now apply parent_join.
  - cbn [snd]. constructor; [|exact F2]. rewrite filename_join by exact G. apply same_insert; auto.
    + apply proper_dir in P1. apply P1.
    + now apply same_id.
Qed.

Lemma opened_ok rc st : opened rc st -> Forall okname rc.
Proof.
  revert st. induction rc as [|y rc IH]; intros [|es st] O; cbn [opened] in O; try contradiction; constructor; destruct O as (_ & _ & Y & _ & O); [exact Y|eauto].
Qed.

(** The first loop of [To] leaves exactly the directories that are not on the way. *)
Lemma up_loop_repr d : Forall okname d -> forall rc t st fuel, repr t rc st -> length rc <= fuel ->
  exists t' rc' st' rest, up_loop H fuel (join_slash d) t = Value (t', match rest with [] => ["."] | _ => rest end) /\
    d = rev rc' ++ rest /\ repr t' rc' st' /\ whole rc' st' = whole rc st /\ prefix (rev rc') (rev rc) /\
    (forall y r, rest = y :: r -> ~ prefix (rev rc' ++ [y]) (rev rc)).
Proof.
  intros D. induction rc as [|x rc IH]; intros t st fuel R Fu.
  - destruct R as (O & E & F). exists t, [], st, d. cbn [rev app] in *. repeat split; auto.
    + assert (EL : elements (lexically_relative (join_slash d) (fst t)) = match d with [] => ["."] | _ => d end).
      { rewrite E. change "" with (join_slash []). rewrite (relative_elements d [] d []); auto; destruct d; reflexivity. }
      destruct fuel; cbn [up_loop]; rewrite EL; (destruct d as [|y d]; [reflexivity|]); inversion D as [|? ? (_ & _ & N & _) _]; subst;
        now rewrite (proj2 (String.eqb_neq y "..") N).
    + exists []. reflexivity.
    + intros y r _ [s K]. discriminate.
  - destruct (mismatch d (rev (x :: rc))) as [a' b'] eqn:M. pose proof R as (O & E & F).
    pose proof (relative_elements d (rev (x :: rc)) a' b' D (Forall_rev (opened_ok _ _ O)) M) as EL. rewrite <- E in EL.
    pose proof (mismatch_spec _ _ _ _ M) as (p & E1 & E2 & Df).
    destruct b' as [|z b'].
    + rewrite app_nil_r in E2. subst p. exists t, (x :: rc), st, a'. repeat split; auto.
      * assert (EL' : elements (lexically_relative (join_slash d) (fst t)) = match a' with [] => ["."] | _ => a' end) by (rewrite EL; destruct a'; reflexivity).
        destruct fuel; cbn [up_loop]; rewrite EL'; (destruct a' as [|y a']; [reflexivity|]);
        subst d; apply Forall_app in D as [_ D]; inversion D as [|? ? (_ & _ & N & _) _]; subst; now rewrite (proj2 (String.eqb_neq y "..") N).
      * exists []. symmetry. apply app_nil_r.
      * intros y r -> [s K]. rewrite <- app_assoc in K. rewrite <- (app_nil_r (rev (x :: rc))) in K at 1. apply app_inv_head in K. discriminate.
    + destruct fuel as [|fuel]; [cbn in Fu; lia|]. destruct (up_repr _ _ _ _ R) as (t1 & st1 & U & R1 & W1 & _).
      destruct (IH t1 st1 fuel R1 ltac:(cbn in Fu; lia)) as (t' & rc' & st' & rest & L & Ed & R' & W' & [pf Pf] & Mx).
      exists t', rc', st', rest. split; [|split; [exact Ed|split; [exact R'|split; [congruence|split; [exists (pf ++ [x]); cbn [rev]; rewrite Pf; now rewrite <- app_assoc|]]]]].
      * cbn [up_loop]. rewrite EL. replace (match a' with [] => _ | _ => _ end) with (repeat ".." (length (z :: b')) ++ a') by (destruct a'; reflexivity).
        cbn [length repeat app]. rewrite String.eqb_refl, U. exact L.
      * intros y r Er [s K]. cbn [rev] in K. destruct (list_eq_dec string_dec s []) as [->|Ns].
        -- rewrite app_nil_r in K. apply app_inj_tail in K as [K Ky]. subst y rest.
           (* the directory is on the way *)
           rewrite Ed, <- K in E1. cbn [rev] in E2.
           assert (C : p ++ a' = (p ++ z :: b') ++ r) by (rewrite <- E1, <- E2, <- app_assoc; reflexivity).
           rewrite <- app_assoc in C. apply app_inv_head in C. cbn [app] in C. exact (Df _ _ _ _ C eq_refl eq_refl).
        -- destruct (exists_last Ns) as (s' & l & ->). apply (Mx y r Er). exists s'. rewrite app_assoc in K. now apply app_inj_tail in K as [K _].
Qed.

(** [Down] adds an empty directory. *)
Lemma down_repr t rc st y : repr t rc st -> okname y -> valid_name y -> view (whole rc st) (rev rc ++ [y]) = None ->
  exists st', repr (Down t y) (y :: rc) st' /\
    forall q, view (whole (y :: rc) st') q = if list_str_eq q (rev rc ++ [y]) then Some Folder else view (whole rc st) q.
Proof.
  intros (O & E & F) Oy Vy N. destruct (opened_stack _ _ O) as (es & r & -> & L & P). cbn [whole] in *.
  rewrite view_plug in N by exact L. cbn [view] in N.
  assert (A : alookup y es = None) by (destruct (alookup y es) as [[]|]; congruence || discriminate).
  exists ([] :: es :: r). split; [split; [|split]|].
  - cbn [opened]. split; [apply proper_dir; split; [constructor|intros ? ? []]|]. auto.
  - unfold Down. destruct Oy as (N1 & N2 & _ & Sf). rewrite (proj2 (String.eqb_neq y ".") N2), (proj2 (String.eqb_neq y "") N1). cbn [orb fst rev].
    rewrite E. pose proof (opened_ok _ _ O) as Ok. apply ok_good in Ok. apply Forall_rev in Ok.
    rewrite <- (fold_append (rev rc)) by exact Ok. rewrite <- (fold_append (rev rc ++ [y])).
    + now rewrite fold_left_app.
    + apply Forall_app. split; [exact Ok|]. repeat constructor; auto.
  - unfold Down. destruct Oy as (N1 & N2 & _ & Sf). rewrite (proj2 (String.eqb_neq y ".") N2), (proj2 (String.eqb_neq y "") N1). cbn [orb snd].
    constructor; [|exact F]. apply perm_nil.
  - cbn [whole plug]. apply plug_change; [exact L|]. apply (view_insert y (Dir [])); [now left|exact A].
Qed.

Lemma down_all ys : forall t rc st, repr t rc st -> Forall okname ys -> Forall valid_name ys ->
  (forall y r, ys = y :: r -> view (whole rc st) (rev rc ++ [y]) = None) ->
  exists st', repr (fold_left Down ys t) (rev ys ++ rc) st' /\
    forall q, view (whole (rev ys ++ rc) st') q = view (whole rc st) q \/
              view (whole rc st) q = None /\ view (whole (rev ys ++ rc) st') q = Some Folder /\ prefix q (rev rc ++ ys).
Proof.
  induction ys as [|y ys IH]; intros t rc st R Ok Va N.
  - exists st. cbn. split; [exact R|auto].
  - inversion Ok as [|? ? Oy Oys]; inversion Va as [|? ? Vy Vys]; subst.
    destruct (down_repr t rc st y R Oy Vy (N y ys eq_refl)) as (st1 & R1 & V1).
    destruct (IH (Down t y) (y :: rc) st1 R1 Oys Vys) as (st' & R' & V').
    { intros z r _. rewrite V1. cbn [rev]. rewrite <- app_assoc. destruct (list_str_eq _ _) as [K|_].
      - apply app_inv_head in K. discriminate.
      - change ([y] ++ [z]) with ([y] ++ [z]). rewrite app_assoc. apply view_none. exact (N y ys eq_refl). }
    exists st'. cbn [fold_left rev]. rewrite <- app_assoc. cbn [app]. split; [exact R'|].
    intros q. destruct (V' q) as [Q|(Q1 & Q2 & s & Q3)].
    + rewrite Q, V1. destruct (list_str_eq q (rev rc ++ [y])) as [->|_]; [|auto]. right. split; [exact (N y ys eq_refl)|]. split; [reflexivity|].
      exists ys. rewrite <- app_assoc. reflexivity.
    + right. rewrite V1 in Q1. destruct (list_str_eq q (rev rc ++ [y])); [discriminate|]. split; [exact Q1|]. split; [exact Q2|].
      exists s. rewrite <- Q3. cbn [rev]. rewrite <- app_assoc. reflexivity.
Qed.

(** The directories on the way to an existing directory exist. *)
Lemma view_folder_above n : forall p s, view n (p ++ s) <> None -> s <> [] -> view n p = Some Folder.
Proof.
  intros p. revert n. induction p as [|x p IH]; intros n s V S; cbn [app view] in *.
  - destruct n; [|reflexivity]. destruct s; [congruence|cbn in V; congruence].
  - destruct n as [|es]; [congruence|]. destruct (alookup x es) as [c|]; [|congruence]. eauto.
Qed.

(** [Add] adds the artifact and the directories leading there. *)
Theorem add_repr t rc st d x ty raw : repr t rc st -> Forall okname (d ++ [x]) -> Forall valid_name (d ++ [x]) -> String.length raw = 20 ->
  (forall p y r, d = p ++ y :: r -> prefix p (rev rc) -> ~ prefix (p ++ [y]) (rev rc) -> view (whole rc st) (p ++ [y]) = None) ->
  view (whole rc st) (d ++ [x]) = None ->
  exists t' st', Add H (join_slash (d ++ [x])) (ToHexString raw) ty t = Value t' /\ repr t' (rev d) st' /\
    view (whole (rev d) st') (d ++ [x]) = Some (Content ty raw) /\
    forall q, q <> d ++ [x] -> view (whole (rev d) st') q = view (whole rc st) q \/
       view (whole rc st) q = None /\ view (whole (rev d) st') q = Some Folder /\ prefix q d.
Proof.
  intros R Ok Va Lr New Free. pose proof Ok as Ok'. pose proof Va as Va'. apply Forall_app in Ok' as [Od Ox]. apply Forall_app in Va' as [Vd Vx].
  inversion Ox as [|? ? Oxx _]; inversion Vx as [|? ? Vxx _]; subst.
  unfold Add, To. rewrite parent_join by now apply ok_good.
  assert (Fu : length rc <= length (snd t)).
  { destruct R as (O & _ & F). destruct (opened_stack _ _ O) as (es & r & -> & L & _).
    assert (E : length (snd t) = length (es :: r)) by (clear - F; induction F; cbn; congruence). rewrite E. cbn. lia. }
  destruct (up_loop_repr d Od rc t st _ R Fu) as (t1 & rc1 & st1 & rest & Lp & Ed & R1 & W1 & Pre & Mx). rewrite Lp. cbn [bind].
  assert (Orest : Forall okname rest /\ Forall valid_name rest) by (subst d; apply Forall_app in Od as [_ ?]; apply Forall_app in Vd as [_ ?]; auto).
  destruct (down_all rest t1 rc1 st1 R1 (proj1 Orest) (proj2 Orest)) as (st2 & R2 & V2).
  { intros y r E. rewrite W1. subst rest. eapply New; [exact Ed|exact Pre|]. eauto. }
  assert (Erc : rev rest ++ rc1 = rev d) by (rewrite Ed, rev_app_distr, rev_involutive; reflexivity). rewrite Erc in R2, V2.
  assert (Ef : fold_left Down match rest with [] => ["."] | _ => rest end t1 = fold_left Down rest t1) by (destruct rest; reflexivity).
  assert (Edd : rev rc1 ++ rest = d) by now symmetry. rewrite Edd, W1 in V2. rewrite Ef. clear Ef Lp Mx Erc R1.
  assert (Free2 : view (whole (rev d) st2) (d ++ [x]) = None).
  { destruct (V2 (d ++ [x])) as [->|(_ & _ & s & K)]; [exact Free|]. rewrite <- app_assoc in K. rewrite <- (app_nil_r d) in K at 1. apply app_inv_head in K. discriminate. }
  destruct R2 as (O & E & F). destruct (opened_stack _ _ O) as (es & r & -> & L & P). set (t2 := fold_left Down rest t1) in *. destruct t2 as [cur stack].
  cbn [fst snd] in *. inversion F as [|te ? tl ? Sm F']; subst stack. rewrite hex_decode_encode. cbn [whole] in *.
  assert (A : alookup x es = None).
  { rewrite <- (rev_involutive d) in Free2 at 2. rewrite view_plug in Free2 by exact L. cbn [view] in Free2. destruct (alookup x es) as [[]|]; congruence || discriminate. }
  eexists _, (ainsert x (Blob ty raw) es :: r). split; [reflexivity|]. split; [split; [|split]|].
  - clear - O P Vxx Lr. destruct (rev d) as [|y' rd]; destruct r as [|es1 r]; cbn [opened] in O |- *; try contradiction.
    + apply proper_insert; auto.
    + destruct O as (_ & _ & _ & [] & _).
    + destruct O as (_ & O). split; [apply proper_insert; auto|exact O].
  - exact E.
  - cbn [snd]. constructor; [|exact F']. rewrite filename_join by now apply ok_good. apply same_insert; auto. apply proper_dir in P. apply P.
  - cbn [whole]. pose proof (plug_change (rev d) _ _ r _ _ L (view_insert x (Blob ty raw) es (or_intror (ex_intro _ ty (ex_intro _ raw eq_refl))) A)) as C.
    rewrite rev_involutive in C. split.
    + rewrite C. destruct (list_str_eq _ _); [reflexivity|congruence].
    + intros q Nq. rewrite C. destruct (list_str_eq _ _); [congruence|]. apply V2.
Qed.

(** Closing all directories. *)
Lemma done_repr rc : forall t st fuel, repr t rc st -> length rc <= fuel ->
  exists t' es, done_loop H fuel t = Value t' /\ repr t' [] [es] /\ whole rc st = Dir es.
Proof.
  induction rc as [|x rc IH]; intros t st fuel R Fu.
  - destruct R as (O & E & F). destruct st as [|es [|]]; cbn [opened] in O; try contradiction. exists t, es. split; [|split; [split; auto|reflexivity]].
    cbn in E. destruct fuel; cbn [done_loop]; now rewrite E.
  - destruct fuel as [|fuel]; [cbn in Fu; lia|]. destruct (up_repr _ _ _ _ R) as (t1 & st1 & U & R1 & W1 & _).
    destruct (IH t1 st1 fuel R1 ltac:(cbn in Fu; lia)) as (t' & es & D & R' & W'). exists t', es. split; [|split; [exact R'|congruence]].
    cbn [done_loop]. destruct R as (O & E & _). rewrite E.
    pose proof (pre_join_nonempty false (rev (x :: rc)) ltac:(cbn; now destruct (rev rc)) (ok_good _ (Forall_rev (opened_ok _ _ O)))) as N. cbn [pre String.append] in N.
    destruct (join_slash (rev (x :: rc))); [congruence|]. rewrite U. exact D.
Qed.
Theorem done_ok t rc st : repr t rc st -> Done H t = Value (ToHexString (nid (whole rc st))).
Proof.
  intros R. assert (Fu : length rc <= length (snd t)).
  { destruct R as (O & _ & F). destruct (opened_stack _ _ O) as (es & r & -> & L & _).
    assert (E : length (snd t) = length (es :: r)) by (clear - F; induction F; cbn; congruence). rewrite E. cbn. lia. }
  destruct (done_repr rc t st _ R Fu) as (t' & es & D & (O & _ & F) & W). unfold Done. rewrite D. cbn [bind]. inversion F as [|te ? ? ? Sm F']; subst.
  rewrite W. now rewrite (same_id te es).
Qed.
End H.
