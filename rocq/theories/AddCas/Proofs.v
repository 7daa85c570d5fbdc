(** What add-to-cas stores is what the directory means. *)
From Coq Require Import String Ascii List Bool Arith Lia Permutation.
From Verif Require Import Hex.Model Path.Model Path.Spec GitTree.Model.
From Verif Require Symlinks.Spec Symlinks.Paths Symlinks.PartialMode GitTree.Spec GitTree.Proofs TreeOps.Spec.
From Verif Require Import AddCas.Model AddCas.Spec.
Import ListNotations.
Local Open Scope string_scope.
Local Open Scope list_scope.
Local Open Scope nat_scope.

(** ** Paths *)
Lemma path_eqb_spec a b : reflect (a = b) (path_eqb a b).
Proof.
  revert b. induction a as [|x a IH]; intros [|y b]; cbn; try (constructor; congruence).
  destruct (String.eqb_spec x y) as [->|N]; cbn; [|constructor; congruence].
  destruct (IH b) as [->|N]; constructor; congruence.
Qed.

Lemma mem_In p l : mem p l = true <-> In p l.
Proof.
  unfold mem. rewrite existsb_exists. split.
  - intros (x & I & E). destruct (path_eqb_spec p x); [subst; exact I|discriminate].
  - intros I. exists p. split; [exact I|]. destruct (path_eqb_spec p p); congruence.
Qed.

Lemma mem_false p l : mem p l = false <-> ~ In p l.
Proof. rewrite <- mem_In. destruct (mem p l); split; congruence. Qed.

Lemma find_emplace p q v k :
  find_known q (emplace p v k) = match find_known q k with
                                 | Some w => Some w
                                 | None => if path_eqb p q then Some v else None
                                 end.
Proof.
  unfold emplace. destruct (find_known p k) as [w|] eqn:E; cbn.
  - destruct (find_known q k) eqn:F; [reflexivity|]. destruct (path_eqb_spec p q); congruence.
  - destruct (path_eqb_spec p q) as [->|N]; [now rewrite E|]. destruct (find_known q k); reflexivity.
Qed.

Lemma at_app fs a b : at_path fs (a ++ b) = match at_path fs a with Some e => at_path e b | None => None end.
Proof.
  revert fs. induction a as [|c a IH]; intros fs; [reflexivity|]. cbn. destruct fs; try reflexivity.
  destruct (entry_of c entries); [apply IH|reflexivity].
Qed.

Lemma at_snoc fs d f : at_path fs (d ++ [f]) =
  match at_path fs d with Some (Dir es) => entry_of f es | _ => None end.
Proof. rewrite at_app. destruct (at_path fs d) as [[]|]; try reflexivity. cbn. now destruct (entry_of f entries). Qed.

Lemma entry_of_In f es e : entry_of f es = Some e -> In (f, e) es.
Proof.
  induction es as [|[g x] es IH]; cbn; [discriminate|]. destruct (String.eqb_spec g f) as [->|N]; intros E.
  - left. congruence.
  - right. auto.
Qed.

Lemma In_entry_of f es e : NoDup (map fst es) -> In (f, e) es -> entry_of f es = Some e.
Proof.
  induction es as [|[g x] es IH]; cbn; [tauto|]. intros ND [E|I].
  - injection E as -> ->. now rewrite String.eqb_refl.
  - inversion ND; subst. destruct (String.eqb_spec g f) as [->|N]; [|auto].
    exfalso. apply H1. change f with (fst (f, e)). now apply in_map.
Qed.

Lemma proper_at fs p e : proper fs -> at_path fs p = Some e -> proper e /\ Forall plain p.
Proof.
  revert fs. induction p as [|c p IH]; intros fs P E; [injection E as <-; split; [exact P|constructor]|].
  cbn in E. destruct fs; try discriminate. destruct (entry_of c entries) eqn:F; [|discriminate].
  apply entry_of_In in F. inversion P as [| | |es ND PL PR]; subst.
  destruct (IH _ (PR _ _ F) E) as [A B]. split; [exact A|]. constructor; [apply (PL _ _ F)|exact B].
Qed.

(** A path whose object exists does not go through links; there the operating system finds that object. *)
Lemma at_prefix fs a b e : at_path fs (a ++ b) = Some e -> b <> [] -> exists es, at_path fs a = Some (Dir es).
Proof. rewrite at_app. intros E N. destruct (at_path fs a) as [[]|], b; cbn in E; try congruence; eauto. Qed.

Lemma os_sound fs l : forall cur cs e, Forall plain cs ->
  (forall a b c, cur ++ cs = a ++ b -> b <> [] -> at_path fs a <> Some (Lnk c)) ->
  os l fs cur cs = Some e -> at_path fs (cur ++ cs) = Some e.
Proof.
  induction l as [|l IH]; intros cur cs e P N E; [discriminate|].
  destruct cs as [|c cs]; cbn [os] in E; [now rewrite app_nil_r|].
  inversion P as [|c0 cs0 (P1 & P2 & P3 & P4) P']; subst.
  destruct (at_path fs cur) as [[| | |es]|] eqn:A; try discriminate.
  destruct (String.eqb_spec c ""); [congruence|]. destruct (String.eqb_spec c "."); [congruence|].
  destruct (String.eqb_spec c ".."); [congruence|]. cbn [orb] in E.
  replace (cur ++ c :: cs) with ((cur ++ [c]) ++ cs) in * by now rewrite <- app_assoc.
  assert (Ac : at_path fs (cur ++ [c]) = entry_of c es) by now rewrite at_snoc, A.
  destruct (entry_of c es) as [[| t | |es']|] eqn:F; try discriminate;
    try (apply IH; [exact P'|exact N|exact E]).
  destruct cs as [|c' cs]; [injection E as <-; now rewrite app_nil_r|].
  exfalso. apply (N (cur ++ [c]) (c' :: cs) t); [reflexivity|discriminate|exact Ac].
Qed.

Lemma os_complete fs : forall cs cur e l, Forall plain cs -> at_path fs (cur ++ cs) = Some e -> List.length cs < l ->
  os l fs cur cs = Some e.
Proof.
  induction cs as [|c cs IH]; intros cur e l P E L; (destruct l as [|l]; [cbn in L; lia|]); cbn [os].
  - now rewrite app_nil_r in E.
  - inversion P as [|c0 cs0 (P1 & P2 & P3 & P4) P']; subst.
    assert (L' : List.length cs < l) by (cbn in L; lia).
    destruct (at_prefix fs cur (c :: cs) e E) as [es A]; [discriminate|]. rewrite A.
    destruct (String.eqb_spec c ""); [congruence|]. destruct (String.eqb_spec c "."); [congruence|].
    destruct (String.eqb_spec c ".."); [congruence|]. cbn [orb].
    replace (cur ++ c :: cs) with ((cur ++ [c]) ++ cs) in E by now rewrite <- app_assoc.
    assert (Ac : at_path fs (cur ++ [c]) = entry_of c es) by now rewrite at_snoc, A.
    pose proof E as E0. rewrite at_app, Ac in E0. destruct (entry_of c es) as [[| t | |es']|] eqn:F; try discriminate;
      try (apply IH; assumption).
    destruct cs; [exact E0|discriminate].
Qed.

Lemma steps_fold cs cur : fold_left norm_step cs cur = steps cur cs.
Proof.
  revert cur. induction cs as [|c cs IH]; intros cur; [reflexivity|]. cbn [fold_left steps]. rewrite IH.
  unfold norm_step. destruct (String.eqb c "" || String.eqb c "."); [reflexivity|].
  destruct (String.eqb c ".."); reflexivity.
Qed.

Lemma steps_go root cs : forall r u, Symlinks.Spec.go r cs = Some u -> steps (root ++ r) cs = root ++ u.
Proof.
  induction cs as [|c cs IH]; intros r u E; cbn in E |- *; [congruence|].
  destruct (String.eqb c "" || String.eqb c "."); [now apply IH|]. destruct (String.eqb c "..").
  - destruct r as [|x r]; [discriminate|]. rewrite removelast_app by discriminate. now apply IH.
  - rewrite <- app_assoc. now apply IH.
Qed.

Lemma mismatch_prefix root p : mismatch (root ++ p) root = (p, []).
Proof.
  induction root as [|x root IH]; cbn; [now destruct p|]. now rewrite String.eqb_refl.
Qed.

Lemma rel_to_inside root p : rel_to root (root ++ p) = Symlinks.Paths.path_str p.
Proof. unfold rel_to. rewrite mismatch_prefix. cbn. now destruct p. Qed.

(** ** Storing *)
Section Store.
  Context (H : string -> string).

  Definition grows (st st' : state) : Prop :=
    (forall i n, nth_error (inodes st) i = Some n -> exists n', nth_error (inodes st') i = Some n' /\
       i_data n' = i_data n /\ i_exec n' = i_exec n) /\
    (forall k i, cas_lookup k (cas st) = Some i -> cas_lookup k (cas st') = Some i).

  Lemma grows_refl st : grows st st.
  Proof. split; [intros i n E; exists n; auto|auto]. Qed.

  Lemma grows_trans a b c : grows a b -> grows b c -> grows a c.
  Proof.
    intros [A1 A2] [B1 B2]. split; [|auto]. intros i n E. destruct (A1 _ _ E) as (n1 & E1 & D1 & X1).
    destruct (B1 _ _ E1) as (n2 & E2 & D2 & X2). exists n2. repeat split; congruence.
  Qed.

  Lemma cas_lookup_In k c i : cas_lookup k c = Some i -> In (k, i) c.
  Proof.
    induction c as [|[[t id] j] c IH]; cbn; [discriminate|]. destruct k as [t' id']. cbn.
    destruct (otype_eqb t t') eqn:T; cbn; [|intros E; right; auto].
    destruct (String.eqb_spec id id') as [->|N]; [|intros E; right; auto].
    intros E. left. destruct t, t'; try discriminate T; congruence.
  Qed.

  Lemma cas_lookup_cons_same k i c : cas_lookup k ((k, i) :: c) = Some i.
  Proof. destruct k as [t id]. cbn. rewrite String.eqb_refl. now destruct t. Qed.

  Lemma cas_lookup_cons k k' i c j : cas_lookup k c = Some j -> cas_lookup k' c = None ->
    cas_lookup k ((k', i) :: c) = Some j.
  Proof.
    intros E N. destruct k as [t id], k' as [t' id']. cbn [cas_lookup fst snd].
    destruct (otype_eqb t' t) eqn:T; cbn [andb]; [|exact E].
    destruct (String.eqb_spec id' id) as [->|_]; [|exact E]. exfalso.
    assert (t' = t) as -> by (destruct t', t; try discriminate T; reflexivity). congruence.
  Qed.

  Lemma has_object_mono st st' t d : grows st st' -> has_object H st t d -> has_object H st' t d.
  Proof.
    intros [A B] (i & n & E & N & D). destruct (A _ _ N) as (n' & N' & D' & _).
    exists i, n'. rewrite D'. auto.
  Qed.

  Fixpoint has_all_mono st st' (G : grows st st') m {struct m} : has_all H st m -> has_all H st' m.
  Proof.
    destruct m as [x d|c|es]; cbn [has_all].
    - now apply has_object_mono.
    - now apply has_object_mono.
    - intros [A B]. split; [now apply (has_object_mono st)|]. clear A. induction es as [|[x c] es IH]; [exact B|].
      destruct B as [B1 B2]. split; [now apply (has_all_mono st)|auto].
  Qed.

  Lemma nth_set {A} i (x : A) l : forall j, nth_error (set_nth i x l) j =
    if Nat.eqb j i then match nth_error l i with Some _ => Some x | None => None end else nth_error l j.
  Proof.
    revert l. induction i as [|i IH]; intros [|y l] [|j]; cbn; try reflexivity; [|apply IH].
    now destruct (Nat.eqb j i).
  Qed.

  Lemma store_bytes_spec t b st st' id : sane H st -> store_bytes H t b st = (st', id) ->
    grows st st' /\ sane H st' /\ id = id_text H t b /\ has_object H st' t b.
  Proof.
    unfold store_bytes. change (object_id H t b) with (id_text H t b). intros S E.
    destruct (cas_lookup (t, id_text H t b) (cas st)) as [i|] eqn:L; injection E as <- <-.
    - split; [apply grows_refl|]. split; [exact S|]. split; [reflexivity|].
      destruct (S _ _ _ (cas_lookup_In _ _ _ L)) as (n & N & D). exists i, n. split; [exact L|]. split; [exact N|].
      destruct (string_dec (i_data n) b); [left|right]; auto.
    - assert (G : grows st (mkSt (inodes st ++ [mkIno (IsExecutableObject t) false true b])
                    ((t, id_text H t b, List.length (inodes st)) :: cas st))).
      { split; cbn [inodes cas].
        - intros i n E. exists n. rewrite nth_error_app1; [auto|]. apply nth_error_Some. congruence.
        - intros k i E. now apply cas_lookup_cons. }
      assert (X : nth_error (inodes st ++ [mkIno (IsExecutableObject t) false true b]) (List.length (inodes st)) =
                  Some (mkIno (IsExecutableObject t) false true b)).
      { rewrite nth_error_app2, Nat.sub_diag by lia. reflexivity. }
      split; [exact G|]. split; [|split; [reflexivity|]].
      + intros t' id' i [E|I]; cbn [inodes].
        * injection E as <- <- <-. rewrite X. eexists. split; reflexivity.
        * destruct (S _ _ _ I) as (n & N & D). exists n. split; [|exact D].
          rewrite nth_error_app1; [exact N|]. apply nth_error_Some. congruence.
      + exists (List.length (inodes st)), (mkIno (IsExecutableObject t) false true b). cbn [inodes cas].
        split; [apply cas_lookup_cons_same|]. split; [exact X|left; reflexivity].
  Qed.

  Lemma store_link_spec same t i n st st' r : sane H st -> nth_error (inodes st) i = Some n ->
    t = (if i_exec n then Executable else File) -> store_link H same t i st = (st', r) ->
    grows st st' /\ sane H st' /\
    (forall id, r = Some id -> id = id_text H t (i_data n) /\ has_object H st' t (i_data n)) /\
    (same = true -> r <> None).
  Proof.
    unfold store_link. intros S N T. rewrite N. change (object_id H t (i_data n)) with (id_text H t (i_data n)).
    destruct (cas_lookup (t, id_text H t (i_data n)) (cas st)) as [j|] eqn:L.
    - intros E. injection E as <- <-. split; [apply grows_refl|]. split; [exact S|]. split; [|discriminate].
      intros id E. injection E as <-. split; [reflexivity|].
      destruct (S _ _ _ (cas_lookup_In _ _ _ L)) as (m & M & D). exists j, m. split; [exact L|]. split; [exact M|].
      destruct (string_dec (i_data m) (i_data n)); [left|right]; auto.
    - set (n' := mkIno (IsExecutableObject t) false true (i_data n)).
      assert (X : i_exec n' = i_exec n) by (subst t; cbn; destruct (i_exec n); reflexivity).
      assert (K : forall j m, nth_error (inodes st) j = Some m -> exists m', nth_error (set_nth i n' (inodes st)) j = Some m' /\
                    i_data m' = i_data m /\ i_exec m' = i_exec m).
      { intros j m M. rewrite nth_set. destruct (Nat.eqb_spec j i) as [->|NE].
        - rewrite N. exists n'. rewrite N in M. injection M as <-. auto.
        - exists m. auto. }
      destruct same; intros E; injection E as <- <-.
      + assert (G : grows st (mkSt (set_nth i n' (inodes st)) ((t, id_text H t (i_data n), i) :: cas st))).
        { split; cbn [inodes cas]; [exact K|]. intros k j E. now apply cas_lookup_cons. }
        assert (Y : nth_error (set_nth i n' (inodes st)) i = Some n') by (rewrite nth_set, Nat.eqb_refl, N; reflexivity).
        split; [exact G|]. split; [|split; [|discriminate]].
        * intros t' id' j [E|I]; cbn [inodes].
          -- injection E as <- <- <-. exists n'. split; [exact Y|reflexivity].
          -- destruct (S _ _ _ I) as (m & M & D). destruct (K _ _ M) as (m' & M' & D' & _). exists m'. rewrite D'. auto.
        * intros id E. injection E as <-. split; [reflexivity|]. exists i, n'. cbn [inodes cas].
          split; [apply cas_lookup_cons_same|]. split; [exact Y|left; reflexivity].
      + split; [split; cbn [inodes cas]; [exact K|auto]|]. split; [|split; discriminate].
        intros t' id' j I. cbn [inodes cas] in *. destruct (S _ _ _ I) as (m & M & D).
        destruct (K _ _ M) as (m' & M' & D' & _). exists m'. rewrite D'. auto.
  Qed.
End Store.

(** ** The text of a tree *)
Definition singles (H : string -> string) (ms : list (string * item)) : tree_entries :=
  map (fun p => match p with (x, c) => (git_id H c, [(x, item_type c)]) end) ms.

Lemma items_singles H ms : GitTree.Spec.items (singles H ms) =
  map (fun p => (fst p, (item_type (snd p), git_id H (snd p)))) ms.
Proof.
  unfold GitTree.Spec.items, singles. induction ms as [|[x c] ms IH]; [reflexivity|]. cbn. now f_equal.
Qed.

Lemma git_id_length H m : TreeOps.Spec.raw_ids H -> String.length (git_id H m) = 20.
Proof. intros R. destruct m; cbn; apply R. Qed.

Lemma valid_singles H ms : TreeOps.Spec.raw_ids H -> NoDup (map fst ms) ->
  (forall x c, In (x, c) ms -> GitTree.Spec.valid_name x) -> GitTree.Spec.valid_items (GitTree.Spec.items (singles H ms)).
Proof.
  intros R ND V. rewrite items_singles. split.
  - rewrite map_map. exact ND.
  - apply Forall_forall. intros i I. apply in_map_iff in I. destruct I as ((x & c) & <- & I). split; cbn.
    + exact (V _ _ I).
    + now apply git_id_length.
Qed.

Lemma content_singles H ms acc : TreeOps.Spec.raw_ids H -> NoDup (map fst ms) ->
  (forall x c, In (x, c) ms -> GitTree.Spec.valid_name x) ->
  Permutation (GitTree.Spec.items acc) (GitTree.Spec.items (singles H ms)) ->
  tree_content acc = dir_text H ms.
Proof.
  intros R ND V P. pose proof (valid_singles H ms R ND V) as VS.
  assert (VA : GitTree.Spec.valid_items (GitTree.Spec.items acc)).
  { destruct VS as [V1 V2]. split.
    - apply (Permutation_NoDup (l := map fst (GitTree.Spec.items (singles H ms)))); [|exact V1].
      apply Permutation_map, Permutation_sym, P.
    - exact (Permutation_Forall (Permutation_sym P) V2). }
  apply (GitTree.Proofs.tree_content_order acc (singles H ms) VA VS).
  intros i. split; apply Permutation_in; [exact P|apply Permutation_sym, P].
Qed.
