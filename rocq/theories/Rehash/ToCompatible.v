(** Converting git trees to [Directory] messages. *)
From Coq Require Import String Ascii List Bool NArith Arith Lia Sorted Permutation.
From Verif Require Import Common.Strs Hex.Model Hex.Proofs Describe.Model Executor.Wire Rehash.Directory Rehash.DirectoryProofs.
From Verif Require Import GitTree.Model GitTree.Spec GitTree.Proofs GitTree.Ids TreeOps.Spec TreeOps.Proofs Expr.OpsProofs.
From Verif Require Import Rehash.Model Rehash.Spec Rehash.Nodes Rehash.Frame.
Import ListNotations.
Local Open Scope string_scope.
Local Open Scope list_scope.

(** ** Sorting *)
Lemma insert_perm {V} (p : string * V) l : Permutation (insert_named p l) (p :: l).
Proof.
  induction l as [|q r IH]; cbn; [reflexivity|]. destruct (str_ltb (fst q) (fst p)); [|reflexivity].
  rewrite IH. apply perm_swap.
Qed.
Lemma sort_perm {V} (l : list (string * V)) : Permutation (sort_named l) l.
Proof. unfold sort_named. induction l as [|p l IH]; cbn; [reflexivity|]. rewrite insert_perm. now constructor. Qed.

Lemma insert_sorted {V} (p : string * V) l : sorted_keys l -> ~ In (fst p) (map fst l) -> sorted_keys (insert_named p l).
Proof.
  unfold sorted_keys. induction 1 as [|q r S IH F]; intros N; cbn [insert_named].
  - constructor; constructor.
  - destruct (str_ltb (fst q) (fst p)) eqn:E.
    + constructor; [apply IH; intros I; apply N; now right|]. apply Forall_forall. intros x X.
      apply (Permutation_in _ (insert_perm p r)) in X as [<-|X]; [now apply str_ltb_lt|]. rewrite Forall_forall in F. now apply F.
    + assert (L : str_lt (fst p) (fst q)).
      { destruct (str_trichotomy (fst p) (fst q)) as [[?|?]|G]; auto.
        - exfalso. apply N. left. auto.
        - apply str_ltb_lt in G. congruence. }
      constructor; [now constructor|]. constructor; [exact L|]. rewrite Forall_forall in F |- *. intros x X. eapply str_lt_trans; [exact L|now apply F].
Qed.
Lemma sort_sorted {V} (l : list (string * V)) : NoDup (map fst l) -> sorted_keys (sort_named l).
Proof.
  unfold sort_named. induction l as [|p l IH]; intros N; cbn; [constructor|]. inversion N as [|? ? N1 N2]; subst.
  apply insert_sorted; [now apply IH|]. intros I. apply N1. eapply Permutation_in; [|exact I]. apply Permutation_map, sort_perm.
Qed.
Lemma sort_is {V} (l l' : list (string * V)) : Permutation l l' -> sorted_keys l' -> sort_named l = l'.
Proof.
  intros P S. assert (N : NoDup (map fst l)).
  { eapply Permutation_NoDup; [apply Permutation_map, Permutation_sym, P|]. change (NoDup (keys l')). now apply sorted_NoDup. }
  assert (Q : Permutation (sort_named l) l') by (eapply perm_trans; [apply sort_perm|exact P]).
  apply sort_sorted in N. apply sorted_ext; auto. intros k. destruct (alookup k l') as [v|] eqn:A.
  - apply alookup_In in A. apply sorted_alookup_In; auto. eapply Permutation_in; [apply Permutation_sym, Q|exact A].
  - destruct (alookup k (sort_named l)) as [v|] eqn:B; [|reflexivity]. apply alookup_In in B.
    apply (Permutation_in _ Q) in B. apply (sorted_alookup_In _ _ _ S) in B. congruence.
Qed.

Lemma sorted_flat {A B} (f : string * A -> list (string * B)) l : (forall p q, In q (f p) -> fst q = fst p) ->
  (forall p, f p = [] \/ exists q, f p = [q]) -> sorted_keys l -> sorted_keys (flat_map f l).
Proof.
  intros K O. unfold sorted_keys. induction 1 as [|p l S IH F]; cbn [flat_map]; [constructor|].
  destruct (O p) as [->|[q E]]; [exact IH|]. rewrite E. cbn. constructor; [exact IH|].
  apply Forall_forall. intros r R. apply in_flat_map in R as (p' & I & R). unfold key_lt. rewrite (K _ _ R).
  rewrite (K p q) by (rewrite E; now left). rewrite Forall_forall in F. now apply F.
Qed.

Lemma flat_perm {A B} (f : A -> list B) l l' : Permutation l l' -> Permutation (flat_map f l) (flat_map f l').
Proof.
  induction 1 as [|x l l' _ IH|x y l|l1 l2 l3 _ IH1 _ IH2]; cbn; auto.
  - now apply Permutation_app_head.
  - rewrite !app_assoc. apply Permutation_app_tail, Permutation_app_comm.
  - eapply perm_trans; eauto.
Qed.

Section H.
Variable H : string -> string.
Variable H2 : string -> string.
Variable utf8 : string -> bool.
Variable ord : list (string * entry) -> list (string * entry).
Variable source : objects.
Variable faulty : bool.
Variable U : fnode -> Prop.
Variable typed strict : Prop.

Hypothesis HL : forall s, String.length (H s) = 20.
Hypothesis OP : forall l, Permutation (ord l) l.
Hypothesis UC : closed U.
Hypothesis UN : forall n, U n -> named n.
Hypothesis NC : collision_free H (git_texts H U source).
Hypothesis one_type : typed -> forall u v, U u -> U v -> git_hash H u = git_hash H v -> ftype u = ftype v.
Hypothesis strict_ok : strict -> faulty = false.
Hypothesis strict_source : strict -> forall u, U u -> In (is_dir u, git_data H u) source.
Hypothesis strict_small : strict -> forall u, U u -> is_dir u = true -> (strlen (comp_data H2 u) < 2 ^ 31)%N.

Notation td := (fun u => comp_digest H2 (comp_data H2 u)).
Notation sh := (git_hash H).
Notation tc := (comp_objects H2).
Notation ok := (ok H H2 false source faulty U sh td tc typed strict).
Notation fin := (fin strict).
Notation right := (right U sh td tc typed).

Lemma native_same_target u v : U u -> U v -> sh u = sh v -> td u = td v /\ tc u = tc v /\ (typed -> ftype u = ftype v).
Proof.
  intros Uu Uv E. pose proof (native_same H HL U UC UN source NC u v Uu Uv E) as C. apply (core_comp H2) in C as [D C]. rewrite D, C.
  split; [reflexivity|]. split; [reflexivity|]. intros t. now apply one_type.
Qed.
Notation right_node := (right_node U sh td tc typed native_same_target).

Lemma native_readable : strict -> forall u, U u -> exists data, holds H H2 false source (ftype u) (sh u) data.
Proof.
  intros S u Uu. exists (git_data H u). unfold holds. rewrite <- dir_type. split; [now apply strict_source|apply git_digest].
Qed.
Lemma lax : faulty = true -> ~ strict.
Proof. intros F S. apply strict_ok in S. congruence. Qed.

Lemma git_hash_ok c : named c -> create_digest GitSHA1 (ToHexString (nid H (git_node H c))) 0 (IsTreeObject (ftype c)) = Some (mkDigest (git_hash H c) (IsTreeObject (ftype c)) 0).
Proof.
  intros N. unfold create_digest. cbn [IsTreeAllowed]. rewrite andb_true_l.
  pose proof (hex_len (nid H (git_node H c)) (nid_length H HL _ (git_wf H HL c N))) as V.
  unfold TreeOps.Model.digest_ok in V. apply andb_true_iff in V as [V1 V2]. apply Nat.eqb_eq in V1.
  unfold valid_input. rewrite V1, V2. cbn. destruct (ftype c); reflexivity.
Qed.

Definition entry_of (p : string * fnode) : string * entry := (nid H (git_node H (snd p)), (fst p, ftype (snd p))).

Definition below (E : objects) (cs : list (string * fnode)) : Prop := forall x c, In (x, c) cs -> incl (tc c) E.
Lemma below_mono E E' cs : incl E E' -> below E cs -> below E' cs.
Proof. intros L B x c I y J. apply L. exact (B x c I y J). Qed.
Lemma below_cons E x c cs : incl (tc c) E -> below E cs -> below E ((x, c) :: cs).
Proof. intros C B y d [I|I]; [injection I as <- <-; exact C|now apply (B y)]. Qed.

Lemma entries_ok fuel rec : (forall u E, U u -> is_dir u = true -> (strict -> depth u <= fuel) -> ok (fin (converted td tc u)) (rec (sh u)) E) ->
  forall cs f s l, (forall x c, In (x, c) cs -> U c) -> (strict -> forall x c, In (x, c) cs -> depth c <= fuel) -> forall E,
  ok (fin (fun E a => a = (f ++ file_nodes H2 cs, s ++ dir_nodes H2 cs, l ++ link_nodes cs) /\ below E cs))
     (dir_entries H2 rec (map entry_of cs) (f, s, l)) E.
Proof.
  intros R. induction cs as [|[x c] cs IH]; intros f s l UU DD E.
  { cbn [map dir_entries Frame.ok Frame.fin]. cbn. rewrite !app_nil_r. split; [reflexivity|]. intros ? ? []. }
  assert (Uc : U c) by (eapply UU; now left).
  assert (IH' : forall f s l E, ok (fin (fun E a => a = (f ++ file_nodes H2 cs, s ++ dir_nodes H2 cs, l ++ link_nodes cs) /\ below E cs))
     (dir_entries H2 rec (map entry_of cs) (f, s, l)) E).
  { intros. apply IH; [intros y d I; eapply UU; right; exact I|]. intros S y d I. eapply DD; [exact S|right; exact I]. }
  clear IH.
  (* adding a node and going on *)
  assert (Next : forall a E, (let '(f', s', l') := a in f' = f ++ file_nodes H2 [(x, c)] /\ s' = s ++ dir_nodes H2 [(x, c)] /\ l' = l ++ link_nodes [(x, c)]) ->
     incl (tc c) E ->
     ok (fin (fun E a => a = (f ++ file_nodes H2 ((x, c) :: cs), s ++ dir_nodes H2 ((x, c) :: cs), l ++ link_nodes ((x, c) :: cs)) /\ below E ((x, c) :: cs)))
       (dir_entries H2 rec (map entry_of cs) a) E).
  { intros [[f' s'] l'] E1 (-> & -> & ->) C.
    eapply ok_grow; [apply IH'|]. intros E2 o L2. destruct o as [a| | |]; cbn [Frame.fin]; auto. intros [-> B]. split.
    - rewrite <- !app_assoc. unfold file_nodes, dir_nodes, link_nodes. now rewrite <- !flat_map_app.
    - apply below_cons; [|exact B]. eapply incl_tran; eauto. }
  assert (Lax : forall E, faulty = true -> ok (fin (fun E a => a = (f ++ file_nodes H2 ((x, c) :: cs), s ++ dir_nodes H2 ((x, c) :: cs), l ++ link_nodes ((x, c) :: cs)) /\ below E ((x, c) :: cs)))
     (Ret Failed) E) by (intros; cbn; now apply lax).
  cbn [map dir_entries]. unfold entry_of at 1. cbn [fst snd]. rewrite git_hash_ok by auto. cbn [or_fail d_hash].
  cbn [Frame.ok]. intros E1 L1. split; [now apply Lax|].
  (* blobs that are read *)
  assert (Blob : forall a E data, is_dir c = false -> holds H H2 false source (ftype c) (sh c) data -> In (false, data) E ->
     (comp_data H2 c = data -> let '(f', s', l') := a in f' = f ++ file_nodes H2 [(x, c)] /\ s' = s ++ dir_nodes H2 [(x, c)] /\ l' = l ++ link_nodes [(x, c)]) ->
     ok (fin (fun E a => a = (f ++ file_nodes H2 ((x, c) :: cs), s ++ dir_nodes H2 ((x, c) :: cs), l ++ link_nodes ((x, c) :: cs)) /\ below E ((x, c) :: cs)))
       (Remember (sh c) (comp_digest H2 data, ftype c) (fun ok' => if_ok ok' (dir_entries H2 rec (map entry_of cs) a))) E).
  { intros a E2 data D Hd I A. destruct (native_read H H2 U source NC c _ data Uc Hd) as [_ Ed].
    assert (Ec : comp_data H2 c = data) by (subst data; now destruct c).
    assert (Tc : tc c = [(false, data)]) by (rewrite <- Ec; now destruct c).
    assert (Rt : forall E3, incl E2 E3 -> right E3 (sh c) (comp_digest H2 data, ftype c)).
    { intros E3 L3. apply right_node; auto; cbn [fst]; [now rewrite Ec|]. rewrite Tc. intros y [<-|[]]. now apply L3. }
    cbn [Frame.ok]. split; [apply Rt, incl_refl|]. intros E3 L3. split; [cbn [if_ok]; now apply Lax|]. cbn [if_ok]. apply Next; [now apply A|].
    rewrite Tc. intros y [<-|[]]. now apply L3. }
  assert (Rd : strict -> exists data, holds H H2 false source (ftype c) (sh c) data) by (intros S; now apply native_readable).
  destruct c as [e d|t|es].
  - (* files *)
    assert (RD : forall E, ok (fin (fun E a => a = (f ++ file_nodes H2 ((x, FFile e d) :: cs), s ++ dir_nodes H2 ((x, FFile e d) :: cs), l ++ link_nodes ((x, FFile e d) :: cs)) /\ below E ((x, FFile e d) :: cs)))
      (Read (ftype (FFile e d)) (sh (FFile e d)) (fun y => or_fail y (fun data =>
         Store false data (fun ok => if_ok ok (
         Remember (sh (FFile e d)) (comp_digest H2 data, ftype (FFile e d)) (fun ok' => if_ok ok' (
         dir_entries H2 rec (map entry_of cs) (add_file (f, s, l) x (IsExecutableObject (ftype (FFile e d))) (comp_digest H2 data))))))))) E).
    { intros E2. cbn [Frame.ok]. split; [exact Rd|]. intros E3 L3. split; [cbn [or_fail]; now apply Lax|]. intros data Hd. cbn [or_fail Frame.ok].
      intros E4 L4. split; [cbn [if_ok]; now apply Lax|]. intros I. cbn [if_ok]. apply Blob; auto. intros Ec. cbn [add_file].
      rewrite <- Ec. cbn. rewrite !app_nil_r. destruct e; auto. }
    assert (FD : forall E i, right E (sh (FFile e d)) i -> ok (fin (fun E a => a = (f ++ file_nodes H2 ((x, FFile e d) :: cs), s ++ dir_nodes H2 ((x, FFile e d) :: cs), l ++ link_nodes ((x, FFile e d) :: cs)) /\ below E ((x, FFile e d) :: cs)))
      (dir_entries H2 rec (map entry_of cs) (add_file (f, s, l) x (IsExecutableObject (ftype (FFile e d))) (fst i))) E).
    { intros E2 i Ri. destruct (Ri _ Uc eq_refl) as (Ed & Ei & _). apply Next; [|exact Ei]. rewrite Ed. cbn. rewrite !app_nil_r. destruct e; auto. }
    destruct e; (split; [apply RD|intros i Ri; now apply FD]).
  - (* links *)
    assert (RD : forall E, ok (fin (fun E a => a = (f ++ file_nodes H2 ((x, FLink t) :: cs), s ++ dir_nodes H2 ((x, FLink t) :: cs), l ++ link_nodes ((x, FLink t) :: cs)) /\ below E ((x, FLink t) :: cs)))
      (Read Symlink (sh (FLink t)) (fun y => or_fail y (fun target =>
         Store false target (fun ok => if_ok ok (
         Remember (sh (FLink t)) (comp_digest H2 target, Symlink) (fun ok' => if_ok ok' (
         dir_entries H2 rec (map entry_of cs) (add_link (f, s, l) x target)))))))) E).
    { intros E2. cbn [Frame.ok]. split; [exact Rd|]. intros E3 L3. split; [cbn [or_fail]; now apply Lax|]. intros data Hd. cbn [or_fail Frame.ok].
      intros E4 L4. split; [cbn [if_ok]; now apply Lax|]. intros I. cbn [if_ok]. apply (Blob _ _ data); auto. intros Ec. cbn [add_link].
      rewrite <- Ec. cbn. rewrite !app_nil_r. auto. }
    cbn [ftype]. split; [apply RD|intros i Ri; apply RD].
  - (* directories *)
    cbn [ftype]. split.
    + apply ok_bind with (P := converted td tc (FDir es)).
      * apply R; auto. intros S. apply (DD S x). now left.
      * intros E2 d L2 [-> C]. apply Next; [|exact C]. cbn [add_dir]. cbn. rewrite !app_nil_r. auto.
    + intros i Ri. destruct (Ri _ Uc eq_refl) as (Ed & Ei & _). apply Next; [|exact Ei]. rewrite Ed. cbn. rewrite !app_nil_r. auto.
Qed.

Lemma files_sorted es : sorted_keys es -> sorted_keys (file_nodes H2 es).
Proof.
  apply sorted_flat.
  - intros [x [e d| |]] q; cbn; try contradiction. now intros [<-|[]].
  - intros [x [e d| |]]; eauto.
Qed.
Lemma dirs_sorted es : sorted_keys es -> sorted_keys (dir_nodes H2 es).
Proof.
  apply sorted_flat.
  - intros [x [e d| |d]] q I; try contradiction. now destruct I as [<-|[]].
  - intros [x [e d| |]]; eauto.
Qed.
Lemma links_sorted es : sorted_keys es -> sorted_keys (link_nodes es).
Proof.
  apply sorted_flat.
  - intros [x [e d| |d]] q I; try contradiction. now destruct I as [<-|[]].
  - intros [x [e d| |]]; eauto.
Qed.
Lemma create_message cs es : Permutation cs es -> sorted_keys es ->
  CreateDirectory (file_nodes H2 cs) (dir_nodes H2 cs) (link_nodes cs) = message H2 es.
Proof.
  intros P S. unfold CreateDirectory, message. f_equal; apply sort_is; try (apply flat_perm; exact P).
  - now apply files_sorted.
  - now apply dirs_sorted.
  - now apply links_sorted.
Qed.

Lemma flat_items g : flat g = map (fun i : item => (snd (snd i), (fst i, fst (snd i)))) (items g).
Proof.
  unfold flat, items. induction g as [|[raw l] g IH]; [reflexivity|]. cbn [map concat fst snd]. etransitivity; [|symmetry; apply map_app].
  f_equal; [|exact IH]. rewrite map_map. apply map_ext. now intros [n t].
Qed.

Lemma tc_dir es E : In (true, comp_data H2 (FDir es)) E -> below E es -> incl (tc (FDir es)) E.
Proof.
  intros I B y J. unfold comp_objects in J. apply in_map_iff in J as (m & <- & J). apply parts_dir in J as [->|(x & c & K & J)]; [exact I|].
  apply (B x c K). unfold comp_objects. apply in_map_iff. eauto.
Qed.

Lemma depth_dir es fuel : depth (FDir es) <= S fuel -> forall x c, In (x, c) es -> depth c <= fuel.
Proof.
  cbn [depth]. intros L x c I. apply le_S_n in L. induction es as [|[y d] es IH]; [contradiction|]. cbn [fold_right] in L.
  destruct I as [I|I]; [injection I as -> ->; lia|]. apply IH; auto. lia.
Qed.

Theorem to_directory_ok fuel : forall u E, U u -> is_dir u = true -> (strict -> depth u <= fuel) ->
  ok (fin (converted td tc u)) (to_directory H H2 ord fuel (sh u)) E.
Proof.
  induction fuel as [|fuel IH]; intros u E Uu Du Dp.
  { cbn. intros S. specialize (Dp S). destruct u; try discriminate. cbn in Dp. lia. }
  assert (Rd : strict -> exists data, holds H H2 false source (ftype u) (sh u) data) by (intros S; now apply native_readable).
  destruct u as [| |es]; try discriminate.
  assert (Lax : forall E, faulty = true -> ok (fin (converted td tc (FDir es))) (Ret Failed) E) by (intros; cbn; now apply lax).
  cbn [to_directory Frame.ok]. split; [exact Rd|]. intros E1 L1. split; [cbn [or_fail]; now apply Lax|]. intros data Hd. cbn [or_fail].
  destruct (native_read H H2 U source NC _ _ data Uu Hd) as [_ ->].
  pose proof (UN _ Uu) as N. pose proof (git_wf H HL _ N) as W. change (wf (Dir (node_entries H es))) in W. apply named_dir in N as [Sr _].
  destruct (read_dir H HL _ W) as (g & Rg & _ & Pg & _).
  change (ReadTreeData H (fun _ => true) (git_data H (FDir es)) (sh (FDir es)) = Some g) in Rg. rewrite Rg. cbn [or_fail].
  (* the entries are those of the directory, in some order *)
  assert (exists cs, ord (flat g) = map entry_of cs /\ Permutation cs es) as (cs & -> & Pc).
  { assert (Pm : Permutation (ord (flat g)) (map entry_of es)).
    { eapply perm_trans; [apply OP|]. rewrite flat_items. eapply perm_trans; [apply Permutation_map, Pg|].
      unfold ditems, node_entries. rewrite !map_map. apply Permutation_refl'. apply map_ext. intros [x c]. unfold entry_of. cbn [fst snd].
      now rewrite ntype_git. }
    apply Permutation_map_inv in Pm as (cs & -> & Pc). exists cs. split; [reflexivity|now apply Permutation_sym]. }
  eapply ok_bind.
  { apply (entries_ok fuel (to_directory H H2 ord fuel)); auto.
    - intros x c I. eapply UC; [exact Uu|]. eapply Permutation_in; [exact Pc|exact I].
    - intros S x c I. eapply depth_dir; [exact (Dp S)|]. eapply Permutation_in; [exact Pc|exact I]. }
  cbn beta. intros E2 a L2 [-> B]. cbn [app]. rewrite (create_message cs es Pc Sr), <- comp_data_dir.
  unfold SerializeMessage. destruct (strlen (comp_data H2 (FDir es)) <? 2 ^ 31)%N eqn:Sz; cbn [or_fail].
  2: { cbn. intros S. apply N.ltb_ge in Sz. pose proof (strict_small S _ Uu eq_refl). lia. }
  cbn [Frame.ok]. intros E3 L3. split; [cbn [if_ok]; now apply Lax|]. intros I. cbn [if_ok Frame.ok].
  assert (C : incl (tc (FDir es)) E3).
  { apply tc_dir; [exact I|]. intros x c J. apply (below_mono E2 E3 cs L3 B x). eapply Permutation_in; [apply Permutation_sym, Pc|exact J]. }
  split; [apply right_node; auto|]. intros E4 L4. split; [cbn [if_ok]; now apply Lax|]. cbn [if_ok Frame.ok Frame.fin]. split; [reflexivity|].
  eapply incl_tran; eauto.
Qed.

Lemma native_file u data : U u -> is_dir u = false -> holds H H2 false source (ftype u) (sh u) data ->
  target_digest H H2 false data = td u /\ tc u = [(false, data)].
Proof.
  intros Uu D Hd. destruct (native_read H H2 U source NC _ _ data Uu Hd) as [_ ->]. destruct u; try discriminate; split; reflexivity.
Qed.
End H.
