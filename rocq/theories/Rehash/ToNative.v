(** Converting [Directory] messages to git trees. *)
From Coq Require Import String Ascii List Bool NArith Arith Lia Sorted Permutation.
From Verif Require Import Common.Strs Hex.Model Hex.Proofs Describe.Model Executor.Wire Rehash.Directory Rehash.DirectoryProofs.
From Verif Require Import GitTree.Model GitTree.Spec GitTree.Proofs GitTree.Ids TreeOps.Spec TreeOps.Proofs Expr.OpsProofs.
From Verif Require Import Rehash.Model Rehash.Spec Rehash.Nodes Rehash.Frame Rehash.ToCompatible.
Import ListNotations.
Local Open Scope string_scope.
Local Open Scope list_scope.

Definition is_link (n : fnode) : bool := match n with FLink _ => true | _ => false end.
Definition is_file (n : fnode) : bool := match n with FFile _ _ => true | _ => false end.
Definition select (f : fnode -> bool) (es : list (string * fnode)) : list (string * fnode) := filter (fun p => f (snd p)) es.
Lemma in_select f es x c : In (x, c) (select f es) <-> In (x, c) es /\ f c = true.
Proof. unfold select. rewrite filter_In. reflexivity. Qed.
Lemma select_perm es : Permutation es (select is_dir es ++ select is_link es ++ select is_file es).
Proof.
  induction es as [|[x c] es IH]; [constructor|]. destruct c; cbn [select filter snd is_dir is_link is_file app].
  - eapply perm_trans; [apply perm_skip, IH|]. rewrite !app_assoc. apply Permutation_middle.
  - eapply perm_trans; [apply perm_skip, IH|]. apply Permutation_middle.
  - now constructor.
Qed.

Section H.
Variable H : string -> string.
Variable H2 : string -> string.
Variable utf8 : string -> bool.
Variable source : objects.
Variable faulty : bool.
Variable U : fnode -> Prop.
Variable typed strict : Prop.

Hypothesis HL : forall s, String.length (H s) = 20.
Hypothesis HX : hex_digests H2 utf8.
Hypothesis UC : closed U.
Hypothesis UN : forall n, U n -> named n.
Hypothesis UE : forall n, U n -> expressible H2 utf8 n.
Hypothesis UD : forall u v, U u -> U v -> comp_data H2 u = comp_data H2 v -> is_dir u = is_dir v.
Hypothesis NC : collision_free H2 (comp_texts H2 U source).
Hypothesis one_type : typed -> forall u v, U u -> U v -> comp_hash H2 u = comp_hash H2 v -> ftype u = ftype v.
Hypothesis strict_ok : strict -> faulty = false.
Hypothesis strict_source : strict -> forall u, U u -> exists k, In (k, comp_data H2 u) source.

Definition td (u : fnode) : digest := nat_digest H (is_dir u) (git_data H u).
Notation sh := (comp_hash H2).
Notation tc := (git_objects H).
Notation ok := (ok H H2 true source faulty U sh td tc typed strict).
Notation fin := (fin strict).
Notation right := (right U sh td tc typed).

Lemma comp_same_target u v : U u -> U v -> sh u = sh v -> td u = td v /\ tc u = tc v /\ (typed -> ftype u = ftype v).
Proof.
  intros Uu Uv E. pose proof (comp_same H2 utf8 U UC UN source HX NC UE UD u v Uu Uv E) as C. unfold td. rewrite (core_dir _ _ C).
  apply (core_git H) in C as [D C]. rewrite D, C. split; [reflexivity|]. split; [reflexivity|]. intros t. now apply one_type.
Qed.
Notation right_node := (right_node U sh td tc typed comp_same_target).

Lemma comp_readable : strict -> forall u, U u -> exists data, holds H H2 true source (ftype u) (sh u) data.
Proof. intros S u Uu. exists (comp_data H2 u). split; [now apply strict_source|reflexivity]. Qed.
Lemma lax' : faulty = true -> ~ strict.
Proof. intros F S. apply strict_ok in S. congruence. Qed.

Lemma comp_digest_ok data size : create_digest PlainSHA256 (H2 data) size false = Some (mkDigest (H2 data) false size).
Proof. unfold create_digest, valid_input. destruct (HX data) as (L & X & _). rewrite L, X. reflexivity. Qed.
Lemma td_raw c : FromHexString (d_hash (td c)) = Some (nid H (git_node H c)).
Proof. unfold td. rewrite git_digest. apply hex_decode_encode. Qed.

Definition git_item (p : string * fnode) : item := (fst p, (ftype (snd p), nid H (git_node H (snd p)))).
Definition below' (E : objects) (cs : list (string * fnode)) : Prop := forall x c, In (x, c) cs -> incl (tc c) E.
Lemma below_mono' E E' cs : incl E E' -> below' E cs -> below' E' cs.
Proof. intros L B x c I y J. apply L. exact (B x c I y J). Qed.

(** The entries of [cs] were added to [es], and all their objects are stored. *)
Definition added (es : tree_entries) (cs : list (string * fnode)) (E : objects) (es' : tree_entries) : Prop :=
  Permutation (items es') (map git_item cs ++ items es) /\ below' E cs.
Lemma added_cons es x c cs E es' : added (emplace_back (nid H (git_node H c)) (x, ftype c) es) cs E es' -> incl (tc c) E -> added es ((x, c) :: cs) E es'.
Proof.
  intros [P B] C. split.
  - eapply perm_trans; [exact P|]. eapply perm_trans; [apply Permutation_app_head, emplace_back_perm|]. cbn [map app].
    apply Permutation_sym, Permutation_middle.
  - intros y d [I|I]; [injection I as <- <-; exact C|now apply (B y)].
Qed.

(** Adding the entry for a node and going on. *)
Lemma next_ok {D} (loop : list D -> tree_entries -> prog (outcome tree_entries)) ds cs x c es E :
  (forall es E, ok (fin (added es cs)) (loop ds es) E) -> incl (tc c) E ->
  ok (fin (added es ((x, c) :: cs))) (loop ds (emplace_back (nid H (git_node H c)) (x, ftype c) es)) E.
Proof.
  intros L C. eapply ok_grow; [apply L|]. intros E' [a| | |] I; cbn [Frame.fin]; auto. intros A. apply added_cons; [exact A|].
  eapply incl_tran; eauto.
Qed.

Definition dnode (p : string * fnode) : string * digest := (fst p, comp_digest H2 (comp_data H2 (snd p))).
Lemma dirs_ok fuel rec : (forall u E, U u -> is_dir u = true -> (strict -> depth u <= fuel) -> ok (fin (converted td tc u)) (rec (sh u)) E) ->
  forall cs, (forall x c, In (x, c) cs -> U c /\ is_dir c = true) -> (strict -> forall x c, In (x, c) cs -> depth c <= fuel) -> forall es E,
  ok (fin (added es cs)) (tree_dirs rec (map dnode cs) es) E.
Proof.
  intros R. induction cs as [|[x c] cs IH]; intros UU DD es E.
  { cbn. split; [reflexivity|]. intros ? ? []. }
  destruct (UU x c (or_introl eq_refl)) as [Uc Dc].
  assert (IH' : forall es E, ok (fin (added es cs)) (tree_dirs rec (map dnode cs) es) E).
  { apply IH; [intros y d I; apply (UU y); now right|]. intros S y d I. apply (DD S y). now right. }
  assert (T : Tree = ftype c) by (destruct c; try discriminate; reflexivity).
  cbn [map tree_dirs]. unfold dnode at 1. cbn [fst snd comp_digest d_hash d_size]. rewrite comp_digest_ok. cbn [or_fail d_hash].
  change (H2 (comp_data H2 c)) with (sh c).
  assert (Nx : forall E d, d = td c -> incl (tc c) E -> ok (fin (added es ((x, c) :: cs))) (add_entry es d x Tree (tree_dirs rec (map dnode cs))) E).
  { intros E1 d -> C. unfold add_entry. rewrite td_raw. cbn [or_fail]. rewrite T. now apply next_ok. }
  cbn [Frame.ok]. intros E1 L1. split; [intros F; cbn; now apply lax'|]. split.
  - apply ok_bind with (P := converted td tc c).
    + apply R; auto. intros S. apply (DD S x). now left.
    + intros E2 d L2 [-> C]. now apply Nx.
  - intros i Ri. destruct (Ri c Uc eq_refl) as (Ed & Ei & _). now apply Nx.
Qed.

Definition lnode (p : string * fnode) : string * string := (fst p, match snd p with FLink t => t | _ => "" end).
Lemma links_ok cs : (forall x c, In (x, c) cs -> U c /\ is_link c = true) -> forall es E,
  ok (fin (added es cs)) (tree_links H H2 (map lnode cs) es) E.
Proof.
  induction cs as [|[x c] cs IH]; intros UU es E.
  { cbn. split; [reflexivity|]. intros ? ? []. }
  destruct (UU x c (or_introl eq_refl)) as [Uc Dc].
  assert (IH' : forall es E, ok (fin (added es cs)) (tree_links H H2 (map lnode cs) es) E).
  { apply IH. intros y d I. apply (UU y). now right. }
  destruct c as [|t|]; try discriminate. cbn [map tree_links]. unfold lnode at 1. cbn [fst snd].
  change (H2 t) with (sh (FLink t)).
  assert (Nx : forall E, incl (tc (FLink t)) E -> ok (fin (added es ((x, FLink t) :: cs)))
     (tree_links H H2 (map lnode cs) (emplace_back (nid H (git_node H (FLink t))) (x, Symlink) es)) E).
  { intros E1 C. now apply (next_ok (tree_links H H2) _ cs x (FLink t)). }
  cbn [Frame.ok]. intros E1 L1. split; [intros F; cbn; now apply lax'|]. split.
  - cbn [Frame.ok]. intros E2 L2. split; [intros F; cbn; now apply lax'|]. intros I. cbn [if_ok]. unfold add_entry.
    change (nat_digest H false t) with (td (FLink t)). rewrite td_raw. cbn [or_fail Frame.ok].
    assert (C : forall E3, incl E2 E3 -> incl (tc (FLink t)) E3) by (intros E3 L3 y [<-|[]]; now apply L3).
    split; [apply right_node; auto; apply C, incl_refl|]. intros E3 L3. split; [intros F; cbn; now apply lax'|]. cbn [if_ok]. apply Nx. now apply C.
  - intros i Ri. destruct (Ri (FLink t) Uc eq_refl) as (Ed & Ei & _). unfold add_entry. rewrite Ed, td_raw. cbn [or_fail]. now apply Nx.
Qed.

Definition fnode_msg (p : string * fnode) : string * (bool * digest) :=
  (fst p, (match snd p with FFile e _ => e | _ => false end, comp_digest H2 (comp_data H2 (snd p)))).
Lemma files_ok cs : (forall x c, In (x, c) cs -> U c /\ is_file c = true) -> forall es E,
  ok (fin (added es cs)) (tree_files H (map fnode_msg cs) es) E.
Proof.
  induction cs as [|[x c] cs IH]; intros UU es E.
  { cbn. split; [reflexivity|]. intros ? ? []. }
  destruct (UU x c (or_introl eq_refl)) as [Uc Dc].
  assert (IH' : forall es E, ok (fin (added es cs)) (tree_files H (map fnode_msg cs) es) E).
  { apply IH. intros y d I. apply (UU y). now right. }
  destruct c as [e data| |]; try discriminate. cbn [map tree_files]. unfold fnode_msg at 1. cbn [fst snd comp_digest d_hash d_size].
  rewrite comp_digest_ok. cbn [or_fail d_hash]. set (c := FFile e data) in *. change (H2 (comp_data H2 c)) with (sh c).
  change (if e then Executable else File) with (if e then Executable else File).
  assert (T : (if e then Executable else File) = ftype c) by (now destruct e). rewrite T.
  assert (Nx : forall E, incl (tc c) E -> ok (fin (added es ((x, c) :: cs)))
     (tree_files H (map fnode_msg cs) (emplace_back (nid H (git_node H c)) (x, ftype c) es)) E).
  { intros E1 C. now apply (next_ok (tree_files H) _ cs x c). }
  cbn [Frame.ok]. intros E1 L1. split; [intros F; cbn; now apply lax'|]. split.
  - cbn [Frame.ok]. split; [intros S; now apply comp_readable|]. intros E2 L2. split; [intros F; cbn; now apply lax'|]. intros data' Hd.
    apply (comp_read H H2 U source NC c _ data' Uc) in Hd. cbn [comp_data c] in Hd. subst data'. cbn [or_fail Frame.ok].
    intros E3 L3. split; [intros F; cbn; now apply lax'|]. intros I. cbn [if_ok]. unfold add_entry.
    change (nat_digest H false data) with (td c). rewrite td_raw. cbn [or_fail Frame.ok].
    assert (C : forall E4, incl E3 E4 -> incl (tc c) E4) by (intros E4 L4 y [<-|[]]; now apply L4).
    split; [apply right_node; auto; apply C, incl_refl|]. intros E4 L4. split; [intros F; cbn; now apply lax'|]. cbn [if_ok]. apply Nx. now apply C.
  - intros i Ri. destruct (Ri c Uc eq_refl) as (Ed & Ei & _). unfold add_entry. rewrite Ed, td_raw. cbn [or_fail]. now apply Nx.
Qed.

Lemma dir_nodes_select es : dir_nodes H2 es = map dnode (select is_dir es).
Proof. induction es as [|[x [| |]] es IH]; auto. cbn [dir_nodes flat_map app select filter snd is_dir map]. f_equal. exact IH. Qed.
Lemma link_nodes_select es : link_nodes es = map lnode (select is_link es).
Proof. induction es as [|[x [| |]] es IH]; auto. cbn [link_nodes flat_map app select filter snd is_link map]. f_equal. exact IH. Qed.
Lemma file_nodes_select es : file_nodes H2 es = map fnode_msg (select is_file es).
Proof. induction es as [|[x [| |]] es IH]; auto. cbn [file_nodes flat_map app select filter snd is_file map]. f_equal. exact IH. Qed.

Lemma valid_perm l l' : Permutation l l' -> valid_items l -> valid_items l'.
Proof.
  intros P [N F]. split; [eapply Permutation_NoDup; [apply Permutation_map, P|exact N]|].
  rewrite Forall_forall in *. intros i I. apply F. eapply Permutation_in; [apply Permutation_sym, P|exact I].
Qed.
Lemma same_content es g : named (FDir es) -> Permutation (items g) (map git_item es) -> tree_content g = git_data H (FDir es).
Proof.
  intros N P. pose proof (git_wf H HL _ N) as W. change (wf (Dir (node_entries H es))) in W.
  change (tree_content g = content H (node_entries H es)). rewrite content_groups.
  assert (E : ditems H (node_entries H es) = map git_item es).
  { unfold ditems, node_entries. rewrite map_map. apply map_ext. intros [x c]. unfold git_item. cbn [fst snd]. now rewrite ntype_git. }
  pose proof (ditems_valid H HL _ W) as V. rewrite E in V. apply tree_content_order.
  - eapply valid_perm; [apply Permutation_sym, P|exact V].
  - now rewrite items_groups, E.
  - rewrite items_groups, E. intros i. split; apply Permutation_in; [exact P|now apply Permutation_sym].
Qed.

Lemma tc_dir' es E : In (true, git_data H (FDir es)) E -> below' E es -> incl (tc (FDir es)) E.
Proof.
  intros I B y J. unfold git_objects in J. apply in_map_iff in J as (m & <- & J). apply parts_dir in J as [->|(x & c & K & J)]; [exact I|].
  apply (B x c K). unfold git_objects. apply in_map_iff. eauto.
Qed.

Theorem to_git_tree_ok fuel : forall u E, U u -> is_dir u = true -> (strict -> depth u <= fuel) ->
  ok (fin (converted td tc u)) (to_git_tree H H2 utf8 fuel (sh u)) E.
Proof.
  induction fuel as [|fuel IH]; intros u E Uu Du Dp.
  { cbn. intros S. specialize (Dp S). destruct u; try discriminate. cbn in Dp. lia. }
  assert (Rd : strict -> exists data, holds H H2 true source (ftype u) (sh u) data) by (intros S; now apply comp_readable).
  destruct u as [| |es]; try discriminate.
  cbn [to_git_tree Frame.ok]. split; [exact Rd|]. intros E1 L1. split; [intros F; cbn; now apply lax'|]. intros data Hd. cbn [or_fail].
  apply (comp_read H H2 U source NC _ _ data Uu) in Hd. subst data. rewrite comp_data_dir, (parse_directory_ok utf8) by (apply (good_message H2 utf8); auto).
  cbn [message dm_dirs dm_links dm_files]. rewrite dir_nodes_select, link_nodes_select, file_nodes_select.
  assert (UU : forall f x c, In (x, c) (select f es) -> U c /\ f c = true).
  { intros f x c I. apply in_select in I as [I F]. split; [eapply UC; eauto|exact F]. }
  eapply ok_bind.
  { apply (dirs_ok fuel (to_git_tree H H2 utf8 fuel)); [exact IH|apply UU|]. intros S x c I. apply in_select in I as [I _]. eapply depth_dir; [exact (Dp S)|exact I]. }
  cbn beta. intros E2 es1 L2 [P1 B1]. eapply ok_bind; [apply links_ok; apply UU|].
  cbn beta. intros E3 es2 L3 [P2 B2]. eapply ok_bind; [apply files_ok; apply UU|].
  cbn beta. intros E4 es3 L4 [P3 B3].
  assert (P : Permutation (items es3) (map git_item es)).
  { eapply perm_trans; [exact P3|]. eapply perm_trans; [|apply Permutation_map, Permutation_sym, select_perm]. rewrite !map_app.
    eapply perm_trans; [apply Permutation_app_head; eapply perm_trans; [exact P2|apply Permutation_app_head, P1]|]. cbn [items map concat].
    change (items []) with (@nil item). rewrite app_nil_r. rewrite !app_assoc.
    eapply perm_trans; [apply Permutation_app_comm|]. rewrite <- app_assoc. apply Permutation_app_head, Permutation_app_comm. }
  cbn [CreateShallowTree snd]. rewrite (same_content es es3 (UN _ Uu) P).
  cbn [Frame.ok]. intros E5 L5. split; [intros F; cbn; now apply lax'|]. intros I. cbn [Frame.ok].
  assert (C : incl (tc (FDir es)) E5).
  { apply tc_dir'; [exact I|]. intros x c J. apply (Permutation_in _ (select_perm es)) in J. apply in_app_or in J as [J|J]; [|apply in_app_or in J as [J|J]].
    - eapply incl_tran; [apply (B1 x c J)|]. eapply incl_tran; [exact L3|]. eapply incl_tran; [exact L4|exact L5].
    - eapply incl_tran; [apply (B2 x c J)|]. eapply incl_tran; [exact L4|exact L5].
    - eapply incl_tran; [apply (B3 x c J)|exact L5]. }
  split; [apply (right_node E5 (FDir es)); auto|]. intros E6 L6. split; [intros F; cbn; now apply lax'|]. cbn [if_ok Frame.ok Frame.fin]. split; [reflexivity|].
  eapply incl_tran; eauto.
Qed.

Lemma comp_file u data : U u -> is_dir u = false -> holds H H2 true source (ftype u) (sh u) data ->
  target_digest H H2 true data = td u /\ tc u = [(false, data)].
Proof.
  intros Uu D Hd. apply (comp_read H H2 U source NC) in Hd; auto. subst data. destruct u; try discriminate; split; reflexivity.
Qed.
End H.
