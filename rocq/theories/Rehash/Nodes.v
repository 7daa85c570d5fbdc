(** Hashes determine files and directories, if there are no collisions. *)
From Coq Require Import String Ascii List Bool NArith Arith Lia Sorted Permutation.
From Verif Require Import Common.Strs Hex.Model Hex.Proofs Describe.Model Executor.Wire Rehash.Directory Rehash.DirectoryProofs.
From Verif Require Import GitTree.Model GitTree.Spec GitTree.Proofs GitTree.Ids TreeOps.Spec TreeOps.Proofs Expr.OpsProofs Rehash.Model Rehash.Spec.
Import ListNotations.
Local Open Scope string_scope.
Local Open Scope list_scope.

Section Ind.
Variable P : fnode -> Prop.
Hypothesis Pf : forall x d, P (FFile x d).
Hypothesis Pl : forall t, P (FLink t).
Hypothesis Pd : forall es, Forall (fun p => P (snd p)) es -> P (FDir es).
Fixpoint fnode_ind' (n : fnode) : P n :=
  match n with
  | FFile x d => Pf x d
  | FLink t => Pl t
  | FDir es => Pd es ((fix go es : Forall (fun p => P (snd p)) es :=
      match es with [] => Forall_nil _ | p :: r => Forall_cons p (fnode_ind' (snd p)) (go r) end) es)
  end.
End Ind.

(** What the objects depend on: they do not tell links and kinds of files apart. *)
Definition core (n : fnode) : list (string * fnode) + string :=
  match n with FDir es => inl es | FFile _ d => inr d | FLink d => inr d end.
Lemma core_type u v : core u = core v -> ftype u = ftype v -> u = v.
Proof. destruct u as [[]| |], v as [[]| |]; cbn; intros C T; try discriminate; congruence. Qed.
Lemma core_dir u v : core u = core v -> is_dir u = is_dir v.
Proof. destruct u, v; cbn; congruence. Qed.

Section H.
Variable H : string -> string.
Variable H2 : string -> string.
Variable utf8 : string -> bool.
Notation git_data := (git_data H).
Notation git_node := (git_node H).
Notation git_hash := (git_hash H).
Notation comp_data := (comp_data H2).
Notation comp_hash := (comp_hash H2).

Lemma core_git u v : core u = core v -> git_data u = git_data v /\ git_objects H u = git_objects H v.
Proof. destruct u, v; cbn; intros E; try discriminate; injection E as ->; auto. Qed.
Lemma core_comp u v : core u = core v -> comp_data u = comp_data v /\ comp_objects H2 u = comp_objects H2 v.
Proof. destruct u, v; cbn; intros E; try discriminate; injection E as ->; auto. Qed.

Lemma named_dir es : named (FDir es) <-> sorted_keys es /\ forall x c, In (x, c) es -> valid_name x /\ named c.
Proof.
  cbn [named]. rewrite (fold_conj (fun p => match p with (x, c) => valid_name x /\ named c end)), Forall_forall. split; intros [? G]; split; auto.
  - intros x c. apply (G (x, c)).
  - intros [x c]. apply G.
Qed.
Lemma expressible_dir es : expressible H2 utf8 (FDir es) <->
  (strlen (comp_data (FDir es)) < 2 ^ 31)%N /\ forall x c, In (x, c) es -> utf8 x = true /\ expressible H2 utf8 c.
Proof.
  cbn [expressible]. rewrite (fold_conj (fun p => match p with (x, c) => utf8 x = true /\ expressible H2 utf8 c end)), Forall_forall. split; intros [? G]; split; auto.
  - intros x c. apply (G (x, c)).
  - intros [x c]. apply G.
Qed.
Lemma parts_dir es m : In m (parts (FDir es)) <-> m = FDir es \/ exists x c, In (x, c) es /\ In m (parts c).
Proof.
  cbn [parts In]. rewrite in_concat. split.
  - intros [E|(l & L & I)]; [now left|]. apply in_map_iff in L as ([x c] & <- & J). eauto.
  - intros [->|(x & c & J & I)]; [now left|]. right. exists (parts c). split; [|exact I]. apply in_map_iff. exists (x, c). auto.
Qed.

(** ** Git objects *)
Definition node_entries (es : list (string * fnode)) : list (string * node) := map (fun p => match p with (x, c) => (x, git_node c) end) es.
Lemma in_node_entries es x n : In (x, n) (node_entries es) <-> exists c, In (x, c) es /\ n = git_node c.
Proof.
  unfold node_entries. rewrite in_map_iff. split.
  - intros ([y c] & E & I). injection E as -> <-. eauto.
  - intros (c & I & ->). exists (x, c). auto.
Qed.
Lemma ntype_git n : ntype (git_node n) = ftype n.
Proof. now destruct n as [[]| |]. Qed.
Lemma git_hash_text n : git_hash n = ToHexString (H (object_text (is_dir n) (git_data n))).
Proof. now destruct n. Qed.
Lemma git_digest n : d_hash (nat_digest H (is_dir n) (git_data n)) = git_hash n.
Proof. now destruct n. Qed.

Hypothesis HL : forall s, String.length (H s) = 20.

Lemma git_wf n : named n -> wf (git_node n).
Proof.
  induction n as [x d|t|es IH] using fnode_ind'; intros N.
  - cbn. split; [now destruct x|apply HL].
  - cbn. split; [discriminate|apply HL].
  - change (git_node (FDir es)) with (Dir (node_entries es)). apply wf_dir. apply named_dir in N as [S N]. split.
    + apply (sorted_map (fun _ c => git_node c)). exact S.
    + intros x n I. apply in_node_entries in I as (c & I & ->). destruct (N _ _ I) as [V W]. split; [exact V|].
      rewrite Forall_forall in IH. exact (IH _ I W).
Qed.

Variable U : fnode -> Prop.
Hypothesis UC : closed U.
Hypothesis UN : forall n, U n -> named n.
Variable source : objects.

Lemma same_entries (es es' : list (string * fnode)) : sorted_keys es -> sorted_keys es' ->
  (forall p, In p es <-> In p es') -> es = es'.
Proof.
  intros S S' E. apply sorted_ext; auto. intros k.
  destruct (alookup k es) as [v|] eqn:A.
  - apply alookup_In in A. apply E in A. symmetry. now apply sorted_alookup_In.
  - destruct (alookup k es') as [v|] eqn:B; [|reflexivity]. apply alookup_In in B. apply E in B. apply (sorted_alookup_In _ _ _ S) in B. congruence.
Qed.

Lemma object_text_inj k d k' d' : object_text k d = object_text k' d' -> k = k' /\ d = d'.
Proof.
  unfold object_text, tree_text, blob_text. destruct k, k'; intros E; try discriminate; split; auto.
  - now apply (tag_inj "tree ").
  - now apply (tag_inj "blob ").
Qed.

Section Native.
Hypothesis NC : collision_free H (git_texts H U source).

Lemma native_same_text u k d : U u -> (exists v, U v /\ k = is_dir v /\ d = git_data v) \/ In (k, d) source ->
  ToHexString (H (object_text k d)) = git_hash u -> k = is_dir u /\ d = git_data u.
Proof.
  intros Uu O E. rewrite git_hash_text in E. apply hex_encode_injective in E. apply NC in E.
  - now apply object_text_inj in E.
  - destruct O as [(v & V & -> & ->)|I]; [left; eauto|right; eauto].
  - left. eauto.
Qed.

Lemma native_same u : forall v, U u -> U v -> git_hash u = git_hash v -> core u = core v.
Proof.
  induction u as [x d|t|es IH] using fnode_ind'; intros v Uu Uv E.
  1, 2: assert (D := E); rewrite (git_hash_text v) in D; symmetry in D; apply (native_same_text) in D as [D1 D2]; eauto;
    destruct v; try discriminate; cbn in *; congruence.
  assert (D := E). rewrite (git_hash_text v) in D. symmetry in D. apply native_same_text in D as [D1 D2]; eauto.
  destruct v as [|t'|es']; try discriminate. cbn [core]. f_equal. cbn [Spec.git_data] in D2.
  change (content H (node_entries es') = content H (node_entries es)) in D2.
  pose proof (git_wf _ (UN _ Uu)) as Wu. pose proof (git_wf _ (UN _ Uv)) as Wv.
  change (wf (Dir (node_entries es))) in Wu. change (wf (Dir (node_entries es'))) in Wv.
  pose proof (ditems_valid H HL _ Wu) as Vu. pose proof (ditems_valid H HL _ Wv) as Vv.
  rewrite !content_groups in D2.
  assert (It : forall i, In i (ditems H (node_entries es')) <-> In i (ditems H (node_entries es))).
  { rewrite <- !items_groups. apply content_injective; rewrite ?items_groups; assumption. }
  rewrite Forall_forall in IH.
  pose proof (UN _ Uu) as Nu. pose proof (UN _ Uv) as Nv. apply named_dir in Nu as [Su _]. apply named_dir in Nv as [Sv _].
  assert (P : forall a x c, a = es \/ a = es' -> In (x, c) a -> In (x, (ftype c, nid H (git_node c))) (ditems H (node_entries a))).
  { intros a x c _ I. apply in_ditems. exists (git_node c). split; [apply in_node_entries; eauto|]. now rewrite ntype_git. }
  assert (Q : forall a x t i, In (x, (t, i)) (ditems H (node_entries a)) -> exists c, In (x, c) a /\ t = ftype c /\ i = nid H (git_node c)).
  { intros a x t i I. apply in_ditems in I as (n & I & -> & ->). apply in_node_entries in I as (c & I & ->). exists c. now rewrite ntype_git. }
  assert (F : forall x c c', In (x, c) es -> In (x, c') es' -> ftype c = ftype c' -> nid H (git_node c) = nid H (git_node c') -> c = c').
  { intros x c c' I I' T N. apply core_type; [|exact T]. apply (IH _ I); [exact (UC _ _ _ Uu I)|exact (UC _ _ _ Uv I')|]. unfold Rehash.Spec.git_hash. cbn [snd]. f_equal. exact N. }
  apply same_entries; auto. intros [x c]. split; intros I.
  - pose proof (P es x c (or_introl eq_refl) I) as J. apply It, Q in J as (c' & J & T & N). rewrite (F x c c'); auto.
  - pose proof (P es' x c (or_intror eq_refl) I) as J. apply It, Q in J as (c' & J & T & N). rewrite <- (F x c' c); auto.
Qed.

(** What the source storage answers. *)
Lemma native_read u t data : U u -> holds H H2 false source t (git_hash u) data -> IsTreeObject t = is_dir u /\ data = git_data u.
Proof.
  intros Uu [I E]. unfold nat_digest in E. cbn [d_hash] in E. apply native_same_text; auto. rewrite <- E. now destruct (IsTreeObject t).
Qed.
End Native.

(** ** [Directory] messages *)
Definition file_nodes (es : list (string * fnode)) : list (string * (bool * digest)) :=
  flat_map (fun p => match p with (x, c) => match c with FFile e _ => [(x, (e, comp_digest H2 (comp_data c)))] | _ => [] end end) es.
Definition dir_nodes (es : list (string * fnode)) : list (string * digest) :=
  flat_map (fun p => match p with (x, c) => match c with FDir _ => [(x, comp_digest H2 (comp_data c))] | _ => [] end end) es.
Definition link_nodes (es : list (string * fnode)) : list (string * string) :=
  flat_map (fun p => match p with (x, c) => match c with FLink t => [(x, t)] | _ => [] end end) es.
Definition message (es : list (string * fnode)) : directory := mkDirectory (file_nodes es) (dir_nodes es) (link_nodes es).
Lemma comp_data_dir es : comp_data (FDir es) = directory_text (message es).
Proof. reflexivity. Qed.

Lemma in_files es x e d : In (x, (e, d)) (file_nodes es) <-> exists c, In (x, FFile e c) es /\ d = comp_digest H2 c.
Proof.
  unfold file_nodes. rewrite in_flat_map. split.
  - intros ([y [e' c| |]] & I & J); cbn in J; try contradiction. destruct J as [J|[]]. injection J as -> -> <-. eauto.
  - intros (c & I & ->). exists (x, FFile e c). split; [exact I|now left].
Qed.
Lemma in_dirs es x d : In (x, d) (dir_nodes es) <-> exists c, In (x, FDir c) es /\ d = comp_digest H2 (comp_data (FDir c)).
Proof.
  unfold dir_nodes. rewrite in_flat_map. split.
  - intros ([y [e' c| |c]] & I & J); try contradiction. destruct J as [J|[]]. injection J as -> <-. eauto.
  - intros (c & I & ->). exists (x, FDir c). split; [exact I|now left].
Qed.
Lemma in_links es x t : In (x, t) (link_nodes es) <-> In (x, FLink t) es.
Proof.
  unfold link_nodes. rewrite in_flat_map. split.
  - intros ([y [e' c| |c]] & I & J); try contradiction. destruct J as [J|[]]. injection J as -> <-. eauto.
  - intros I. exists (x, FLink t). split; [exact I|now left].
Qed.

Hypothesis HX : hex_digests H2 utf8.

Lemma expressible_size n : expressible H2 utf8 n -> (strlen (comp_data n) < big)%N.
Proof.
  destruct n as [x d|t|es]; cbn [expressible Spec.comp_data].
  - intros E. exact E.
  - intros [E _]. exact E.
  - intros [E _]. now apply small_big.
Qed.
Lemma good_comp n : expressible H2 utf8 n -> good_digest utf8 (comp_digest H2 (comp_data n)).
Proof. intros E. split; [reflexivity|]. split; [apply HX|]. now apply expressible_size. Qed.

Lemma good_message es : expressible H2 utf8 (FDir es) -> good_directory utf8 (message es).
Proof.
  intros E. apply expressible_dir in E as [S E]. unfold good_directory, message. cbn [dm_files dm_dirs dm_links]. repeat split.
  - apply Forall_forall. intros [x [e d]] I. apply in_files in I as (c & I & ->). destruct (E _ _ I). split; [assumption|].
    now apply (good_comp (FFile e c)).
  - apply Forall_forall. intros [x d] I. apply in_dirs in I as (c & I & ->). destruct (E _ _ I). split; [assumption|]. now apply good_comp.
  - apply Forall_forall. intros [x t] I. apply in_links in I. destruct (E _ _ I) as [? [_ ?]]. split; assumption.
  - exact S.
Qed.

Section Compatible.
Hypothesis NC2 : collision_free H2 (comp_texts H2 U source).
Hypothesis UE : forall n, U n -> expressible H2 utf8 n.
(** No file or target of a link reads like one of the directories. *)
Hypothesis UD : forall u v, U u -> U v -> comp_data u = comp_data v -> is_dir u = is_dir v.

Lemma comp_same u : forall v, U u -> U v -> comp_hash u = comp_hash v -> core u = core v.
Proof.
  induction u as [x d|t|es IH] using fnode_ind'; intros v Uu Uv E; apply NC2 in E; try (left; eauto; fail); assert (D := UD _ _ Uu Uv E).
  1, 2: destruct v; try discriminate; cbn in *; congruence.
  destruct v as [|t'|es']; try discriminate. cbn [core]. f_equal. rewrite !comp_data_dir in E.
  apply (f_equal (ParseDirectory utf8)) in E. rewrite !(parse_directory_ok utf8) in E by (apply good_message; auto). injection E as EF ED EL.
  rewrite Forall_forall in IH.
  pose proof (UN _ Uu) as Nu. pose proof (UN _ Uv) as Nv. apply named_dir in Nu as [Su _]. apply named_dir in Nv as [Sv _].
  assert (S : forall x c c', In (x, c) es -> In (x, c') es' -> ftype c = ftype c' -> comp_digest H2 (comp_data c) = comp_digest H2 (comp_data c') -> c = c').
  { intros x c c' I I' T N. apply core_type; [|exact T]. apply (IH _ I); [exact (UC _ _ _ Uu I)|exact (UC _ _ _ Uv I')|]. now injection N. }
  apply same_entries; auto. intros [x [e c|t|c]]; split; intros I.
  - assert (J : In (x, (e, comp_digest H2 c)) (file_nodes es)) by (apply in_files; eauto). rewrite EF in J. apply in_files in J as (c' & J & N).
    rewrite (S x (FFile e c) (FFile e c')); auto.
  - assert (J : In (x, (e, comp_digest H2 c)) (file_nodes es')) by (apply in_files; eauto). rewrite <- EF in J. apply in_files in J as (c' & J & N).
    rewrite <- (S x (FFile e c') (FFile e c)); auto.
  - apply in_links. rewrite <- EL. now apply in_links.
  - apply in_links. rewrite EL. now apply in_links.
  - assert (J : In (x, comp_digest H2 (comp_data (FDir c))) (dir_nodes es)) by (apply in_dirs; eauto). rewrite ED in J. apply in_dirs in J as (c' & J & N).
    rewrite (S x (FDir c) (FDir c')); auto.
  - assert (J : In (x, comp_digest H2 (comp_data (FDir c))) (dir_nodes es')) by (apply in_dirs; eauto). rewrite <- ED in J. apply in_dirs in J as (c' & J & N).
    rewrite <- (S x (FDir c') (FDir c)); auto.
Qed.

Lemma comp_read u t data : U u -> holds H H2 true source t (comp_hash u) data -> data = comp_data u.
Proof. intros Uu [[k I] E]. apply NC2 in E; auto; [right; eauto|left; eauto]. Qed.
End Compatible.
End H.
