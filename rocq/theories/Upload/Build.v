(** From directory trees to tree objects, and their upload. *)
From Coq Require Import String Ascii List Bool NArith ZArith Arith Permutation Lia.
From Verif Require Import Common.Strs Hex.Model Hex.Proofs GitTree.Model GitTree.Spec GitTree.Proofs TreeOps.Spec TreeOps.Proofs
  Path.Model Path.Spec Upload.Model Upload.Spec Upload.Logic Upload.Transfer Upload.Root.
Import ListNotations.
Local Open Scope string_scope.
Local Open Scope list_scope.

Section Ind.
Variable P : dtree -> Prop.
Hypothesis HA : forall a, P (DArt a).
Hypothesis HD : forall ns, Forall (fun p => P (snd p)) ns -> P (DDir ns).
Fixpoint dtree_ind' (t : dtree) : P t :=
  match t with
  | DArt a => HA a
  | DDir ns =>
      HD ns ((fix go (l : list (string * dtree)) : Forall (fun p => P (snd p)) l :=
                match l with
                | [] => Forall_nil _
                | p :: r => Forall_cons _ (match p with (x, c) => dtree_ind' c end : P (snd p)) (go r)
                end) ns)
  end.
End Ind.

Lemma proper_dir es : proper (Dir es) <-> sorted_keys es /\ forall x c, In (x, c) es -> valid_name x /\ proper c.
Proof.
  cbn [proper]. rewrite (fold_conj (fun p => match p with (x, c) => valid_name x /\ proper c end)), Forall_forall. split; intros [? G]; split; auto.
  - intros x c. apply (G (x, c)).
  - intros [x c]. apply G.
Qed.

Lemma proper_view_ext a : forall b, proper a -> proper b -> (forall p, view a p = view b p) -> a = b.
Proof.
  induction a as [t id|es IH] using node_ind'; intros [t' id'|es'] Wa Wb E.
  - specialize (E []). cbn in E. congruence.
  - specialize (E []). discriminate.
  - specialize (E []). discriminate.
  - f_equal. apply proper_dir in Wa as [Sa Wa]. apply proper_dir in Wb as [Sb Wb]. rewrite Forall_forall in IH.
    apply sorted_ext; auto. intros x.
    assert (Ex : forall p, view (Dir es) (x :: p) = view (Dir es') (x :: p)) by auto. cbn [view] in Ex.
    destruct (alookup x es) as [c|] eqn:Ec, (alookup x es') as [d|] eqn:Ed; auto.
    + f_equal. apply alookup_In in Ec. apply alookup_In in Ed. apply (IH _ Ec); [apply (Wa _ _ Ec)|apply (Wb _ _ Ed)|auto].
    + specialize (Ex []). destruct c; discriminate.
    + specialize (Ex []). destruct d; discriminate.
Qed.

(** ** The directory of a directory tree *)

Definition sortk {V} (l : list (string * V)) : list (string * V) := fold_right (fun p m => ainsert (fst p) (snd p) m) [] l.
Lemma sortk_sorted {V} (l : list (string * V)) : sorted_keys (sortk l).
Proof. induction l as [|p l IH]; [constructor|]. now apply ainsert_sorted. Qed.
Lemma sortk_lookup {V} (l : list (string * V)) x : alookup x (sortk l) = alookup x l.
Proof. induction l as [|[k v] l IH]; [reflexivity|]. cbn [sortk fold_right fst snd]. rewrite ainsert_lookup. cbn [alookup]. destruct (String.eqb x k); [reflexivity|exact IH]. Qed.
Lemma NoDup_alookup {V} (l : list (string * V)) x v : NoDup (keys l) -> In (x, v) l -> alookup x l = Some v.
Proof.
  induction l as [|[k w] l IH]; cbn; intros N I; [destruct I|]. inversion N as [|? ? N1 N2]; subst. destruct I as [E|I].
  - injection E as <- <-. now rewrite String.eqb_refl.
  - destruct (String.eqb_spec x k) as [->|]; [|auto]. exfalso. apply N1. unfold keys. change k with (fst (k, v)). now apply in_map.
Qed.
Lemma sortk_In {V} (l : list (string * V)) p : NoDup (keys l) -> (In p (sortk l) <-> In p l).
Proof.
  intros N. destruct p as [x v]. split; intros I.
  - apply alookup_In. rewrite <- sortk_lookup. apply sorted_alookup_In; [apply sortk_sorted|exact I].
  - apply alookup_In. rewrite sortk_lookup. now apply NoDup_alookup.
Qed.

Lemma sortk_out {V} (l : list (string * V)) p : In p (sortk l) -> NoDup (keys l) -> In p l.
Proof. intros A B. now apply (sortk_In l p B). Qed.

Definition unhex (s : string) : string := match FromHexString s with Some r => r | None => "" end.
Fixpoint node_of (t : dtree) : node :=
  match t with
  | DArt (Some (hex, ty)) => Blob ty (unhex hex)
  | DArt None => Blob File ""
  | DDir ns => Dir (sortk (map (fun p => (fst p, node_of (snd p))) ns))
  end.

Definition known_info (a : option TreeOps.Model.info) : Prop :=
  exists t raw, a = Some (ToHexString raw, t) /\ String.length raw = 20.
Inductive known : dtree -> Prop :=
| known_art a : known_info a -> known (DArt a)
| known_dir ns : (forall x t, In (x, t) ns -> known t) -> known (DDir ns).

Lemma alookup_node x ns : alookup x (map (fun p => (fst p, node_of (snd p))) ns) = option_map node_of (alookup x ns).
Proof. induction ns as [|[k v] ns IH]; [reflexivity|]. cbn. destruct (String.eqb x k); [reflexivity|exact IH]. Qed.

Lemma view_node q : forall ns,
  view (node_of (DDir ns)) q =
  match dlook ns q with
  | Some (DO_art (Some (hex, t))) => Some (Content t (unhex hex))
  | Some (DO_art None) => Some (Content File "")
  | Some DO_dir => Some Folder
  | None => None
  end.
Proof.
  induction q as [|x q IH]; intros ns; [reflexivity|]. cbn [node_of view dlook]. rewrite sortk_lookup, alookup_node.
  destruct (alookup x ns) as [[[[hex t]|]|sub]|]; cbn [option_map].
  - destruct q; reflexivity.
  - destruct q; reflexivity.
  - apply IH.
  - reflexivity.
Qed.

Lemma known_dlook q : forall ns a, known (DDir ns) -> dlook ns q = Some (DO_art a) -> known_info a.
Proof.
  induction q as [|x q IH]; intros ns a K E; [discriminate|]. cbn [dlook] in E. inversion K as [|? Kn]; subst.
  destruct (alookup x ns) as [[b|sub]|] eqn:L; [| |discriminate].
  - destruct q; [|discriminate]. injection E as <-. specialize (Kn _ _ (alookup_In _ _ _ L)). now inversion Kn.
  - eapply IH; [|exact E]. exact (Kn _ _ (alookup_In _ _ _ L)).
Qed.
Lemma dlook_known P t : forall ns, t = DDir ns -> dgood P ns -> (forall q a, dlook ns q = Some (DO_art a) -> known_info a) -> known t.
Proof.
  induction t as [a|ns0 IH] using dtree_ind'; intros ns E G K; [discriminate|]. injection E as ->.
  constructor. intros x t Hx. inversion G as [? ND _ Sub]; subst. assert (L := NoDup_alookup _ _ _ ND Hx).
  destruct t as [a|sub].
  - constructor. apply (K [x]). cbn. now rewrite L.
  - rewrite Forall_forall in IH. apply (IH _ Hx sub eq_refl (proj1 (Sub _ _ Hx))). intros q a D. apply (K (x :: q)). cbn. now rewrite L.
Qed.

Lemma keys_node ns : keys (map (fun p => (fst p, node_of (snd p))) ns) = keys ns.
Proof. unfold keys. rewrite map_map. reflexivity. Qed.

Lemma node_proper t : known t -> (forall ns, t = DDir ns -> dgood valid_name ns) -> proper (node_of t).
Proof.
  induction t as [a|ns IH] using dtree_ind'; intros K G.
  - inversion K as [? Ka|]; subst. destruct Ka as (ty & raw & -> & L). cbn. unfold unhex. rewrite hex_decode_encode. exact L.
  - specialize (G ns eq_refl). inversion G as [? ND V Sub]; subst. inversion K as [|? Kn]; subst.
    cbn [node_of]. apply proper_dir. split; [apply sortk_sorted|]. intros x c Hc.
    apply sortk_out in Hc; [|now rewrite keys_node]. apply in_map_iff in Hc. destruct Hc as ([y t] & E & Ht). cbn in E.
    injection E as <- <-. split; [eauto|]. rewrite Forall_forall in IH. apply (IH _ Ht); [eauto|].
    intros sub E. cbn in E. subst t. exact (proj1 (Sub _ _ Ht)).
Qed.

Section H.
Variable H : string -> string.
Hypothesis HL : raw_ids H.

Notation nid := (nid H).
Notation content := (content H).
Notation ditems := (ditems H).

Lemma proper_nid n : proper n -> String.length (nid n) = 20.
Proof. destruct n; [auto|]. intros _. apply HL. Qed.
Lemma proper_items es : proper (Dir es) -> valid_items (ditems es).
Proof.
  intros W. apply proper_dir in W as [S W]. split.
  - unfold TreeOps.Proofs.ditems. rewrite map_map. replace (map _ es) with (keys es); [now apply sorted_NoDup|].
    unfold keys. apply map_ext. now intros [x c].
  - apply Forall_forall. intros i Hi. apply in_map_iff in Hi as ([x c] & <- & Hc). apply W in Hc as [V Wc].
    split; auto. cbn. now apply proper_nid.
Qed.
Lemma content_object es : proper (Dir es) -> git_tree_object (ditems es) (content es).
Proof.
  intros P. rewrite (content_groups H es), <- (items_groups H es). apply tree_content_object.
  rewrite items_groups. now apply proper_items.
Qed.

(** Blob trees of directories. *)
Inductive bt_of : node -> btree -> Prop :=
| bt_of_intro es nodes :
    (forall n, In n nodes -> exists x sub, In (x, Dir sub) es /\ bt_of (Dir sub) n) ->
    (forall x sub, In (x, Dir sub) es -> exists n, In n nodes /\ bt_of (Dir sub) n) ->
    bt_of (Dir es) (BT (mkBlob true false (content es)) nodes).

Lemma bt_digest n bt : bt_of n bt -> b_digest H (bt_blob bt) = (true, nid n).
Proof. intros B. inversion B; subst. reflexivity. Qed.

Variable ord : list child -> list child.
Hypothesis Hord : forall l, Permutation (ord l) l.

Definition citem (c : child) : item :=
  match c with
  | (name, Some (inl bt)) => (name, (Tree, snd (b_digest H (bt_blob bt))))
  | (name, Some (inr i)) => (name, (snd i, unhex (fst i)))
  | (name, None) => (name, (File, ""))
  end.
Definition cnodes (c : child) : list btree := match c with (_, Some (inl bt)) => [bt] | _ => [] end.
Definition cgood (c : child) : Prop :=
  match snd c with Some (inl bt) => True | Some (inr i) => exists raw, fst i = ToHexString raw | None => False end.

Lemma names_citem cs : map fst (map citem cs) = map fst cs.
Proof. induction cs as [|[x [[b|i]|]] r IH]; [reflexivity|..]; cbn in *; now rewrite IH. Qed.

Lemma add_children cs : forall es nodes, Forall cgood cs ->
  exists es', fold_left (add_child H) cs (Some (es, nodes)) = Some (es', nodes ++ concat (map cnodes cs)) /\
    Permutation (items es') (items es ++ map citem cs).
Proof.
  induction cs as [|[name c] cs IH]; intros es nodes F.
  - cbn. rewrite app_nil_r. exists es. split; [reflexivity|]. rewrite app_nil_r. apply Permutation_refl.
  - inversion F as [|? ? Fc F']; subst. unfold cgood in Fc. cbn [snd] in Fc. cbn [fold_left].
    destruct c as [[bt|[hex ty]]|]; [| |destruct Fc].
    + cbn [add_child]. rewrite hex_decode_encode.
      destruct (IH (emplace_back (snd (b_digest H (bt_blob bt))) (name, Tree) es) (nodes ++ [bt]) F') as (es' & E & P).
      exists es'. split.
      * rewrite E. cbn [map concat cnodes]. rewrite <- app_assoc. reflexivity.
      * rewrite P. cbn [map citem]. rewrite emplace_back_perm. cbn [fst snd]. apply Permutation_middle.
    + destruct Fc as [raw Er]. cbn [fst] in Er. subst hex. cbn [add_child fst snd]. rewrite hex_decode_encode.
      destruct (IH (emplace_back raw (name, ty) es) nodes F') as (es' & E & P).
      exists es'. split.
      * rewrite E. reflexivity.
      * rewrite P. cbn [map citem fst snd]. unfold unhex. rewrite hex_decode_encode, emplace_back_perm. cbn [fst snd]. apply Permutation_middle.
Qed.

Lemma add_child_none cs : fold_left (add_child H) cs None = None.
Proof. induction cs as [|[n c] cs IH]; [reflexivity|exact IH]. Qed.
Lemma add_children_bad cs : forall acc, (exists name, In (name, None) cs) -> fold_left (add_child H) cs acc = None.
Proof.
  induction cs as [|[n c] cs IH]; intros acc [name I]; [destruct I|]. cbn [fold_left]. destruct I as [E|I].
  - injection E as <- ->. assert (X : add_child H acc (n, None) = None) by (destruct acc as [[es nodes]|]; reflexivity).
    rewrite X. apply add_child_none.
  - apply IH. eauto.
Qed.

(** ** Conversion succeeds for known artifacts *)
Lemma convert_known t : known t -> (forall ns, t = DDir ns -> dgood valid_name ns) ->
  match t with
  | DArt a => convert H ord t = option_map inr a
  | DDir ns => exists bt, convert H ord t = Some (inl bt) /\ bt_of (node_of t) bt
  end.
Proof.
  induction t as [a|ns IH] using dtree_ind'; intros K G.
  - destruct a; reflexivity.
  - assert (Pr := node_proper _ K G). specialize (G ns eq_refl). inversion G as [? ND V Sub]; subst. inversion K as [|? Kn]; subst.
    rewrite Forall_forall in IH.
    set (cs := map (fun p => (fst p, convert H ord (snd p))) ns).
    assert (Each : forall x t, In (x, t) ns ->
      (exists a, t = DArt (Some a) /\ convert H ord t = Some (inr a) /\ exists raw, fst a = ToHexString raw) \/
      (exists sub bt, t = DDir sub /\ convert H ord t = Some (inl bt) /\ bt_of (node_of t) bt)).
    { intros x t Hx. assert (It := IH _ Hx (Kn _ _ Hx)). cbn [snd] in It.
      assert (Gt : forall sub, t = DDir sub -> dgood valid_name sub) by (intros sub ->; exact (proj1 (Sub _ _ Hx))).
      specialize (It Gt). destruct t as [a|sub].
      - left. specialize (Kn _ _ Hx). inversion Kn as [? Ka|]; subst. destruct Ka as (ty & raw & -> & L).
        exists (ToHexString raw, ty). split; [reflexivity|]. split; [reflexivity|]. exists raw. reflexivity.
      - right. destruct It as (bt & E & B). exists sub, bt. auto. }
    assert (F : Forall cgood (ord cs)).
    { apply Forall_forall. intros c Hc. apply (Permutation_in _ (Hord cs)) in Hc. unfold cs in Hc. apply in_map_iff in Hc.
      destruct Hc as ([x t] & <- & Hx). cbn [fst snd]. unfold cgood. cbn [snd].
      destruct (Each x t Hx) as [(a & -> & E & raw & Er)|(sub & bt & -> & E & B)]; rewrite E; [exists raw; exact Er|exact I]. }
    destruct (add_children (ord cs) [] [] F) as (es' & E & P). change (items []) with (@nil item) in P. cbn [app] in E, P.
    assert (EQ : convert H ord (DDir ns) = match finish H (Some (es', concat (map cnodes (ord cs)))) with Some bt => Some (inl bt) | None => None end)
      by (rewrite <- E; reflexivity).
    rewrite EQ. cbn [finish]. eexists. split; [reflexivity|].
    assert (Same : forall i, In i (items es') <-> In i (ditems (sortk (map (fun p => (fst p, node_of (snd p))) ns)))).
    { intros i. split; intros Hi.
      - apply (Permutation_in _ P) in Hi. apply in_map_iff in Hi. destruct Hi as (c & <- & Hc).
        apply (Permutation_in _ (Hord cs)) in Hc. unfold cs in Hc. apply in_map_iff in Hc.
        destruct Hc as ([x t] & <- & Hx). cbn [fst snd].
        assert (In (x, node_of t) (sortk (map (fun p => (fst p, node_of (snd p))) ns))).
        { apply sortk_In; [now rewrite keys_node|]. change (x, node_of t) with ((fun p : string * dtree => (fst p, node_of (snd p))) (x, t)). now apply in_map. }
        assert (X : citem (x, convert H ord t) = (x, (ntype (node_of t), nid (node_of t)))).
        { destruct (Each x t Hx) as [([hex ty] & -> & E1 & raw & Er)|(sub & bt & -> & E1 & B)]; rewrite E1; cbn [citem fst snd].
          - reflexivity.
          - rewrite (bt_digest _ _ B). reflexivity. }
        rewrite X. unfold TreeOps.Proofs.ditems. apply in_map_iff. exists (x, node_of t). auto.
      - unfold TreeOps.Proofs.ditems in Hi. apply in_map_iff in Hi. destruct Hi as ([x n] & <- & Hn).
        apply sortk_out in Hn; [|now rewrite keys_node]. apply in_map_iff in Hn. destruct Hn as ([y t] & Ey & Hx). cbn in Ey. injection Ey as <- <-.
        apply (Permutation_in _ (Permutation_sym P)). apply in_map_iff. exists (y, convert H ord t). split.
        + destruct (Each y t Hx) as [([hex ty] & -> & E1 & raw & Er)|(sub & bt & -> & E1 & B)]; rewrite E1; cbn [citem fst snd].
          * reflexivity.
          * rewrite (bt_digest _ _ B). reflexivity.
        + apply (Permutation_in _ (Permutation_sym (Hord cs))). unfold cs.
          change (y, convert H ord t) with ((fun p : string * dtree => (fst p, convert H ord (snd p))) (y, t)). now apply in_map. }
    assert (VI := proper_items _ Pr).
    assert (VI' : valid_items (items es')).
    { split.
      - assert (Q := Permutation_map fst P). apply (Permutation_NoDup (Permutation_sym Q)).
        rewrite names_citem. apply (Permutation_NoDup (Permutation_sym (Permutation_map fst (Hord cs)))).
        assert (X : map fst cs = keys ns) by (unfold cs, keys; clear; induction ns as [|p r IHr]; [reflexivity|cbn; now rewrite IHr]).
        rewrite X. exact ND.
      - apply Forall_forall. intros i Hi. apply Same in Hi. exact (proj1 (Forall_forall _ _) (proj2 VI) _ Hi). }
    cbn [node_of]. unfold CreateShallowTree, FromMemory. cbn [snd IsTreeObject IsExecutableObject otype_eqb].
    rewrite (tree_content_order es' (groups H (sortk (map (fun p => (fst p, node_of (snd p))) ns)))).
    2: exact VI'. 2: rewrite items_groups; exact VI. 2: intros i; rewrite items_groups; apply Same.
    rewrite <- content_groups. constructor.
    + intros n Hn. apply in_concat in Hn. destruct Hn as (l & Hl & Hn). apply in_map_iff in Hl. destruct Hl as (c & <- & Hc).
      apply (Permutation_in _ (Hord cs)) in Hc. unfold cs in Hc. apply in_map_iff in Hc. destruct Hc as ([x t] & <- & Hx). cbn [fst snd] in Hn.
      destruct (Each x t Hx) as [(a & -> & E1 & _)|(sub & bt & -> & E1 & B)]; rewrite E1 in Hn; cbn in Hn; [destruct Hn|].
      destruct Hn as [<-|[]]. exists x, (sortk (map (fun p => (fst p, node_of (snd p))) sub)). split; [|exact B].
      apply sortk_In; [now rewrite keys_node|].
      change (x, Dir (sortk (map (fun p => (fst p, node_of (snd p))) sub))) with ((fun p : string * dtree => (fst p, node_of (snd p))) (x, DDir sub)). now apply in_map.
    + intros x sub Hx. apply sortk_out in Hx; [|now rewrite keys_node]. apply in_map_iff in Hx. destruct Hx as ([y t] & Ey & Hy). cbn in Ey. injection Ey as <- Et.
      destruct (Each y t Hy) as [([hex ty] & -> & _)|(sub' & bt & -> & E1 & B)]; [discriminate Et|].
      exists bt. split; [|rewrite <- Et; exact B]. apply in_concat. exists [bt]. split; [|now left].
      apply in_map_iff. exists (y, Some (inl bt)). split; [reflexivity|]. apply (Permutation_in _ (Permutation_sym (Hord cs))). unfold cs.
      apply in_map_iff. exists (y, DDir sub'). cbn [fst snd]. rewrite E1. auto.
Qed.

(** ... and only for them. *)
Lemma convert_unknown t : (forall x, convert H ord t = Some x -> 
   (forall a, t = DArt a -> a <> None)) /\
  (forall ns q, t = DDir ns -> dlook ns q = Some (DO_art None) -> convert H ord t = None).
Proof.
  induction t as [a|ns IH] using dtree_ind'.
  - split; [|discriminate]. intros x E b Eb Nb. injection Eb as ->. subst b. discriminate E.
  - split; [discriminate|]. intros ns0 q E D. injection E as <-. destruct q as [|x q]; [discriminate|]. cbn [dlook] in D.
    destruct (alookup x ns) as [[b|sub]|] eqn:L; [| |discriminate].
    + destruct q; [|discriminate]. injection D as ->. cbn [convert].
      rewrite add_children_bad; [reflexivity|]. exists x. apply (Permutation_in _ (Permutation_sym (Hord _))).
      apply in_map_iff. exists (x, DArt None). split; [reflexivity|]. exact (alookup_In _ _ _ L).
    + rewrite Forall_forall in IH. destruct (IH _ (alookup_In _ _ _ L)) as [_ I2]. cbn [snd] in I2.
      cbn [convert]. rewrite add_children_bad; [reflexivity|]. exists x. apply (Permutation_in _ (Permutation_sym (Hord _))).
      apply in_map_iff. exists (x, DDir sub). cbn [fst snd]. rewrite (I2 sub q eq_refl D). split; [reflexivity|]. exact (alookup_In _ _ _ L).
Qed.

(** ** Input roots *)
Definition input_root (arts : list (string * option TreeOps.Model.info)) : option btree :=
  match FromNamedArtifacts arts with Some ns => FromDirectoryTree H ord ns | None => None end.

Lemma free_iff l : conflict_free l <-> free_pairs (segs_of (map art l)).
Proof.
  unfold conflict_free, free_pairs, segs_of. rewrite map_map. split.
  - intros C i j a b Hi Hj N. rewrite nth_error_map in Hi, Hj.
    destruct (nth_error l i) as [x|] eqn:Ei; [|discriminate]. destruct (nth_error l j) as [y|] eqn:Ej; [|discriminate].
    injection Hi as <-. injection Hj as <-. cbn [fst]. exact (C i j x y Ei Ej N).
  - intros C i j a b Hi Hj N. assert (X := C i j (segments (fst a), snd (art a)) (segments (fst b), snd (art b))).
    rewrite !nth_error_map, Hi, Hj in X. exact (X eq_refl eq_refl N).
Qed.

Lemma good_paths l : Forall good_input l -> Forall (fun p => tidy (fst p) /\ nameable (fst p)) (map art l).
Proof. intros G. apply Forall_map. eapply Forall_impl; [|exact G]. intros i (A & B & _). cbn. auto. Qed.

Lemma input_root_some l bt : Forall good_input l -> input_root (map art l) = Some bt ->
  Forall (fun i => inside (fst i)) l /\ conflict_free l /\ Forall (fun i => snd i <> None) l /\
  exists es, proper (Dir es) /\ bt_of (Dir es) bt /\ root_of l (Dir es).
Proof.
  intros G E. unfold input_root in E. assert (S := FromNamed_spec (map art l) (good_paths l G)).
  destruct (FromNamedArtifacts (map art l)) as [ns|]; [|discriminate]. destruct S as (S1 & S2 & [S3 S3'] & S4).
  unfold FromDirectoryTree in E.
  assert (K : forall q a, dlook ns q = Some (DO_art a) -> known_info a).
  { intros q a D. assert (D' := proj1 (S3 q a) D). unfold segs_of in D'. rewrite map_map in D'. apply in_map_iff in D'. destruct D' as ([p i] & X & Hi).
    injection X as _ X. cbn in X. destruct i as [[t id]|].
    - exists t, id. split; [now symmetry|]. rewrite Forall_forall in G. destruct (G _ Hi) as (_ & _ & L). exact (L t id eq_refl).
    - subst a. destruct (convert_unknown (DDir ns)) as [_ U]. rewrite (U ns q eq_refl D) in E. discriminate. }
  assert (Kn := dlook_known valid_name (DDir ns) ns eq_refl S4 K).
  assert (Gd : forall ns', DDir ns = DDir ns' -> dgood valid_name ns') by (intros ns' X; injection X as <-; exact S4).
  destruct (convert_known (DDir ns) Kn Gd) as (bt' & E' & B). rewrite E' in E. injection E as ->.
  assert (Art : forall q a, In (q, a) (segs_of (map art l)) <-> exists i, In i l /\ q = segments (fst i) /\ a = snd (art i)).
  { intros q a. unfold segs_of. rewrite map_map, in_map_iff. split.
    - intros (i & X & Hi). injection X as <- <-. exists i. auto.
    - intros (i & Hi & -> & ->). exists i. auto. }
  split; [|split; [|split]].
  - apply Forall_forall. intros i Hi. rewrite Forall_forall in S1. apply (S1 (art i)). now apply in_map.
  - now apply free_iff.
  - apply Forall_forall. intros [p i] Hi N. cbn in N. subst i.
    assert (X : dlook ns (segments p) = Some (DO_art None)) by (apply S3, Art; exists (p, None); auto).
    apply K in X. destruct X as (t & raw & X & _). discriminate.
  - exists (sortk (map (fun p => (fst p, node_of (snd p))) ns)).
    change (Dir (sortk (map (fun p => (fst p, node_of (snd p))) ns))) with (node_of (DDir ns)).
    split; [now apply node_proper|]. split; [exact B|]. split.
    + intros q t id. rewrite view_node. split.
      * intros V. destruct (dlook ns q) as [[[[hex t']|]|]|] eqn:D; try discriminate.
        -- injection V as <- <-. apply S3, Art in D. destruct D as ([p i] & Hi & -> & X). cbn in X. destruct i as [[t2 id2]|]; [|discriminate].
           injection X as -> ->. exists p. unfold unhex. rewrite hex_decode_encode. auto.
        -- apply K in D. destruct D as (? & ? & X & _). discriminate.
      * intros (p & Hp & ->). assert (X : dlook ns (segments p) = Some (DO_art (Some (ToHexString id, t)))).
        { apply S3, Art. exists (p, Some (t, id)). auto. }
        rewrite X. unfold unhex. now rewrite hex_decode_encode.
    + intros q. rewrite view_node. split.
      * intros V. assert (D : dlook ns q = Some DO_dir) by (destruct (dlook ns q) as [[[[hex t']|]|]|]; congruence).
        apply S3' in D. destruct D as [D|(p & a & Hp & r & Er & Nr)]; [auto|]. right. apply Art in Hp. destruct Hp as (i & Hi & -> & _).
        exists i, r. auto.
      * intros V. assert (D : dlook ns q = Some DO_dir).
        { apply S3'. destruct V as [V|(i & r & Hi & Er & Nr)]; [auto|]. right. exists (segments (fst i)), (snd (art i)).
          split; [apply Art; exists i; auto|]. exists r. auto. }
        now rewrite D.
Qed.

Lemma input_root_exists l : Forall good_input l ->
  Forall (fun i => inside (fst i)) l -> conflict_free l -> Forall (fun i => snd i <> None) l ->
  exists bt, input_root (map art l) = Some bt.
Proof.
  intros G I C N. unfold input_root. assert (S := FromNamed_spec (map art l) (good_paths l G)).
  destruct (FromNamedArtifacts (map art l)) as [ns|].
  - destruct S as (S1 & S2 & [S3 S3'] & S4).
    assert (K : forall q a, dlook ns q = Some (DO_art a) -> known_info a).
    { intros q a D. apply S3 in D. unfold segs_of in D. rewrite map_map in D. apply in_map_iff in D. destruct D as ([p i] & X & Hi).
      injection X as _ X. cbn in X. rewrite Forall_forall in N. specialize (N _ Hi). cbn in N. destruct i as [[t id]|]; [|congruence].
      exists t, id. split; [now symmetry|]. rewrite Forall_forall in G. destruct (G _ Hi) as (_ & _ & L). exact (L t id eq_refl). }
    assert (Kn := dlook_known valid_name (DDir ns) ns eq_refl S4 K).
    assert (Gd : forall ns', DDir ns = DDir ns' -> dgood valid_name ns') by (intros ns' X; injection X as <-; exact S4).
    destruct (convert_known (DDir ns) Kn Gd) as (bt' & E' & B). unfold FromDirectoryTree. rewrite E'. eauto.
  - exfalso. apply S. split; [|now apply free_iff]. apply Forall_forall. intros p Hp. apply in_map_iff in Hp. destruct Hp as (i & <- & Hi). rewrite Forall_forall in I. exact (I _ Hi).
Qed.

End H.
