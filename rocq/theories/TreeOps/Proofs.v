From Coq Require Import String Ascii List Bool NArith Arith Sorted Permutation Lia.
From Verif Require Import Common.Strs Hex.Model Hex.Spec Hex.Proofs GitTree.Model GitTree.Spec GitTree.Proofs GitTree.Ids TreeOps.Model TreeOps.Spec.
Import ListNotations.
Local Open Scope string_scope.
Local Open Scope list_scope.

(** ** Induction and the recursive predicates *)
Section Ind.
Variable P : node -> Prop.
Hypothesis HB : forall t id, P (Blob t id).
Hypothesis HD : forall es, Forall (fun p => P (snd p)) es -> P (Dir es).
Fixpoint node_ind' (n : node) : P n :=
  match n with
  | Blob t id => HB t id
  | Dir es =>
      HD es ((fix go (l : list (string * node)) : Forall (fun p => P (snd p)) l :=
                match l with
                | [] => Forall_nil _
                | p :: r => Forall_cons _ (match p with (x, c) => node_ind' c end : P (snd p)) (go r)
                end) es)
  end.
End Ind.

Lemma fold_conj {A} (Q : A -> Prop) l : fold_right (fun p P => Q p /\ P) True l <-> Forall Q l.
Proof. induction l; cbn; split; intros; auto; [constructor; tauto|inversion H; tauto]. Qed.

Lemma wf_dir es : wf (Dir es) <-> sorted_keys es /\ forall x c, In (x, c) es -> valid_name x /\ wf c.
Proof.
  cbn [wf]. rewrite (fold_conj (fun p => match p with (x, c) => valid_name x /\ wf c end)), Forall_forall. split; intros [? G]; split; auto.
  - intros x c. apply (G (x, c)).
  - intros [x c]. apply G.
Qed.

Section H.
Variable H : string -> string.
Hypothesis HL : raw_ids H.

Notation nid := (nid H).
Notation content := (content H).
Notation node_info := (node_info H).
Notation stored := (stored H).
Notation uniform := (uniform H).
Notation no_collision := (no_collision H).

Lemma stored_dir st es : stored st (Dir es) <-> In (content es) st /\ forall x c, In (x, c) es -> stored st c.
Proof.
  cbn [Spec.stored]. rewrite (fold_conj (fun p => match p with (x, c) => stored st c end)), Forall_forall. split; intros [? G]; split; auto.
  - intros x c. apply (G (x, c)).
  - intros [x c]. apply G.
Qed.
Lemma uniform_dir es : uniform (Dir es) <->
  (forall x c y d, In (x, c) es -> In (y, d) es -> nid c = nid d -> ntype c = ntype d) /\ forall x c, In (x, c) es -> uniform c.
Proof.
  cbn [Spec.uniform]. rewrite (fold_conj (fun p => match p with (x, c) => uniform c end)), Forall_forall. split; intros [? G]; split; auto.
  - intros x c. apply (G (x, c)).
  - intros [x c]. apply G.
Qed.

Lemma stored_mono n : forall st st', incl st st' -> stored st n -> stored st' n.
Proof.
  induction n as [|es IH] using node_ind'; intros st st' Hi Hs; [exact I|].
  apply stored_dir in Hs as [H1 H2]. apply stored_dir. split; auto. intros x c Hc. rewrite Forall_forall in IH.
  apply (IH _ Hc st); eauto.
Qed.

(** ** Items of a directory *)
Definition groups (es : list (string * node)) : tree_entries :=
  map (fun p => match p with (x, c) => (nid c, [(x, ntype c)]) end) es.
Definition ditems (es : list (string * node)) : list item :=
  map (fun p => match p with (x, c) => (x, (ntype c, nid c)) end) es.

Lemma items_groups es : items (groups es) = ditems es.
Proof. unfold items, groups, ditems. induction es as [|[x c] es IH]; cbn; auto. now rewrite IH. Qed.
Lemma content_groups es : content es = tree_content (groups es).
Proof. reflexivity. Qed.

Lemma nid_length n : wf n -> String.length (nid n) = 20.
Proof. destruct n; [now intros [_ ?]|]. intros _. apply HL. Qed.

Lemma ditems_valid es : wf (Dir es) -> valid_items (ditems es).
Proof.
  intros W. apply wf_dir in W as [S W]. split.
  - unfold ditems. rewrite map_map. replace (map _ es) with (keys es); [now apply sorted_NoDup|].
    unfold keys. apply map_ext. now intros [x c].
  - apply Forall_forall. intros i Hi. apply in_map_iff in Hi as ([x c] & <- & Hc). apply W in Hc as [V Wc].
    split; auto. cbn. now apply nid_length.
Qed.

Lemma hex_len s : String.length s = 20 -> digest_ok (ToHexString s) = true.
Proof.
  intros L. destruct (hex_encode_shape s) as [E F]. unfold digest_ok. rewrite E, L. cbn [Nat.mul Nat.add Nat.eqb andb].
  apply IsHexString_iff. eapply Forall_impl; [|exact F]. intros c (n & Hn). exists n. now left.
Qed.

(** ** Reading a stored directory *)
Definition infos (es : list (string * node)) : TreeEntries := map (fun p => match p with (x, c) => (x, node_info c) end) es.

Lemma alookup_map {A B} (f : string -> A -> B) l x :
  alookup x (map (fun p => match p with (y, c) => (y, f y c) end) l) = option_map (f x) (alookup x l).
Proof.
  induction l as [|[y c] l IH]; cbn; auto. destruct (String.eqb_spec x y) as [->|]; auto.
Qed.
Lemma sorted_map {A B} (f : string -> A -> B) l :
  sorted_keys l -> sorted_keys (map (fun p => match p with (y, c) => (y, f y c) end) l).
Proof.
  unfold sorted_keys. induction 1 as [|[x c] l S IH F]; cbn; constructor; auto.
  apply Forall_forall. intros q Hq. apply in_map_iff in Hq as ([y d] & <- & Hd). rewrite Forall_forall in F. exact (F _ Hd).
Qed.

Definition put_item (m : TreeEntries) (i : item) : TreeEntries := aemplace (fst i) (ToHexString (snd (snd i)), fst (snd i)) m.

Lemma put_item_lookup l : forall m, sorted_keys m -> NoDup (map fst l) -> (forall i, In i l -> alookup (fst i) m = None) ->
  sorted_keys (fold_left put_item l m) /\
  forall k v, alookup k (fold_left put_item l m) = Some v <->
    alookup k m = Some v \/ exists t raw, In (k, (t, raw)) l /\ v = (ToHexString raw, t).
Proof.
  induction l as [|[n [t raw]] l IH]; intros m Sm Nd Hm; cbn [fold_left].
  - split; auto. intros. split; auto. intros [?|(? & ? & [] & _)]; auto.
  - inversion Nd as [|? ? Hn Nd']; subst. destruct (IH (put_item m (n, (t, raw)))) as [I1 I2]; auto.
    + now apply aemplace_sorted.
    + intros i Hi. unfold put_item. cbn [fst snd]. rewrite aemplace_lookup by auto. rewrite Hm by now right.
      destruct (String.eqb_spec (fst i) n) as [E|]; auto. exfalso. apply Hn. cbn. rewrite <- E. now apply in_map.
    + split; auto. intros k v. rewrite I2. unfold put_item. cbn [fst snd]. rewrite aemplace_lookup by auto. split.
      * intros [E|(t' & raw' & Hi & ->)].
        -- destruct (alookup k m) eqn:Em; [now left|]. destruct (String.eqb_spec k n) as [->|]; [|discriminate].
           injection E as <-. right. exists t, raw. split; auto. now left.
        -- right. exists t', raw'. split; auto. now right.
      * intros [E|(t' & raw' & [Hi|Hi] & ->)].
        -- left. now rewrite E.
        -- injection Hi as -> -> ->. left. specialize (Hm (k, (t', raw')) (or_introl eq_refl)). cbn in Hm. rewrite Hm, String.eqb_refl. reflexivity.
        -- right. eauto.
Qed.

Lemma add_groups g : (forall r l, In (r, l) g -> l <> []) ->
  (forall r l, In (r, l) g -> String.length r = 20) ->
  (forall r l e e', In (r, l) g -> In e l -> In e' l -> snd e = snd e') -> forall m,
  fold_left add_group g (Some m) = Some (fold_left put_item (items g) m).
Proof.
  induction g as [|[r l] g IH]; intros Hn Hl Hu m; auto. cbn [fold_left]. unfold add_group at 2. cbn [fst snd].
  destruct l as [|e l]; [exfalso; apply (Hn r []); [now left|auto]|].
  rewrite hex_len by (eapply Hl; now left).
  rewrite IH; [|intros; eapply Hn; right; eauto|intros; eapply Hl; right; eauto|intros ? ? ? ? Hg; eapply Hu; right; eauto].
  f_equal. unfold items at 2. change (concat (map ?f ((r, e :: l) :: g))) with (f (r, e :: l) ++ items g). cbn beta. cbn [fst snd]. rewrite fold_left_app. f_equal.
  assert (Hall : forall e', In e' (e :: l) -> snd e' = snd e) by (intros; eapply Hu; [now left| |now left]; auto).
  revert Hall. generalize (e :: l). clear. intros k. revert m. induction k as [|e' k IH]; intros m Hall; cbn [fold_left map]; auto.
  rewrite IH by (intros; apply Hall; now right). f_equal. unfold put_item. cbn [fst snd]. now rewrite (Hall e' (or_introl eq_refl)).
Qed.

Lemma emplace_back_nonempty raw e es : (forall r l, In (r, l) es -> l <> []) -> forall r l, In (r, l) (emplace_back raw e es) -> l <> [].
Proof.
  induction es as [|[r0 l0] es IH]; intros Hn r l; cbn [emplace_back].
  - intros [E|[]]. injection E as <- <-. discriminate.
  - destruct (String.eqb r0 raw).
    + intros [E|Hi]; [injection E as <- <-; now destruct l0|]. eapply Hn; right; eauto.
    + intros [E|Hi]; [injection E as <- <-; eapply Hn; now left|]. eapply IH; eauto. intros. eapply Hn; right; eauto.
Qed.

Lemma walk_nonempty ign l : forall acc g, (forall r l, In (r, l) acc -> l <> []) ->
  fold_left (walk_entry ign) l (Some acc) = Some g -> forall r l, In (r, l) g -> l <> [].
Proof.
  assert (Nn : forall l, fold_left (walk_entry ign) l None = None) by (induction l0; auto).
  induction l as [|[[m n] i] l IH]; intros acc g Ha; cbn [fold_left].
  - intros [= <-]. auto.
  - unfold walk_entry at 2. destruct (ToRawString i) as [raw|]; [|now rewrite Nn].
    destruct (ign && _)%bool; [now apply IH|]. destruct (GitFileModeToObjectType _); [|now rewrite Nn].
    apply IH. now apply emplace_back_nonempty.
Qed.

Lemma read_data_nonempty check d id g : ReadTreeData H check d id = Some g -> forall r l, In (r, l) g -> l <> [].
Proof.
  unfold ReadTreeData. destruct (FromHexString id); [|discriminate]. destruct (String.eqb _ _); [|discriminate].
  unfold ReadTree, ReadDirectTree. destruct (parse_tree _ d) as [l|]; [|discriminate].
  destruct (fold_left _ l _) as [es|] eqn:E; [|discriminate]. intros Hg.
  assert (Hes : g = es) by (destruct (symlink_ids es); [congruence|]; destruct (check _); congruence). subst g.
  eapply walk_nonempty; [|exact E]. intros ? ? [].
Qed.

Lemma read_dir es : wf (Dir es) -> exists g, ReadTreeData H (fun _ => true) (content es) (ToHexString (nid (Dir es))) = Some g /\
  NoDup (map fst g) /\ Permutation (items g) (ditems es) /\ (forall r l, In (r, l) g -> l <> []).
Proof.
  intros W. destruct (read_tree_data H (fun _ => true) (groups es)) as (g & E & N & P); auto.
  { rewrite items_groups. now apply ditems_valid. }
  rewrite items_groups in P. exists g. repeat split; auto. eapply read_data_nonempty. exact E.
Qed.

Lemma in_items g r l e : In (r, l) g -> In e l -> In (fst e, (snd e, r)) (items g).
Proof. intros Hg He. unfold items. apply in_concat. eexists. split; [apply in_map, Hg|]. cbn. apply in_map_iff. eauto. Qed.

Lemma in_ditems es x t raw : In (x, (t, raw)) (ditems es) <-> exists c, In (x, c) es /\ t = ntype c /\ raw = nid c.
Proof.
  unfold ditems. rewrite in_map_iff. split.
  - intros ([y c] & E & Hc). injection E as -> <- <-. eauto.
  - intros (c & Hc & -> & ->). exists (x, c). auto.
Qed.

Lemma parse_dir es : wf (Dir es) -> uniform (Dir es) -> ParseGitTree H (content es) (ToHexString (nid (Dir es))) = Some (infos es).
Proof.
  intros W U. unfold ParseGitTree. destruct (read_dir es W) as (g & -> & Nd & P & Ne).
  destruct (ditems_valid es W) as [Vn Vi]. rewrite Forall_forall in Vi. apply uniform_dir in U as [U _].
  assert (Hin : forall i, In i (items g) <-> In i (ditems es)).
  { intros. split; apply Permutation_in; auto. now symmetry. }
  rewrite add_groups; auto.
  - f_equal. destruct (put_item_lookup (items g) []) as [S L]; [constructor| |auto|].
    { eapply Permutation_NoDup; [|exact Vn]. symmetry. now apply Permutation_map. }
    apply wf_dir in W as [Ss W].
    apply sorted_ext; auto; [now apply (sorted_map (fun _ => node_info))|]. intros k.
    unfold infos. rewrite (alookup_map (fun _ => node_info)).
    destruct (alookup k es) as [c|] eqn:Ek; cbn [option_map].
    + apply L. right. exists (ntype c), (nid c). split; [|reflexivity]. apply Hin, in_ditems. exists c. split; auto. now apply alookup_In.
    + destruct (alookup k (fold_left put_item (items g) [])) as [v|] eqn:Ev; auto. exfalso.
      apply L in Ev as [Ev|(t & raw & Hi & _)]; [discriminate|]. apply Hin, in_ditems in Hi as (c & Hc & _).
      apply (sorted_alookup_In _ _ _ Ss) in Hc. congruence.
  - intros r l Hg. specialize (Ne _ _ Hg). destruct l as [|e l]; [now destruct Ne|].
    pose proof (in_items _ _ _ e Hg (or_introl eq_refl)) as Hi. apply Hin, Vi in Hi. apply Hi.
  - intros r l e e' Hg He He'. pose proof (in_items _ _ _ _ Hg He) as H1. pose proof (in_items _ _ _ _ Hg He') as H2.
    apply Hin, in_ditems in H1 as (c & Hc & Et & Er). apply Hin, in_ditems in H2 as (d & Hd & Et' & Er').
    rewrite Et, Et'. eapply U; eauto. congruence.
Qed.

(** ** Writing a directory *)
Definition info_item (p : string * info) : item :=
  (fst p, (snd (snd p), match FromHexString (fst (snd p)) with Some r => r | None => "" end)).
Lemma serialize_groups (m : TreeEntries) : forall g, Forall (fun p => exists raw, fst (snd p) = ToHexString raw) m ->
  exists g', fold_left group_entry m (Some g) = Some g' /\ Permutation (items g') (items g ++ map info_item m).
Proof.
  induction m as [|[x [hex t]] m IH]; intros g F; cbn [fold_left map].
  - exists g. now rewrite app_nil_r.
  - inversion F as [|? ? (raw & Er) F']; subst. cbn [fst snd] in *. subst hex. unfold group_entry at 2, info_item at 1.
    cbn [fst snd]. rewrite hex_decode_encode.
    destruct (IH (emplace_back raw (x, t) g) F') as (g' & E & P). exists g'. split; auto.
    rewrite P, emplace_back_perm. cbn [fst snd]. cbn [app]. apply Permutation_middle.
Qed.

Lemma serialize_dir es : wf (Dir es) -> SerializeGitTree H (infos es) = Some (content es).
Proof.
  intros W. unfold SerializeGitTree. destruct (serialize_groups (infos es) []) as (g & E & P).
  { apply Forall_forall. intros p Hp. apply in_map_iff in Hp as ([x c] & <- & _). cbn. eauto. }
  match goal with |- match ?f with _ => _ end = _ => replace f with (Some g) by (symmetry; exact E) end.
  unfold CreateShallowTree. f_equal. cbn [snd]. rewrite content_groups.
  assert (Ed : map info_item (infos es) = ditems es).
  { unfold infos, ditems. rewrite map_map. apply map_ext. intros [x c]. unfold info_item. cbn [fst snd Spec.node_info]. now rewrite hex_decode_encode. }
  cbn [items map concat app] in P. rewrite Ed in P. destruct (ditems_valid es W) as [Vn Vi].
  apply tree_content_order.
  - split; [apply (Permutation_NoDup (l:=map fst (ditems es))); [apply Permutation_map; now symmetry|auto]|]. eapply Permutation_Forall; [symmetry; exact P|auto].
  - rewrite items_groups. split; auto.
  - intros i. rewrite items_groups. split; apply Permutation_in; auto. now symmetry.
Qed.

(** ** Ids determine stored directories *)
Lemma stored_inj U : no_collision U -> forall a b, wf a -> wf b -> stored U a -> stored U b ->
  ntype a = ntype b -> nid a = nid b -> a = b.
Proof.
  intros NC. induction a as [t id|es IH] using node_ind'; intros [t' id'|es'] Wa Wb Sa Sb Et En.
  - cbn in *. congruence.
  - cbn in Et. subst t. destruct Wa as [Wa _]. congruence.
  - cbn in Et. subst t'. destruct Wb as [Wb _]. congruence.
  - f_equal. apply stored_dir in Sa as [Ia Sa]. apply stored_dir in Sb as [Ib Sb].
    assert (Ec : content es = content es') by (apply NC; auto).
    rewrite !content_groups in Ec.
    assert (HI : forall i, In i (ditems es) <-> In i (ditems es')).
    { intros i. rewrite <- !items_groups. apply content_injective; auto; rewrite items_groups; now apply ditems_valid. }
    apply wf_dir in Wa as [Wa1 Wa2]. apply wf_dir in Wb as [Wb1 Wb2]. rewrite Forall_forall in IH.
    assert (HH : forall k c, In (k, c) es -> In (k, c) es').
    { intros k c Hc. assert (Hi : In (k, (ntype c, nid c)) (ditems es')) by (apply HI, in_ditems; eauto).
      apply in_ditems in Hi as (d & Hd & E1 & E2). assert (c = d); [|subst; auto].
      apply (IH (k, c)); auto; try apply (Wa2 _ _ Hc); try apply (Wb2 _ _ Hd); cbn; eauto. }
    assert (HH' : forall k c, In (k, c) es' -> In (k, c) es).
    { intros k d Hd. assert (Hi : In (k, (ntype d, nid d)) (ditems es)) by (apply HI, in_ditems; eauto).
      apply in_ditems in Hi as (c & Hc & E1 & E2). assert (c = d); [|subst; auto].
      apply (IH (k, c)); auto; try apply (Wa2 _ _ Hc); try apply (Wb2 _ _ Hd); cbn; eauto. }
    apply sorted_ext; auto. intros k. destruct (alookup k es) as [c|] eqn:E1.
    + apply alookup_In, HH in E1. symmetry. now apply sorted_alookup_In.
    + destruct (alookup k es') as [c|] eqn:E2; auto. apply alookup_In, HH' in E2. apply (sorted_alookup_In _ _ _ Wa1) in E2. congruence.
Qed.

Lemma retrieve_dir st es : no_collision st -> In (content es) st -> retrieve H st (node_info (Dir es)) = Some (content es).
Proof.
  intros NC Hi. unfold retrieve. cbn [fst Spec.node_info node_info].
  destruct (find _ st) as [d|] eqn:E.
  - apply find_some in E as [Hd E]. apply String.eqb_eq in E. apply hex_encode_injective in E. f_equal. apply NC; auto.
  - exfalso. apply (find_none _ _ E) in Hi. apply String.eqb_neq in Hi. now apply Hi.
Qed.

Lemma read_info st es : no_collision st -> wf (Dir es) -> uniform (Dir es) -> stored st (Dir es) ->
  ReadTreeInfo H st (node_info (Dir es)) = Some (infos es).
Proof.
  intros NC W U S. unfold ReadTreeInfo. rewrite retrieve_dir; auto; [|now apply stored_dir in S].
  cbn [fst Spec.node_info]. now apply parse_dir.
Qed.

End H.
