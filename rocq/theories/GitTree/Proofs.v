From Coq Require Import String Ascii List Bool NArith Arith Lia Sorted Permutation.
From Verif Require Import Common.Strs Hex.Model Hex.Proofs GitTree.Model GitTree.Spec.
Import ListNotations.
Local Open Scope string_scope.
Local Open Scope list_scope.
Local Infix "^^" := String.append (at level 60, right associativity).

Lemma sorted_lookup_iff {V} k (v : V) l : sorted_keys l -> (alookup k l = Some v <-> In (k, v) l).
Proof. intros S. split; [apply alookup_In|now apply sorted_alookup_In]. Qed.

(** ** The sorting map *)
Definition put (m : list (string * (string * otype))) (i : item) :=
  aemplace (sort_key (fst i) (fst (snd i))) (snd (snd i), fst (snd i)) m.

Lemma sorted_entries_items es : sorted_entries es = fold_left put (items es) [].
Proof.
  unfold sorted_entries, items. generalize (@nil (string * (string * otype))).
  induction es as [|[raw l] es IH]; intros m; cbn [fold_left map concat fst snd]; auto.
  rewrite fold_left_app, IH. f_equal. clear. revert m. induction l as [|e l IH]; intros m; cbn [fold_left map]; auto.
Qed.

Lemma put_sorted l : forall m, sorted_keys m -> sorted_keys (fold_left put l m).
Proof. induction l; cbn; intros; auto. apply IHl. now apply aemplace_sorted. Qed.

Definition key (i : item) : string := sort_key (fst i) (fst (snd i)).

Lemma put_lookup l : forall m, sorted_keys m -> NoDup (map key l) ->
  (forall i, In i l -> alookup (key i) m = None) ->
  forall k v, alookup k (fold_left put l m) = Some v <->
    (alookup k m = Some v \/ exists i, In i l /\ key i = k /\ v = (snd (snd i), fst (snd i))).
Proof.
  induction l as [|i l IH]; intros m Sm Nd Hm k v; cbn [fold_left].
  - split; [auto|]. intros [E|(i & [] & _)]; auto.
  - inversion Nd as [|? ? Hni Nd']; subst. unfold put at 2. fold (key i).
    rewrite IH; auto using aemplace_sorted.
    + rewrite aemplace_lookup by auto.
      destruct (alookup k m) as [w|] eqn:Ek.
      * split.
        -- intros [E|(j & Hj & E & ->)]; auto. right. exists j. repeat split; auto. now right.
        -- intros [E|(j & [<-|Hj] & E & ->)]; [auto| |right; exists j; auto].
           rewrite <- E, (Hm i (or_introl eq_refl)) in Ek. discriminate.
      * destruct (String.eqb_spec k (key i)) as [->|Hne].
        -- split.
           ++ intros [E|(j & Hj & E & ->)]; [injection E as <-; right; exists i; repeat split; auto; now left|].
              right. exists j. repeat split; auto. now right.
           ++ intros [E|(j & [<-|Hj] & E & ->)]; [discriminate|now left|right; exists j; auto].
        -- split.
           ++ intros [E|(j & Hj & E & ->)]; auto. right. exists j. repeat split; auto. now right.
           ++ intros [E|(j & [<-|Hj] & E & ->)]; [auto|congruence|right; exists j; auto].
    + intros j Hj. rewrite aemplace_lookup by auto. rewrite (Hm j (or_intror Hj)).
      destruct (String.eqb_spec (key j) (key i)) as [E|Hne]; auto.
      destruct Hni. rewrite <- E. now apply in_map.
Qed.

Lemma free_app_slash a b : free_of "/" b -> a ^^ "/" <> b.
Proof. intros Hf <-. apply Hf. rewrite list_ascii_app. apply in_or_app. right. now left. Qed.

Lemma key_inj i j : valid_item i -> valid_item j -> key i = key j ->
  fst i = fst j /\ IsTreeObject (fst (snd i)) = IsTreeObject (fst (snd j)).
Proof.
  intros [(_ & Fi & _) _] [(_ & Fj & _) _]. unfold key, sort_key.
  destruct (IsTreeObject (fst (snd i))), (IsTreeObject (fst (snd j))); rewrite ?app_str_nil_r; intros E; auto.
  - now apply app_str_inv_tail in E.
  - exfalso. exact (free_app_slash _ _ Fj E).
  - exfalso. exact (free_app_slash _ _ Fi (eq_sym E)).
Qed.

Lemma keys_NoDup l : valid_items l -> NoDup (map key l).
Proof.
  intros [Nd V]. induction l as [|i l IH]; cbn; [constructor|]. inversion Nd; subst. inversion V; subst.
  constructor; auto. intros Hin. apply in_map_iff in Hin as (j & E & Hj).
  apply key_inj in E; auto; [|rewrite Forall_forall in *; auto]. destruct E as [E _]. apply H1. rewrite <- E. now apply in_map.
Qed.

Definition unkey (p : string * (string * otype)) : item :=
  match p with (k, (raw, t)) => (substring 0 (String.length k - (if IsTreeObject t then 1 else 0)) k, (t, raw)) end.

Lemma substring_app0 a b : substring 0 (String.length a) (a ^^ b) = a.
Proof. induction a; cbn; [now destruct b|]. now rewrite IHa. Qed.

Lemma unkey_key i : unkey (key i, (snd (snd i), fst (snd i))) = i.
Proof.
  destruct i as [n [t raw]]. unfold unkey, key, sort_key. cbn [fst snd]. f_equal.
  destruct t; cbn [IsTreeObject otype_eqb]; rewrite app_str_length; cbn [String.length];
    rewrite ?Nat.add_0_r, ?Nat.sub_0_r, ?Nat.add_sub; rewrite ?substring_app0; auto.
Qed.

Lemma sorted_entries_spec es : valid_items (items es) ->
  sorted_keys (sorted_entries es) /\
  forall k raw t, In (k, (raw, t)) (sorted_entries es) <-> exists n, In (n, (t, raw)) (items es) /\ k = key (n, (t, raw)).
Proof.
  intros V. rewrite sorted_entries_items. pose proof (keys_NoDup _ V) as Nd.
  assert (Sr : sorted_keys (fold_left put (items es) [])) by (apply put_sorted; constructor).
  split; auto. intros k raw t. rewrite <- sorted_lookup_iff by auto.
  rewrite put_lookup by (auto; constructor). cbn [alookup]. split.
  - intros [E|([n [t' raw']] & Hi & E1 & E2)]; [discriminate|]. cbn in E2. injection E2 as -> ->. exists n. auto.
  - intros (n & Hi & ->). right. exists (n, (t, raw)). auto.
Qed.

(** ** Order *)
Lemma git_cmp_key n1 : forall n2 t1 t2, free_of "/" n1 -> free_of (ascii_of_N 0) n1 -> free_of "/" n2 -> free_of (ascii_of_N 0) n2 ->
  str_lt (sort_key n1 t1) (sort_key n2 t2) -> git_cmp n1 t1 n2 t2 = Lt.
Proof.
  assert (Z0 : forall c s, free_of (ascii_of_N 0) (String c s) -> N_of_ascii c <> 0%N).
  { intros c s F E. apply F. left. apply N_of_ascii_inj. now rewrite E. }
  assert (Z1 : forall c s, free_of "/" (String c s) -> N_of_ascii c <> 47%N).
  { intros c s F E. apply F. left. apply N_of_ascii_inj. now rewrite E. }
  assert (FT : forall x c s, free_of x (String c s) -> free_of x s).
  { intros x c s F Hi. apply F. now right. }
  induction n1 as [|c r IH]; intros [|d s] t1 t2 A1 A2 B1 B2 L; unfold str_lt in L.
  - destruct t1, t2; cbn in L |- *; congruence.
  - cbn [git_cmp]. unfold sort_key in L. pose proof (Z0 _ _ B2). pose proof (Z1 _ _ B1).
    assert (HT : t1 = Tree \/ t1 <> Tree) by (destruct t1; auto; right; discriminate). destruct HT as [->|Ht].
    + cbn [IsTreeObject otype_eqb String.append str_cmp] in L. cbn [name_end].
      change (N_of_ascii "/") with 47%N in L. destruct (N.compare_spec 47 (N_of_ascii d)); auto; congruence.
    + assert (name_end t1 = 0%N) as -> by (destruct t1; auto; congruence).
      apply N.compare_lt_iff. lia.
  - cbn [git_cmp]. unfold sort_key in L. pose proof (Z0 _ _ A2). pose proof (Z1 _ _ A1).
    assert (HT : t2 = Tree \/ t2 <> Tree) by (destruct t2; auto; right; discriminate). destruct HT as [->|Ht].
    + cbn [IsTreeObject otype_eqb String.append str_cmp] in L. cbn [name_end].
      change (N_of_ascii "/") with 47%N in L. destruct (N.compare_spec (N_of_ascii c) 47); auto; congruence.
    + exfalso. assert (IsTreeObject t2 = false) as E by (destruct t2; auto; congruence). rewrite E in L. discriminate.
  - cbn [git_cmp]. unfold sort_key in *. cbn [String.append str_cmp] in L.
    destruct (N.compare (N_of_ascii c) (N_of_ascii d)); auto. apply IH; eauto.
Qed.

Lemma sorted_unkey es : valid_items (items es) -> StronglySorted git_lt (map unkey (sorted_entries es)).
Proof.
  intros V. destruct (sorted_entries_spec es V) as [Sr Hin].
  assert (G : forall l, (forall p, In p l -> In p (sorted_entries es)) -> sorted_keys l -> StronglySorted git_lt (map unkey l)).
  { induction l as [|[k [raw t]] l IH]; intros Hl Sl; cbn [map]; constructor.
    - apply IH; [intros; apply Hl; now right|]. eapply sorted_keys_tail; eauto.
    - apply Forall_forall. intros j Hj. apply in_map_iff in Hj as ([k' [raw' t']] & <- & Hj).
      pose proof (sorted_keys_head _ _ _ Sl Hj) as L. cbn [fst] in L.
      pose proof (Hl _ (or_introl eq_refl)) as I1. pose proof (Hl _ (or_intror Hj)) as I2.
      apply Hin in I1 as (n & I1 & ->). apply Hin in I2 as (n' & I2 & ->).
      change (raw, t) with (snd (snd (n, (t, raw))), fst (snd (n, (t, raw)))).
      change (raw', t') with (snd (snd (n', (t', raw'))), fst (snd (n', (t', raw')))). rewrite !unkey_key.
      unfold git_lt. cbn [fst snd]. destruct V as [_ V]. rewrite Forall_forall in V.
      destruct (V _ I1) as [(? & ? & ? & ?) _]. destruct (V _ I2) as [(? & ? & ? & ?) _].
      now apply git_cmp_key. }
  apply G; auto.
Qed.

Lemma entry_text_unkey p : entry_text p = git_text (unkey p).
Proof. destruct p as [k [raw t]]. unfold entry_text, git_text, unkey. cbn [fst snd]. destruct t; reflexivity. Qed.

Lemma in_unkey es i : valid_items (items es) -> In i (map unkey (sorted_entries es)) <-> In i (items es).
Proof.
  intros V. destruct (sorted_entries_spec es V) as [Sr Hin]. rewrite in_map_iff. split.
  - intros ([k [raw t]] & <- & Hp). apply Hin in Hp as (n & Hi & ->).
    change (raw, t) with (snd (snd (n, (t, raw))), fst (snd (n, (t, raw)))). now rewrite unkey_key.
  - intros Hi. destruct i as [n [t raw]]. exists (key (n, (t, raw)), (raw, t)). split.
    + change (raw, t) with (snd (snd (n, (t, raw))), fst (snd (n, (t, raw)))). apply unkey_key.
    + apply Hin. eauto.
Qed.

Lemma content_unkey es : tree_content es = String.concat "" (map git_text (map unkey (sorted_entries es))).
Proof. unfold tree_content. rewrite map_map. f_equal. apply map_ext. apply entry_text_unkey. Qed.

Theorem tree_content_object es : valid_items (items es) -> git_tree_object (items es) (tree_content es).
Proof.
  intros V. exists (map unkey (sorted_entries es)). split; [|split].
  - intros i. now apply in_unkey.
  - now apply sorted_unkey.
  - apply content_unkey.
Qed.

Theorem tree_content_order es1 es2 : valid_items (items es1) -> valid_items (items es2) ->
  (forall i, In i (items es1) <-> In i (items es2)) -> tree_content es1 = tree_content es2.
Proof.
  intros V1 V2 HE. unfold tree_content. f_equal. f_equal.
  destruct (sorted_entries_spec es1 V1) as [S1 I1]. destruct (sorted_entries_spec es2 V2) as [S2 I2].
  apply sorted_ext; auto. intros k.
  assert (HH : forall v, alookup k (sorted_entries es1) = Some v <-> alookup k (sorted_entries es2) = Some v).
  { intros [raw t]. rewrite !sorted_lookup_iff by auto. rewrite I1, I2.
    split; intros (n & Hi & E); exists n; split; auto; now apply HE. }
  destruct (alookup k (sorted_entries es1)) as [v|] eqn:E1.
  - symmetry. now apply HH.
  - destruct (alookup k (sorted_entries es2)) as [v|] eqn:E2; auto. assert (None = Some v) by (apply HH; auto). discriminate.
Qed.

(** ** Reading *)
Lemma take_until_app c a r : free_of c a -> take_until c (a ^^ String c r) = Some (a, r).
Proof.
  induction a as [|d a IH]; intros F; cbn.
  - now rewrite Ascii.eqb_refl.
  - destruct (Ascii.eqb_spec c d) as [->|Hne].
    + destruct F. now left.
    + rewrite IH; auto. intros Hi. apply F. now right.
Qed.
Lemma take_app a r : take (String.length a) (a ^^ r) = Some (a, r).
Proof. induction a; cbn; [now destruct r|]. now rewrite IHa. Qed.

Definition mode_num (t : otype) : N :=
  match t with File => MODE_BLOB | Executable => MODE_EXEC | Tree => MODE_TREE | Symlink => MODE_LINK end.

Lemma parse_entry_text i rest : valid_item i ->
  parse_entry (git_text i ^^ rest) = Some (mode_num (fst (snd i)), fst i, snd (snd i), rest).
Proof.
  destruct i as [n [t raw]]. intros [(Hn & Hs & H0 & Hl) Hr]. cbn [fst snd] in *. unfold git_text. cbn [fst snd].
  assert (FM : free_of " " (git_mode t)) by (unfold free_of; destruct t; cbn; intros F; repeat (destruct F as [F|F]; [discriminate|]); auto).
  assert (MM : mode_of (git_mode t) = Some (mode_num t)) by (destruct t; reflexivity).
  rewrite !app_str_assoc. cbn [String.append]. unfold parse_entry.
  rewrite (take_until_app " " (git_mode t)) by auto. rewrite MM.
  rewrite (take_until_app (ascii_of_N 0) n) by auto.
  assert ((Nat.eqb (String.length n) 0 || N.ltb 65535 (N.of_nat (String.length n)))%bool = false) as ->.
  { apply orb_false_iff. split; [apply Nat.eqb_neq; destruct n; [congruence|discriminate]|apply N.ltb_ge; auto]. }
  pose proof (take_app raw rest) as HT. rewrite Hr in HT. rewrite HT. reflexivity.
Qed.

Definition triple (i : item) : N * string * string := (mode_num (fst (snd i)), fst i, snd (snd i)).

Lemma git_text_pos i : 0 < String.length (git_text i).
Proof. unfold git_text. rewrite app_str_length. destruct (fst (snd i)); cbn; lia. Qed.

Lemma concat_cons (x : string) l : String.concat "" (x :: l) = x ^^ String.concat "" l.
Proof. destruct l; cbn; [now rewrite app_str_nil_r|reflexivity]. Qed.

Lemma parse_texts l : Forall valid_item l -> forall fuel, String.length (String.concat "" (map git_text l)) < fuel ->
  parse_tree fuel (String.concat "" (map git_text l)) = Some (map triple l).
Proof.
  induction l as [|i l IH]; intros V fuel Hf.
  - cbn. destruct fuel; reflexivity.
  - inversion V; subst. cbn [map] in *. rewrite concat_cons in *. rewrite app_str_length in Hf.
    destruct fuel as [|f]; [lia|]. pose proof (git_text_pos i) as Hp.
    destruct (git_text i ^^ String.concat "" (map git_text l)) eqn:E.
    { apply (f_equal String.length) in E. rewrite app_str_length in E. cbn in E. lia. }
    cbn [parse_tree]. rewrite <- E. rewrite parse_entry_text by auto. rewrite IH; auto. lia.
Qed.

Lemma emplace_back_items raw e es i : In i (items (emplace_back raw e es)) <-> In i (items es) \/ i = (fst e, (snd e, raw)).
Proof.
  induction es as [|[r l] es IH]; cbn [emplace_back].
  - cbn. intuition.
  - destruct (String.eqb_spec r raw) as [->|Hne]; unfold items in *; cbn [map concat fst snd]; rewrite !in_app_iff.
    + rewrite map_app, in_app_iff. cbn. intuition.
    + rewrite IH. tauto.
Qed.
Lemma emplace_back_perm raw e es : Permutation (items (emplace_back raw e es)) ((fst e, (snd e, raw)) :: items es).
Proof.
  induction es as [|[r l] es IH]; cbn [emplace_back].
  - reflexivity.
  - destruct (String.eqb_spec r raw) as [->|Hne]; unfold items in *; cbn [map concat fst snd].
    + rewrite map_app, <- app_assoc. cbn [map app]. symmetry. apply Permutation_middle.
    + etransitivity; [apply Permutation_app_head, IH|]. symmetry. apply Permutation_middle.
Qed.
Lemma emplace_back_ids raw e es : NoDup (map fst es) -> NoDup (map fst (emplace_back raw e es)) /\
  (forall r, In r (map fst (emplace_back raw e es)) <-> In r (map fst es) \/ r = raw).
Proof.
  induction es as [|[r l] es IH]; intros Nd; cbn [emplace_back].
  - cbn. split; [repeat constructor; auto|intuition].
  - inversion Nd; subst. destruct (String.eqb_spec r raw) as [->|Hne]; cbn [map fst].
    + split; auto. intros r'. cbn. intuition.
    + destruct (IH H2) as [N1 N2]. split.
      * constructor; auto. intros Hi. apply N2 in Hi as [Hi|E]; auto.
      * intros r'. cbn. rewrite N2. intuition.
Qed.

Lemma normalize_mode_num t : normalize_mode (mode_num t) = mode_num t.
Proof. destruct t; reflexivity. Qed.
Lemma mode_type t : GitFileModeToObjectType (mode_num t) = Some t.
Proof. destruct t; reflexivity. Qed.
Lemma nonspecial_mode t : GitFileModeIsNonSpecial (mode_num t) = negb (IsSymlinkObject t).
Proof. destruct t; reflexivity. Qed.

Definition visible (ignore_special : bool) (i : item) : bool := negb (ignore_special && IsSymlinkObject (fst (snd i)))%bool.

Lemma walk_items ign l : forall acc, NoDup (map fst acc) ->
  exists es, fold_left (walk_entry ign) (map triple l) (Some acc) = Some es /\ NoDup (map fst es) /\
    Permutation (items es) (items acc ++ filter (visible ign) l).
Proof.
  induction l as [|[n [t raw]] l IH]; intros acc Nd; cbn [map fold_left filter].
  - exists acc. rewrite app_nil_r. auto.
  - unfold walk_entry at 2. cbn [triple fst snd]. unfold ToRawString. rewrite hex_decode_encode.
    rewrite normalize_mode_num, nonspecial_mode, mode_type. unfold visible at 1. cbn [fst snd]. rewrite negb_involutive.
    destruct (ign && IsSymlinkObject t)%bool; cbn [negb].
    + now apply IH.
    + destruct (emplace_back_ids raw (n, t) acc Nd) as [N1 _]. destruct (IH _ N1) as (es & E & N2 & P).
      exists es. split; auto. split; auto. etransitivity; [exact P|].
      etransitivity; [apply Permutation_app_tail, emplace_back_perm|]. cbn [fst snd app]. apply Permutation_middle.
Qed.

Lemma sorted_NoDup_names es : valid_items (items es) -> Permutation (map unkey (sorted_entries es)) (items es).
Proof.
  intros V. apply NoDup_Permutation.
  - pose proof (sorted_unkey es V) as S. induction S as [|a l S IH F]; constructor; auto.
    intros Hi. rewrite Forall_forall in F. specialize (F _ Hi). unfold git_lt in F.
    assert (R : forall n t, git_cmp n t n t = Eq).
    { clear. induction n; intros; cbn; [apply N.compare_refl|]. now rewrite N.compare_refl. }
    rewrite R in F. discriminate.
  - destruct V as [Nd _]. eapply NoDup_map_inv; eauto.
  - intros i. now apply in_unkey.
Qed.

Theorem read_back ign es : valid_items (items es) ->
  exists es', ReadDirectTree ign (tree_content es) = Some es' /\ NoDup (map fst es') /\
    Permutation (items es') (filter (visible ign) (items es)).
Proof.
  intros V. unfold ReadDirectTree. rewrite content_unkey. set (l := map unkey (sorted_entries es)).
  assert (Vl : Forall valid_item l).
  { apply Forall_forall. intros i Hi. apply in_unkey in Hi; auto. destruct V as [_ V]. rewrite Forall_forall in V. auto. }
  rewrite parse_texts by (auto; lia).
  destruct (walk_items ign l []) as (es' & E & N & P); [constructor|]. exists es'. split; auto. split; auto.
  cbn [items concat map app] in P. etransitivity; [exact P|].
  assert (FP : forall a b : list item, Permutation a b -> Permutation (filter (visible ign) a) (filter (visible ign) b)).
  { clear. induction 1; cbn; auto.
    - destruct (visible ign x); auto.
    - destruct (visible ign x), (visible ign y); auto; constructor.
    - etransitivity; eauto. }
  apply FP. now apply sorted_NoDup_names.
Qed.

Theorem content_injective es1 es2 : valid_items (items es1) -> valid_items (items es2) ->
  tree_content es1 = tree_content es2 -> forall i, In i (items es1) <-> In i (items es2).
Proof.
  intros V1 V2 E i. destruct (read_back false es1 V1) as (a & Ea & _ & Pa). destruct (read_back false es2 V2) as (b & Eb & _ & Pb).
  rewrite E, Eb in Ea. injection Ea as <-.
  assert (F : forall l : list item, filter (visible false) l = l) by (induction l; cbn; congruence).
  rewrite F in *. split; intros Hi.
  - eapply Permutation_in; [exact Pb|]. eapply Permutation_in; [symmetry; exact Pa|auto].
  - eapply Permutation_in; [exact Pa|]. eapply Permutation_in; [symmetry; exact Pb|auto].
Qed.
