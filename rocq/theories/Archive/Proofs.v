(** Proofs about writing trees as archives. *)
From Coq Require Import String Ascii NArith List Bool Sorted Lia.
From Verif Require Import Common.Strs Archive.Model Archive.Spec.
Import ListNotations.
Open Scope string_scope.
Open Scope list_scope.
Open Scope nat_scope.

Lemma destruct_last {A} (l : list A) : l = [] \/ exists l' x, l = l' ++ [x].
Proof.
  destruct l as [|a l]; [now left|right].
  destruct (@exists_last A (a :: l)) as (l' & x & E); [discriminate|]. now exists l', x.
Qed.

(** * Paths *)

Lemma good_start n : good_name n -> starts_with_slash n = false.
Proof.
  intros [N G]. destruct n as [|c n]; [congruence|]. cbn [starts_with_slash].
  destruct (Ascii.eqb_spec c "/") as [->|]; [|reflexivity].
  exfalso. exact (G 0 eq_refl).
Qed.

Lemma ends_cons c s : s <> "" -> ends_with_slash (String c s) = ends_with_slash s.
Proof. destruct s; [congruence|reflexivity]. Qed.

Lemma ends_app a b : b <> "" -> ends_with_slash (a ++ b)%string = ends_with_slash b.
Proof.
  intro N. induction a as [|c a IH]; [reflexivity|].
  change ((String c a ++ b)%string) with (String c (a ++ b)%string).
  rewrite ends_cons; [exact IH|]. destruct a; [exact N|discriminate].
Qed.

Lemma good_end n : good_name n -> ends_with_slash n = false.
Proof.
  intros [N G]. revert N G. induction n as [|c n IH]; intros N G; [congruence|].
  destruct n as [|c' n].
  - cbn [ends_with_slash]. destruct (Ascii.eqb_spec c "/") as [->|]; [|reflexivity].
    exfalso. exact (G 0 eq_refl).
  - rewrite ends_cons by discriminate. apply IH; [discriminate|].
    intro i. exact (G (S i)).
Qed.

Lemma sapp_assoc a b c : ((a ++ b) ++ c)%string = (a ++ (b ++ c))%string.
Proof. induction a as [|x a IH]; [reflexivity|]. cbn. now rewrite IH. Qed.

Lemma concat_snoc pre n : pre <> [] ->
  String.concat "/" (pre ++ [n]) = (String.concat "/" pre ++ "/" ++ n)%string.
Proof.
  induction pre as [|x pre IH]; [congruence|]. intros _.
  destruct pre as [|y pre]; [reflexivity|].
  change ((x :: y :: pre) ++ [n]) with (x :: ((y :: pre) ++ [n])).
  assert (E : forall l, l <> [] -> String.concat "/" (x :: l) = (x ++ "/" ++ String.concat "/" l)%string).
  { intros l Hl. destruct l; [congruence|reflexivity]. }
  rewrite E by discriminate. rewrite IH by discriminate.
  rewrite (E (y :: pre)) by discriminate. now rewrite !sapp_assoc.
Qed.

Lemma sapp_nonempty a b : b <> "" -> (a ++ b)%string <> "".
Proof. destruct a; [trivial|discriminate]. Qed.

Lemma concat_last pre n : good_name n ->
  String.concat "/" (pre ++ [n]) <> "" /\
  ends_with_slash (String.concat "/" (pre ++ [n])) = false.
Proof.
  intro G. destruct pre as [|x pre].
  - split; [exact (proj1 G)|exact (good_end n G)].
  - rewrite concat_snoc by discriminate. split.
    + apply sapp_nonempty. discriminate.
    + rewrite ends_app by discriminate. rewrite ends_app by exact (proj1 G).
      exact (good_end n G).
Qed.

Lemma concat_empty pre : Forall good_name pre -> String.concat "/" pre = "" -> pre = [].
Proof.
  destruct (destruct_last pre) as [->|(l & x & ->)]; [reflexivity|].
  intros F E. apply Forall_app in F. destruct F as [_ F]. inversion F; subst.
  exfalso. exact (proj1 (concat_last l x H1) E).
Qed.

Lemma join_good pre n : Forall good_name pre -> good_name n ->
  path_join (String.concat "/" pre) n = String.concat "/" (pre ++ [n]).
Proof.
  intros F G. unfold path_join. rewrite good_start by exact G.
  destruct (destruct_last pre) as [->|(l & x & ->)]; [reflexivity|].
  apply Forall_app in F. destruct F as [_ F]. inversion F as [|? ? Gx _]; subst.
  destruct (concat_last l x Gx) as [N E].
  rewrite (concat_snoc (l ++ [x])) by (destruct l; discriminate).
  rewrite E. destruct (String.concat "/" (l ++ [x])); [congruence|reflexivity].
Qed.

(** * The entries of a tree *)

Section S.
Variables digest raw : Type.
Variable retrieve : digest * otype -> option string.
Variable ReadTreeData : string -> digest -> option (list (raw * list (string * otype))).
Variable create : raw -> bool -> option digest.

Notation leads := (leads digest raw retrieve ReadTreeData create).
Notation usable := (usable digest raw retrieve ReadTreeData create).
Notation proper_trees := (proper_trees digest raw ReadTreeData).
Notation add := (add_to_archive digest raw retrieve ReadTreeData create).
Notation flatten := (flatten digest raw create).
Notation objects_of := (objects_of digest raw create).
Notation by_name := (by_name digest).

Lemma objects_spec h es : forall l, objects_of h es = Some l ->
  (forall nm ob, In (nm, ob) l <->
     exists t d, In (nm, t) es /\ create h (IsTreeObject t) = Some d /\ ob = (d, t)) /\
  map fst l = map fst es /\
  (forall nm t, In (nm, t) es -> create h (IsTreeObject t) <> None).
Proof.
  induction es as [|[nm t] es IH]; intros l; cbn [Model.objects_of].
  - intros [= <-]. split; [|split; [reflexivity|intros ? ? []]].
    intros nm ob. split; [intros []|intros (t & d & [] & _)].
  - destruct (create h (IsTreeObject t)) as [d|] eqn:C; [|discriminate].
    destruct (objects_of h es) as [r|]; [|discriminate].
    intros [= <-]. destruct (IH r eq_refl) as (I1 & I2 & I3).
    split; [|split].
    + intros nm' ob. cbn [In]. rewrite I1. split.
      * intros [E|(t' & d' & H1 & H2 & H3)].
        -- injection E as <- <-. exists t, d. auto.
        -- exists t', d'. auto.
      * intros (t' & d' & [E|H1] & H2 & H3).
        -- injection E as <- <-. left. congruence.
        -- right. exists t', d'. auto.
    + cbn [map fst]. now rewrite I2.
    + intros nm' t' [E|H]; [injection E as <- <-; congruence|]. exact (I3 nm' t' H).
Qed.

Lemma objects_none h es : objects_of h es = None ->
  exists nm t, In (nm, t) es /\ create h (IsTreeObject t) = None.
Proof.
  induction es as [|[nm t] es IH]; cbn [Model.objects_of]; [discriminate|].
  destruct (create h (IsTreeObject t)) as [d|] eqn:C.
  - destruct (objects_of h es); [discriminate|]. intros _.
    destruct (IH eq_refl) as (nm' & t' & H1 & H2). exists nm', t'. split; [now right|exact H2].
  - intros _. exists nm, t. split; [now left|exact C].
Qed.

Lemma flatten_spec g : forall l, flatten g = Some l ->
  (forall nm ob, In (nm, ob) l <->
     exists h es t d, In (h, es) g /\ In (nm, t) es /\
       create h (IsTreeObject t) = Some d /\ ob = (d, t)) /\
  map fst l = flat_map (fun e => map fst (snd e)) g /\
  (forall h es nm t, In (h, es) g -> In (nm, t) es -> create h (IsTreeObject t) <> None).
Proof.
  induction g as [|[h es] g IH]; intros l; cbn [Model.flatten].
  - intros [= <-]. split; [|split; [reflexivity|intros ? ? ? ? []]].
    intros nm ob. split; [intros []|intros (h & es & t & d & [] & _)].
  - destruct (objects_of h es) as [l1|] eqn:E1; [|discriminate].
    destruct (flatten g) as [l2|]; [|discriminate].
    intros [= <-]. destruct (IH l2 eq_refl) as (I1 & I2 & I3).
    destruct (objects_spec h es l1 E1) as (J1 & J2 & J3). split; [|split].
    + intros nm ob. rewrite in_app_iff, I1, J1. split.
      * intros [(t & d & H1 & H2 & H3)|(h' & es' & t & d & H0 & H1 & H2 & H3)].
        -- exists h, es, t, d. split; [now left|auto].
        -- exists h', es', t, d. split; [now right|auto].
      * intros (h' & es' & t & d & [E|H0] & H1 & H2 & H3).
        -- injection E as <- <-. left. exists t, d. auto.
        -- right. exists h', es', t, d. auto.
    + rewrite map_app. cbn [flat_map snd]. now rewrite I2, J2.
    + intros h' es' nm t [E|H0] H1; [injection E as <- <-; exact (J3 nm t H1)|].
      exact (I3 h' es' nm t H0 H1).
Qed.

Lemma flatten_none g : flatten g = None ->
  exists h es nm t, In (h, es) g /\ In (nm, t) es /\ create h (IsTreeObject t) = None.
Proof.
  induction g as [|[h es] g IH]; cbn [Model.flatten]; [discriminate|].
  destruct (objects_of h es) as [l1|] eqn:E1.
  - destruct (flatten g); [discriminate|]. intros _.
    destruct (IH eq_refl) as (h' & es' & nm & t & H0 & H1 & H2).
    exists h', es', nm, t. split; [now right|auto].
  - intros _. destruct (objects_none h es E1) as (nm & t & H1 & H2).
    exists h, es, nm, t. split; [now left|auto].
Qed.

Lemma by_name_gen (l : list (string * (digest * otype))) : forall m, sorted_keys m ->
  sorted_keys (fold_left (fun m '(k, v) => ainsert k v m) l m) /\
  (forall p, In p (fold_left (fun m '(k, v) => ainsert k v m) l m) -> In p l \/ In p m) /\
  (NoDup (map fst l) -> (forall k, In k (map fst l) -> ~ In k (map fst m)) ->
   forall p, In p l \/ In p m -> In p (fold_left (fun m '(k, v) => ainsert k v m) l m)).
Proof.
  induction l as [|[k v] l IH]; intros m S; cbn [fold_left].
  - split; [exact S|]. split; [tauto|]. intros _ _ p [[]|H]; exact H.
  - destruct (IH (ainsert k v m) (ainsert_sorted k v m S)) as (I1 & I2 & I3).
    split; [exact I1|]. split.
    + intros p Hp. destruct (I2 p Hp) as [H|H]; [left; now right|].
      apply In_ainsert in H. destruct H as [->|H]; [left; now left|now right].
    + cbn [map fst]. intros ND D p Hp. inversion ND as [|? ? Nk ND']; subst.
      apply I3; [exact ND'|..].
      * intros k' Hk' Hin. apply in_map_iff in Hin. destruct Hin as ([k2 v2] & E & Hin).
        cbn [fst] in E. subst k2. apply In_ainsert in Hin. destruct Hin as [E|Hin].
        -- injection E as -> _. exact (Nk Hk').
        -- apply (D k' (or_intror Hk')). apply in_map_iff. exists (k', v2). auto.
      * destruct Hp as [[<-|Hp]|Hp]; [right|now left|right].
        -- apply alookup_In. rewrite ainsert_lookup, String.eqb_refl. reflexivity.
        -- destruct p as [k' v']. apply alookup_In. rewrite ainsert_lookup.
           destruct (String.eqb_spec k' k) as [->|].
           ++ exfalso. apply (D k (or_introl eq_refl)). apply in_map_iff. exists (k, v'). auto.
           ++ exact (sorted_alookup_In _ _ _ S Hp).
Qed.

Lemma by_name_sorted l : sorted_keys (by_name l).
Proof. apply (by_name_gen l []). constructor. Qed.

Lemma by_name_sub l p : In p (by_name l) -> In p l.
Proof.
  intro H. destruct (proj1 (proj2 (by_name_gen l [] (SSorted_nil _))) p H) as [X|[]]. exact X.
Qed.

Lemma by_name_in l p : NoDup (map fst l) -> In p (by_name l) <-> In p l.
Proof.
  intro ND. split; [apply by_name_sub|]. intro H.
  apply (proj2 (proj2 (by_name_gen l [] (SSorted_nil _))) ND); [intros ? _ []|now left].
Qed.

(** * Following names *)

Lemma leads_leaf d t names o' : t <> Tree -> leads (d, t) names o' -> names = [] /\ o' = (d, t).
Proof.
  intros N L. inversion L as [|o name h t' d' names' o'' H C L' E1 E2 E3]; subst; [auto|].
  destruct H as (d0 & p & g & es & E & _). injection E as -> ->. congruence.
Qed.

Lemma leads_tree d p g l names o' :
  retrieve (d, Tree) = Some p -> ReadTreeData p d = Some g -> flatten g = Some l ->
  NoDup (map fst l) ->
  leads (d, Tree) names o' <->
  (names = [] /\ o' = (d, Tree)) \/
  exists nm ob rest, names = nm :: rest /\ In (nm, ob) (by_name l) /\ leads ob rest o'.
Proof.
  intros R T F ND. destruct (flatten_spec g l F) as (I1 & _ & _). split.
  - intro L. inversion L as [|o name h t' d' names' o'' H C L' E1 E2 E3]; subst; [left; auto|].
    right. exists name, (d', t'), names'. split; [reflexivity|]. split; [|exact L'].
    apply by_name_in; [exact ND|]. apply I1.
    destruct H as (d0 & p0 & g0 & es & E & R' & T' & H1 & H2).
    injection E as <-. rewrite R in R'. injection R' as <-. rewrite T in T'. injection T' as <-.
    exists h, es, t', d'. auto.
  - intros [[-> ->]|(nm & ob & rest & -> & Hin & L)]; [constructor|].
    apply by_name_sub in Hin. apply I1 in Hin.
    destruct Hin as (h & es & t & d' & H1 & H2 & C & ->).
    apply (leads_cons _ _ _ _ _ _ nm h t d'); [|exact C|exact L].
    exists d, p, g, es. auto.
Qed.

(** The child exists even if a name occurs several times. *)
Lemma leads_child d p g l nm ob names o' :
  retrieve (d, Tree) = Some p -> ReadTreeData p d = Some g -> flatten g = Some l ->
  In (nm, ob) (by_name l) -> leads ob names o' -> leads (d, Tree) (nm :: names) o'.
Proof.
  intros R T F Hin L. destruct (flatten_spec g l F) as (I1 & _ & _).
  apply by_name_sub in Hin. apply I1 in Hin.
  destruct Hin as (h & es & t & d' & H1 & H2 & C & ->).
  apply (leads_cons _ _ _ _ _ _ nm h t d'); [|exact C|exact L].
  exists d, p, g, es. auto.
Qed.

(** * What is written *)

Definition entry_below (pre : list string) (o : digest * otype) (names : list string)
    (e : entry) : Prop :=
  exists o' p, leads o names o' /\ retrieve o' = Some p /\
    e_path e = String.concat "/" (pre ++ names) /\
    match snd o' with
    | File => e_type e = AE_IFREG /\ e_perm e = 292%N /\ e_data e = p
    | Executable => e_type e = AE_IFREG /\ e_perm e = 365%N /\ e_data e = p
    | Symlink => e_type e = AE_IFLNK /\ e_perm e = 4095%N /\ e_data e = p
    | Tree => e_type e = AE_IFDIR /\ e_perm e = 4095%N /\ e_data e = ""
    end.

Definition sound (n : nat) : Prop :=
  forall o pre es, Forall good_name pre -> (pre <> [] \/ snd o = Tree) ->
  add n o (String.concat "/" pre) = Some (es, true) ->
  exists ps, Forall2 (entry_below pre o) ps es /\ StronglySorted before ps /\
    (forall names, In names ps <->
       (exists o', leads o names o') /\ (pre = [] -> names <> [])) /\
    (forall names o', leads o names o' -> usable o').

Lemma before_cons nm ps : StronglySorted before ps -> StronglySorted before (map (cons nm) ps).
Proof.
  intro S. induction S as [|a ps S IH F]; cbn [map]; constructor; [exact IH|].
  rewrite Forall_forall in *. intros x Hx. apply in_map_iff in Hx.
  destruct Hx as (b & <- & Hb). cbn [before]. right. auto.
Qed.

Lemma before_app a b : StronglySorted before a -> StronglySorted before b ->
  (forall x y, In x a -> In y b -> before x y) -> StronglySorted before (a ++ b).
Proof.
  intros Sa Sb H. induction Sa as [|x a Sa IH F]; [exact Sb|]. cbn [app]. constructor.
  - apply IH. intros. apply H; [now right|assumption].
  - rewrite Forall_forall in *. intros y Hy. apply in_app_iff in Hy.
    destruct Hy as [Hy|Hy]; [exact (F y Hy)|]. apply H; [now left|exact Hy].
Qed.

Lemma add_all_sound n pre : sound n -> Forall good_name pre ->
  forall l es, sorted_keys l -> (forall nm ob, In (nm, ob) l -> good_name nm) ->
  add_all digest (add n) (String.concat "/" pre) l = Some (es, true) ->
  exists ps,
    Forall2 (fun names e => exists nm ob rest, names = nm :: rest /\ In (nm, ob) l /\
               entry_below (pre ++ [nm]) ob rest e) ps es /\
    StronglySorted before ps /\
    (forall names, In names ps <->
       exists nm ob rest o', names = nm :: rest /\ In (nm, ob) l /\ leads ob rest o') /\
    (forall nm ob rest o', In (nm, ob) l -> leads ob rest o' -> usable o').
Proof.
  intros IH Fp l. induction l as [|[nm ob] l IHl]; intros es S G; cbn [add_all].
  - intros [= <-]. exists []. split; [constructor|]. split; [constructor|]. split.
    + intros names. split; [intros []|intros (? & ? & ? & ? & _ & [] & _)].
    + intros ? ? ? ? [].
  - assert (Gn : good_name nm) by (apply (G nm ob); now left).
    rewrite (join_good pre nm Fp Gn).
    destruct (add n ob (String.concat "/" (pre ++ [nm]))) as [[e1 [|]]|] eqn:A; try discriminate.
    destruct (add_all digest (add n) (String.concat "/" pre) l) as [[e2 b]|]; [|discriminate].
    intros [= <- ->].
    destruct (IHl e2 (sorted_keys_tail _ _ S) (fun nm' ob' H => G nm' ob' (or_intror H)) eq_refl)
      as (p2 & F2 & S2 & M2 & U2).
    assert (Fp' : Forall good_name (pre ++ [nm])).
    { apply Forall_app. split; [exact Fp|]. constructor; [exact Gn|constructor]. }
    assert (Np : pre ++ [nm] <> []) by (destruct pre; discriminate).
    destruct (IH ob (pre ++ [nm]) e1 Fp' (or_introl Np) A) as (p1 & F1 & S1 & M1 & U1).
    exists (map (cons nm) p1 ++ p2). split; [|split; [|split]].
    + apply Forall2_app.
      * clear - F1. induction F1 as [|a e p1 e1 H F IH]; cbn [map]; constructor; [|exact IH].
        exists nm, ob, a. split; [reflexivity|]. split; [now left|exact H].
      * clear - F2. induction F2 as [|a e p2 e2 H F IH]; constructor; [|exact IH].
        destruct H as (nm' & ob' & rest & E & Hin & H).
        exists nm', ob', rest. split; [exact E|]. split; [now right|exact H].
    + apply before_app; [now apply before_cons|exact S2|].
      intros x y Hx Hy. apply in_map_iff in Hx. destruct Hx as (a & <- & _).
      apply M2 in Hy. destruct Hy as (nm' & ob' & rest & o' & -> & Hin & _).
      cbn [before]. left. exact (sorted_keys_head _ _ _ S Hin).
    + intros names. rewrite in_app_iff, M2, in_map_iff. split.
      * intros [(a & <- & Ha)|(nm' & ob' & rest & o' & E & Hin & L)].
        -- apply M1 in Ha. destruct Ha as [[o' L] _].
           exists nm, ob, a, o'. split; [reflexivity|]. split; [now left|exact L].
        -- exists nm', ob', rest, o'. split; [exact E|]. split; [now right|exact L].
      * intros (nm' & ob' & rest & o' & -> & [E|Hin] & L).
        -- injection E as <- <-. left. exists rest. split; [reflexivity|].
           apply M1. split; [now exists o'|]. intro X. exfalso. exact (Np X).
        -- right. exists nm', ob', rest, o'. auto.
    + intros nm' ob' rest o' [E|Hin] L.
      * injection E as <- <-. exact (U1 rest o' L).
      * exact (U2 nm' ob' rest o' Hin L).
Qed.

Lemma sound_leaf d t p pre e n0 : t <> Tree -> pre <> [] ->
  retrieve (d, t) = Some p ->
  n0 = entry_below pre (d, t) [] e -> n0 ->
  exists ps, Forall2 (entry_below pre (d, t)) ps [e] /\ StronglySorted before ps /\
    (forall names, In names ps <->
       (exists o', leads (d, t) names o') /\ (pre = [] -> names <> [])) /\
    (forall names o', leads (d, t) names o' -> usable o').
Proof.
  intros N Np R -> H. exists [[]]. split; [now constructor|].
  split; [repeat constructor|]. split.
  - intros names. cbn [In]. split.
    + intros [<-|[]]. split; [exists (d, t); constructor|intro X; congruence].
    + intros [[o' L] _]. apply leads_leaf in L; [|exact N]. left. symmetry. tauto.
  - intros names o' L. apply leads_leaf in L; [|exact N]. destruct L as [_ ->].
    exists p. split; [exact R|]. cbn [snd]. congruence.
Qed.

Lemma all_sound : proper_trees -> forall n, sound n.
Proof.
  intros PT n. induction n as [|n IH]; intros [d t] pre es Fp Np; [discriminate|].
  cbn [add_to_archive]. destruct (retrieve (d, t)) as [p|] eqn:R; [|discriminate].
  cbn [snd fst] in *.
  destruct t.
  1,2,3: destruct Np as [Np|X]; [|discriminate]; intros [= <-];
    eapply sound_leaf; [discriminate|exact Np|exact R|reflexivity|];
    eexists _, _; (split; [constructor|]); (split; [exact R|]);
    cbn [snd e_path e_type e_perm e_data]; rewrite app_nil_r;
    (split; [reflexivity|]); repeat split.
  destruct (ReadTreeData p d) as [g|] eqn:T; [|discriminate].
  destruct (flatten g) as [l|] eqn:F; [|discriminate].
  destruct (flatten_spec g l F) as (I1 & I2 & I3).
  destruct (PT p d g T) as [ND GN]. rewrite <- I2 in ND.
  destruct (add_all digest (add n) (String.concat "/" pre) (by_name l)) as [[es' b]|] eqn:A;
    [|discriminate].
  intros H0. assert (Hb : b = true) by congruence. subst b.
  assert (Hes : es = (match String.concat "/" pre with "" => []
      | _ => [mkEntry (String.concat "/" pre) AE_IFDIR kDefaultPerm ""] end) ++ es') by congruence.
  clear H0. subst es.
  assert (G : forall nm ob, In (nm, ob) (by_name l) -> good_name nm).
  { intros nm ob Hin. apply by_name_sub, I1 in Hin.
    destruct Hin as (h & es & t & d' & H1 & H2 & _). exact (GN h es nm t H1 H2). }
  destruct (add_all_sound n pre IH Fp (by_name l) es' (by_name_sorted l) G A)
    as (ps & F2 & S2 & M2 & U2).
  assert (LT := leads_tree d p g l).
  assert (F3 : Forall2 (entry_below pre (d, Tree)) ps es').
  { clear - F2 R T F. induction F2 as [|a e ps es H F' IH]; constructor; [|exact IH].
    destruct H as (nm & ob & rest & -> & Hin & o' & q & L & R' & P & X).
    exists o', q. split; [exact (leads_child d p g l nm ob rest o' R T F Hin L)|].
    split; [exact R'|]. split; [|exact X].
    rewrite P. f_equal. now rewrite <- app_assoc. }
  assert (U : forall names o', leads (d, Tree) names o' -> usable o').
  { intros names o' L. apply (LT _ _ R T F ND) in L.
    destruct L as [[_ ->]|(nm & ob & rest & _ & Hin & L)]; [|exact (U2 nm ob rest o' Hin L)].
    exists p. split; [exact R|]. intros _. exists g. split; [exact T|exact I3]. }
  assert (C : pre = [] /\ String.concat "/" pre = "" \/
              pre <> [] /\ String.concat "/" pre <> "").
  { destruct pre as [|x pre]; [left; auto|right]. split; [discriminate|].
    intro E. apply concat_empty in E; [discriminate|exact Fp]. }
  destruct C as [[-> E]|[N E]].
  - rewrite E. cbn [app]. exists ps. split; [exact F3|]. split; [exact S2|].
    split; [|exact U]. intros names. rewrite M2. split.
    + intros (nm & ob & rest & o' & -> & Hin & L). split; [|discriminate].
      exists o'. exact (leads_child d p g l nm ob rest o' R T F Hin L).
    + intros [[o' L] X]. apply (LT _ _ R T F ND) in L.
      destruct L as [[-> _]|(nm & ob & rest & -> & Hin & L)]; [now elim (X eq_refl)|].
      exists nm, ob, rest, o'. auto.
  - assert (D : (match String.concat "/" pre with "" => []
      | _ => [mkEntry (String.concat "/" pre) AE_IFDIR kDefaultPerm ""] end) =
      [mkEntry (String.concat "/" pre) AE_IFDIR kDefaultPerm ""]).
    { destruct (String.concat "/" pre); [congruence|reflexivity]. }
    rewrite D. cbn [app]. exists ([] :: ps). split; [|split; [|split; [|exact U]]].
    + constructor; [|exact F3]. exists (d, Tree), p. split; [constructor|].
      split; [exact R|]. cbn [snd e_path e_type e_perm e_data]. rewrite app_nil_r.
      split; [reflexivity|]. repeat split.
    + constructor; [exact S2|]. apply Forall_forall. intros x Hx. apply M2 in Hx.
      destruct Hx as (nm & ob & rest & o' & -> & _). exact Logic.I.
    + intros names. cbn [In]. rewrite M2. split.
      * intros [<-|(nm & ob & rest & o' & -> & Hin & L)].
        -- split; [exists (d, Tree); constructor|intro X; congruence].
        -- split; [|intro X; congruence].
           exists o'. exact (leads_child d p g l nm ob rest o' R T F Hin L).
      * intros [[o' L] _]. apply (LT _ _ R T F ND) in L.
        destruct L as [[-> _]|(nm & ob & rest & -> & Hin & L)]; [now left|right].
        exists nm, ob, rest, o'. auto.
Qed.

(** * Success and failure *)

Lemma add_all_result (f : digest * otype -> string -> option (list entry * bool)) loc l :
  (forall nm ob, In (nm, ob) l -> forall lc, exists es, f ob lc = Some (es, true)) ->
  exists es, add_all digest f loc l = Some (es, true).
Proof.
  induction l as [|[nm ob] l IH]; intro H; cbn [add_all]; [now exists []|].
  destruct (H nm ob (or_introl eq_refl) (path_join loc nm)) as [e1 E1]. rewrite E1.
  destruct IH as [e2 E2]; [intros; apply (H nm0); now right|]. rewrite E2.
  now exists (e1 ++ e2).
Qed.

Lemma all_complete n : forall o loc,
  (forall names o', leads o names o' -> usable o' /\ length names < n) ->
  exists es, add n o loc = Some (es, true).
Proof.
  induction n as [|n IH]; intros [d t] loc H.
  - destruct (H [] (d, t)) as [_ L]; [constructor|]. cbn [length] in L. lia.
  - cbn [add_to_archive].
    destruct (H [] (d, t)) as [(p & R & U) _]; [constructor|]. rewrite R. cbn [snd fst] in *.
    destruct t; try (eexists; reflexivity).
    destruct (U eq_refl) as (g & T & C). rewrite T.
    destruct (flatten g) as [l|] eqn:F.
    + destruct (add_all_result (add n) loc (by_name l)) as [es E].
      { intros nm ob Hin lc. apply IH. intros names o' L.
        destruct (H (nm :: names) o') as [U' L'].
        { exact (leads_child d p g l nm ob names o' R T F Hin L). }
        split; [exact U'|]. cbn [length] in L'. lia. }
      rewrite E. eexists; reflexivity.
    + destruct (flatten_none g F) as (h & es & nm & t & H1 & H2 & H3).
      exfalso. exact (C h es nm t H1 H2 H3).
Qed.

Lemma add_all_failed (f : digest * otype -> string -> option (list entry * bool)) loc l es :
  add_all digest f loc l = Some (es, false) ->
  exists nm ob lc es', In (nm, ob) l /\ f ob lc = Some (es', false).
Proof.
  revert es. induction l as [|[nm ob] l IH]; intros es; cbn [add_all]; [discriminate|].
  destruct (f ob (path_join loc nm)) as [[e1 [|]]|] eqn:E1; [| |discriminate].
  - destruct (add_all digest f loc l) as [[e2 b]|]; [|discriminate].
    intro H. assert (b = false) by congruence. subst b.
    destruct (IH e2 eq_refl) as (nm' & ob' & lc & es' & Hin & E).
    exists nm', ob', lc, es'. split; [now right|exact E].
  - intros _. exists nm, ob, (path_join loc nm), e1. split; [now left|exact E1].
Qed.

Lemma all_failed n : forall o loc es, add n o loc = Some (es, false) ->
  exists names o', leads o names o' /\ ~ usable o'.
Proof.
  induction n as [|n IH]; intros [d t] loc es; [discriminate|]. cbn [add_to_archive].
  destruct (retrieve (d, t)) as [p|] eqn:R.
  2:{ intros _. exists [], (d, t). split; [constructor|]. intros (p & R' & _). congruence. }
  cbn [snd fst]. destruct t; try discriminate.
  destruct (ReadTreeData p d) as [g|] eqn:T.
  2:{ intros _. exists [], (d, Tree). split; [constructor|]. intros (p' & R' & U).
      destruct (U eq_refl) as (g & T' & _). cbn [fst] in T'. congruence. }
  destruct (flatten g) as [l|] eqn:F.
  2:{ intros _. exists [], (d, Tree). split; [constructor|]. intros (p' & R' & U).
      destruct (U eq_refl) as (g' & T' & C). cbn [fst] in T'.
      assert (p' = p) by congruence. subst p'. assert (g' = g) by congruence. subst g'.
      destruct (flatten_none g F) as (h & es' & nm & t & H1 & H2 & H3).
      exact (C h es' nm t H1 H2 H3). }
  destruct (add_all digest (add n) loc (by_name l)) as [[es' b]|] eqn:A; [|discriminate].
  intro H. assert (b = false) by congruence. subst b.
  destruct (add_all_failed _ _ _ _ A) as (nm & ob & lc & es2 & Hin & E).
  destruct (IH ob lc es2 E) as (names & o' & L & N).
  exists (nm :: names), o'. split; [|exact N].
  exact (leads_child d p g l nm ob names o' R T F Hin L).
Qed.

Lemma written_all es : forall i, written (fun _ => true) i es = es.
Proof. induction es as [|e es IH]; intro i; cbn [written]; [reflexivity|now rewrite IH]. Qed.
End S.

(** * Only one order *)

Lemma before_asym a : forall b, before a b -> before b a -> False.
Proof.
  induction a as [|x a IH]; intros [|y b]; cbn [before]; try tauto.
  intros [L|[-> B]] [L'|[E B']].
  - exact (str_lt_asym _ _ L L').
  - subst. exact (str_lt_irrefl _ L).
  - exact (str_lt_irrefl _ L').
  - exact (IH b B B').
Qed.

Lemma sorted_unique ps : forall ps', StronglySorted before ps -> StronglySorted before ps' ->
  (forall x, In x ps <-> In x ps') -> ps = ps'.
Proof.
  induction ps as [|a ps IH]; intros [|a' ps'] S S' M.
  - reflexivity.
  - exfalso. apply (proj2 (M a')). now left.
  - exfalso. apply (proj1 (M a)). now left.
  - inversion S as [|? ? S1 F]; subst. inversion S' as [|? ? S1' F']; subst.
    rewrite Forall_forall in F, F'.
    assert (E : a = a').
    { destruct (proj1 (M a) (or_introl eq_refl)) as [E|H]; [auto|].
      destruct (proj2 (M a') (or_introl eq_refl)) as [E|H']; [auto|].
      exfalso. exact (before_asym _ _ (F' a H) (F a' H')). }
    subst a'. f_equal. apply IH; [exact S1|exact S1'|].
    intro x. split; intro H.
    + destruct (proj1 (M x) (or_intror H)) as [E|H']; [|exact H'].
      subst x. exfalso. exact (before_asym _ _ (F a H) (F a H)).
    + destruct (proj2 (M x) (or_intror H)) as [E|H']; [|exact H'].
      subst x. exfalso. exact (before_asym _ _ (F' a H) (F' a H)).
Qed.

Lemma nodup_fst {A B} (l : list (A * B)) k v v' :
  NoDup (map fst l) -> In (k, v) l -> In (k, v') l -> v = v'.
Proof.
  induction l as [|[k0 v0] l IH]; [intros _ []|]. cbn [map fst]. intros ND H H'.
  inversion ND as [|? ? N ND']; subst.
  destruct H as [E|H], H' as [E'|H'].
  - congruence.
  - injection E as -> ->. exfalso. apply N. apply in_map_iff. exists (k, v'). auto.
  - injection E' as -> ->. exfalso. apply N. apply in_map_iff. exists (k, v). auto.
  - exact (IH ND' H H').
Qed.

Lemma unique_entry {raw} (g : list (raw * list (string * otype))) nm h t es h' t' es' :
  NoDup (flat_map (fun e => map fst (snd e)) g) ->
  In (h, es) g -> In (nm, t) es -> In (h', es') g -> In (nm, t') es' -> h = h' /\ t = t'.
Proof.
  intros ND H1 H2 H1' H2'.
  set (L := flat_map (fun e => map (fun x => (fst x, (fst e, snd x))) (snd e)) g).
  assert (E : map fst L = flat_map (fun e => map fst (snd e)) g).
  { unfold L. clear. induction g as [|[h es] g IH]; cbn [flat_map]; [reflexivity|].
    rewrite map_app, IH. f_equal. cbn [snd fst]. rewrite map_map. reflexivity. }
  rewrite <- E in ND.
  assert (X : (h, t) = (h', t')).
  { apply (nodup_fst L nm); [exact ND|..]; unfold L; apply in_flat_map.
    - exists (h, es). split; [exact H1|]. apply in_map_iff. exists (nm, t). auto.
    - exists (h', es'). split; [exact H1'|]. apply in_map_iff. exists (nm, t'). auto. }
  injection X as -> ->. auto.
Qed.

Lemma leads_det digest raw retrieve R create o names o1 :
  proper_trees digest raw R -> leads digest raw retrieve R create o names o1 ->
  forall o2, leads digest raw retrieve R create o names o2 -> o1 = o2.
Proof.
  intros PT L. induction L as [o|o name h t d names o1 H C L IH]; intros o2 L2.
  - now inversion L2.
  - inversion L2 as [|o' name' h' t' d' names' o2' H' C' L' E1 E2 E3]; subst.
    destruct H as (d0 & p & g & es & E & Rt & T & H1 & H2).
    destruct H' as (d0' & p' & g' & es' & E' & Rt' & T' & H1' & H2').
    assert (d0' = d0) by congruence. subst d0'. assert (p' = p) by congruence. subst p'.
    assert (g' = g) by congruence. subst g'.
    destruct (unique_entry g name h t es h' t' es' (proj1 (PT p d0 g T)) H1 H2 H1' H2')
      as [<- <-].
    assert (d' = d) by congruence. subst d'. exact (IH o2 L').
Qed.
