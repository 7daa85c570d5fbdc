(** Directory trees from paths. *)
From Coq Require Import String Ascii List Bool NArith ZArith Arith Permutation Lia.
From Verif Require Import Common.Strs Hex.Model GitTree.Model GitTree.Spec GitTree.Proofs TreeOps.Spec
  Path.Model Path.Spec Path.Proofs Path.Proofs2 Upload.Model Upload.Spec.
Import ListNotations.
Local Open Scope string_scope.
Local Open Scope list_scope.

(** ** Paths *)

Lemma elements_rel ns tl : ns <> [] -> Forall goodname ns -> (tl = "" \/ tl = "/") ->
  elements (pre false ++ join_slash ns ++ tl)%string = ns ++ (if String.eqb tl "" then [] else [""]).
Proof.
  intros N G [->| ->]; unfold elements.
  - rewrite app_str_nil_r. assert (A := is_absolute_pre false ns "" N G). rewrite app_str_nil_r in A. rewrite A.
    cbn [app]. rewrite (rel_elements_join false ns N G), app_nil_r. reflexivity.
  - rewrite (is_absolute_pre false ns "/" N G). cbn [app].
    rewrite (rel_elements_join_slash false ns N G). reflexivity.
Qed.

Lemma last_split_app (s : string) l : split_slash s = l -> last (split_slash s) "" = last l "".
Proof. now intros ->. Qed.

(** If the last component is a name, the normal form has no trailing slash. *)
Lemma normal_no_slash s : plain (last (split_slash s) "") -> 
  lexically_normal s = (pre (is_absolute s) ++ join_slash (names (place_of s)))%string /\ names (place_of s) <> [].
Proof.
  intros P.
  assert (Hs : s <> "") by (intros ->; destruct P as [P _]; cbn in P; congruence).
  destruct (exists_last (split_nonnil s)) as (l & c & E). rewrite E, last_last in P.
  assert (Hf : has_filename s = true).
  { unfold has_filename, filename. rewrite E, last_last. apply nonempty_true, P. }
  assert (Er : rel_elements s = filter nonempty l ++ [c]).
  { unfold rel_elements. rewrite Hf, Bool.andb_false_r, E, filter_app. f_equal. cbn.
    rewrite (nonempty_true c (proj1 P)). reflexivity. }
  unfold lexically_normal. destruct s as [|a r]; [congruence|]. set (s := String a r) in *. clearbody s.
  destruct (normal_fold s) as [tr En]. rewrite En.
  assert (Etr : tr = false /\ exists d, stk (place_of s) = c :: d).
  { rewrite Er, fold_left_app in En. cbn [fold_left] in En.
    destruct (fold_left (normal_step (is_absolute s)) (filter nonempty l) ([], false)) as [st0 tr0].
    unfold normal_step in En. destruct P as (P1 & P2 & P3 & _).
    rewrite (proj2 (String.eqb_neq c "") P1), (proj2 (String.eqb_neq c ".") P2), (proj2 (String.eqb_neq c "..") P3) in En.
    cbn [orb] in En. injection En as E1 E2. split; [now symmetry|]. rewrite <- E1. eauto. }
  destruct Etr as [-> [d Ed]]. rewrite Ed. cbn [andb]. rewrite app_str_nil_r.
  rewrite <- Ed, rev_stk. split; [reflexivity|].
  rewrite <- rev_stk, Ed. intros X. apply (f_equal (@List.length string)) in X. rewrite rev_length in X. discriminate X.
Qed.

Lemma tidy_elements p : tidy p -> is_absolute p = false -> p <> "" ->
  lexically_normal p <> "" /\ is_absolute (lexically_normal p) = false /\
  elements (lexically_normal p) = match names (place_of p) with [] => ["."] | ns => ns end.
Proof.
  intros [P|P] A Hs.
  - destruct (normal_no_slash p P) as [E N]. rewrite E, A.
    assert (G := names_good _ _ (place_of_wf p)).
    assert (X := is_absolute_pre false _ "" N G). rewrite app_str_nil_r in X.
    assert (Y := elements_rel _ "" N G (or_introl eq_refl)). rewrite app_str_nil_r in Y. cbn in Y. rewrite app_nil_r in Y.
    repeat split.
    + now apply pre_join_nonempty.
    + exact X.
    + cbn [pre String.append]. rewrite Y. destruct (names (place_of p)); [congruence|reflexivity].
  - rewrite ToNormalPath_render in P. unfold render in P.
    assert (G := names_good _ _ (place_of_wf p)).
    destruct (lexically_normal_shape p Hs) as [[N E]|[N (tl & T & E & _)]].
    + rewrite E, A, N. repeat split. discriminate.
    + rewrite A in *. assert (Et : tl = "").
      { destruct T as [T|T]; [exact T|]. exfalso. subst tl.
        assert (F1 := has_filename_pre_join_slash false _ N G). rewrite <- E in F1.
        assert (F2 := has_filename_pre_join false _ N G).
        destruct (names (place_of p)) as [|n ns] eqn:En; [congruence|]. rewrite P in F2.
        (* a path in normal form is its own lexical normal form *)
        assert (Sp : split_slash p = n :: ns).
        { rewrite <- P. change (split_slash (join_slash (n :: ns)) = n :: ns). apply split_join; [discriminate|now apply goodname_sfree]. }
        assert (L : plain (last (split_slash p) "") \/ Forall (fun c => c = "..") (n :: ns)).
        { rewrite Sp, <- En. unfold names. destruct (down (place_of p)) as [|x d] eqn:Ed.
          - right. rewrite app_nil_r. apply Forall_forall. intros c Hc. now apply repeat_spec in Hc.
          - left. cbn [rev]. rewrite app_assoc, last_last. apply okname_plain.
            assert (W := place_of_wf p). destruct W as [W _]. rewrite Ed in W. now inversion W. }
        destruct L as [L|L].
        - destruct (normal_no_slash p L) as [E' _]. rewrite A in E'. rewrite E, En in E'. cbn [pre] in E'.
          change ("" ++ join_slash (n :: ns) ++ "/")%string with (join_slash (n :: ns) ++ "/")%string in E'.
          change ("" ++ join_slash (n :: ns))%string with (join_slash (n :: ns)) in E'.
          apply (f_equal String.length) in E'. rewrite app_str_length in E'. cbn in E'. lia.
        - destruct (lexically_normal_shape p Hs) as [[N' _]|[_ (tl' & T' & E' & U)]]; [congruence|].
          rewrite E in E'. rewrite A, En in E'. apply app_str_inv_head in E'. apply app_str_inv_head in E'. subst tl'.
          assert (X : up (place_of p) > 0 /\ down (place_of p) = []).
          { destruct (down (place_of p)) as [|x d] eqn:Ed.
            - split; [|reflexivity]. unfold names in En. rewrite Ed in En. cbn in En. rewrite app_nil_r in En.
              destruct (up (place_of p)); [discriminate|lia].
            - exfalso. assert (W := place_of_wf p). destruct W as [W _]. rewrite Ed in W. inversion W as [|? ? W1 _]; subst.
              rewrite Forall_forall in L. destruct W1 as (_ & _ & W1 & _). apply W1. apply L. rewrite <- En.
              unfold names. rewrite Ed. apply in_or_app. right. cbn. apply in_or_app. right. now left. }
          specialize (U (proj1 X) (proj2 X)). discriminate U. }
      subst tl. rewrite app_str_nil_r in E. rewrite E.
      assert (X := is_absolute_pre false _ "" N G). rewrite app_str_nil_r in X.
      assert (Y := elements_rel _ "" N G (or_introl eq_refl)). rewrite app_str_nil_r in Y. cbn in Y. rewrite app_nil_r in Y.
      repeat split; [now apply pre_join_nonempty|exact X|].
      cbn [pre String.append]. rewrite Y. destruct (names (place_of p)); [congruence|reflexivity].
Qed.

Lemma inside_iff p : inside p <-> is_absolute p = false /\ up (place_of p) = 0 /\ down (place_of p) <> [].
Proof.
  unfold inside, segments. split.
  - intros (A & B & C). split; [exact A|]. split.
    + unfold place_of. rewrite A. now apply up_zero_never_above.
    + intros E. apply C. now rewrite E.
  - intros (A & B & C). split; [exact A|]. split.
    + apply up_zero_never_above. unfold place_of in B. now rewrite A in B.
    + intros E. apply C. rewrite <- (rev_involutive (down (place_of p))), E. reflexivity.
Qed.

Lemma segments_ok p : Forall okname (segments p).
Proof. unfold segments. apply Forall_rev. exact (proj1 (place_of_wf p)). Qed.

Lemma step_In abs l c x : In x (down (Path.Spec.step abs l c)) -> x = c \/ In x (down l).
Proof.
  unfold Path.Spec.step. destruct (String.eqb c ""); [auto|]. destruct (String.eqb c "."); [auto|].
  destruct (String.eqb c "..").
  - destruct (down l) as [|y d] eqn:E; [destruct abs; cbn; rewrite ?E; auto|cbn; auto].
  - cbn. intuition.
Qed.
Lemma walk_In abs cs : forall l x, In x (down (fold_left (Path.Spec.step abs) cs l)) -> In x cs \/ In x (down l).
Proof.
  induction cs as [|c r IH]; cbn; intros l x Hx; [auto|].
  apply IH in Hx. destruct Hx as [Hx|Hx]; [auto|]. apply step_In in Hx. intuition.
Qed.
Lemma segments_split p x : In x (segments p) -> In x (split_slash p).
Proof.
  unfold segments. rewrite <- in_rev. unfold place_of, walk. intros Hx. apply walk_In in Hx. destruct Hx as [Hx|[]]. exact Hx.
Qed.

Lemma segments_valid p : nameable p -> Forall valid_name (segments p).
Proof.
  intros N. apply Forall_forall. intros x Hx. assert (O := proj1 (Forall_forall _ _) (segments_ok p) _ Hx).
  apply segments_split in Hx. unfold nameable in N. rewrite Forall_forall in N. destruct (N x Hx) as [N1 N2].
  apply okname_plain in O. destruct O as (O1 & _ & _ & O4). split; [exact O1|]. split; [exact O4|]. split; [exact N1|exact N2].
Qed.

(** ** Adding artifacts *)

(** What is at a nonempty path in a directory tree: an artifact, or a directory. *)
Inductive dobj := DO_art (a : option TreeOps.Model.info) | DO_dir.
Fixpoint dlook (ns : list (string * dtree)) (q : list string) : option dobj :=
  match q with
  | [] => Some DO_dir
  | x :: r =>
      match alookup x ns with
      | Some (DArt a) => match r with [] => Some (DO_art a) | _ => None end
      | Some (DDir sub) => dlook sub r
      | None => None
      end
  end.

Lemma alookup_snoc {V} x k (v : V) ns : alookup k ns = None ->
  alookup x (ns ++ [(k, v)]) = if String.eqb x k then Some v else alookup x ns.
Proof.
  intros N. induction ns as [|[k' v'] r IH]; cbn [app alookup].
  - cbn. destruct (String.eqb x k); reflexivity.
  - cbn [alookup] in N. destruct (String.eqb_spec k k'); [discriminate|]. rewrite (IH N).
    destruct (String.eqb_spec x k'), (String.eqb_spec x k); congruence.
Qed.
Lemma alookup_assign x k v ns w : alookup k ns = Some w ->
  alookup x (assign k v ns) = if String.eqb x k then Some v else alookup x ns.
Proof.
  induction ns as [|[k' v'] r IH]; cbn [assign alookup]; [discriminate|].
  destruct (String.eqb_spec k k').
  - subst k'. intros _. cbn [alookup]. destruct (String.eqb_spec x k); reflexivity.
  - intros E. cbn [alookup]. rewrite (IH E). destruct (String.eqb_spec x k'), (String.eqb_spec x k); congruence.
Qed.

(** Directories have no duplicate names, recursively, and names are valid; no directory is empty. *)
Inductive dgood (P : string -> Prop) : list (string * dtree) -> Prop :=
| dgood_intro ns : NoDup (keys ns) -> (forall x t, In (x, t) ns -> P x) ->
    (forall x sub, In (x, DDir sub) ns -> dgood P sub /\ sub <> []) -> dgood P ns.

Definition proper_prefix (p q : list string) : Prop := exists r, q = p ++ r /\ r <> [].
Lemma proper_prefix_cons x p q : proper_prefix (x :: p) q <-> exists q', q = x :: q' /\ proper_prefix p q'.
Proof.
  split.
  - intros (r & -> & N). exists (p ++ r). split; [reflexivity|]. exists r. auto.
  - intros (q' & -> & r & -> & N). exists r. auto.
Qed.
Lemma proper_prefix_nil q : proper_prefix [] q <-> q <> [].
Proof. split; [intros (r & -> & N); exact N|intros N; exists q; auto]. Qed.

Definition segs_ok (segs : list string) : Prop := segs <> [] /\ Forall okname segs.
Lemma okname_not_dot s : okname s -> (String.eqb s "." || String.eqb s "..")%bool = false.
Proof. intros (_ & A & B & _). now rewrite (proj2 (String.eqb_neq _ _) A), (proj2 (String.eqb_neq _ _) B). Qed.

Lemma In_assign k v ns p : In p (assign k v ns) -> p = (k, v) \/ In p ns.
Proof.
  induction ns as [|[k' v'] r IH]; cbn; [auto|]. destruct (String.eqb k k'); cbn; intuition.
Qed.
Lemma keys_assign k v ns : keys (assign k v ns) = keys ns.
Proof.
  induction ns as [|[k' v'] r IH]; cbn; [reflexivity|]. destruct (String.eqb_spec k k'); cbn; [now subst|].
  unfold keys in *. now rewrite IH.
Qed.
Lemma assign_nil k v ns : assign k v ns = [] -> ns = [].
Proof. destruct ns as [|[k' v'] r]; cbn; [auto|]. destruct (String.eqb k k'); discriminate. Qed.

(** When it succeeds. *)
Lemma add_success segs : forall a ns, segs_ok segs ->
  ((exists ns', add_segments segs a ns = Some ns') <->
   dlook ns segs = None /\ forall q, proper_prefix q segs -> dlook ns q = None \/ dlook ns q = Some DO_dir).
Proof.
  induction segs as [|seg rest IH]; intros a ns [N O]; [congruence|]. inversion O as [|? ? O1 O2]; subst.
  cbn [add_segments]. rewrite (okname_not_dot _ O1). destruct rest as [|s2 rest'].
  - cbn [dlook]. destruct (alookup seg ns) as [t|] eqn:E.
    + split; [intros [ns' X]; discriminate|]. intros [X _]. destruct t; discriminate.
    + split; [|intros _; eauto]. intros _. split; [reflexivity|]. intros q (r & Eq & Nr).
      destruct q as [|x q]; [right; reflexivity|]. exfalso. cbn in Eq. injection Eq as _ Eq. symmetry in Eq.
      apply app_eq_nil in Eq. intuition.
  - set (rest := s2 :: rest') in *. assert (Ok : segs_ok rest) by (split; [discriminate|exact O2]).
    cbn [dlook]. destruct (alookup seg ns) as [[art|sub]|] eqn:E.
    + split; [intros [ns' X]; discriminate|]. intros [_ X].
      assert (Pp : proper_prefix [seg] (seg :: rest)) by (exists rest; split; [reflexivity|discriminate]).
      specialize (X _ Pp). cbn [dlook] in X. rewrite E in X. destruct X; discriminate.
    + specialize (IH a sub Ok). split.
      * intros [ns' X]. destruct (add_segments rest a sub) as [sub'|] eqn:A; [|discriminate].
        destruct (proj1 IH) as [I1 I2]; [eauto|]. split; [exact I1|].
        intros q Q. destruct q as [|x q]; [right; reflexivity|]. apply proper_prefix_cons in Q. destruct Q as (q' & Eq & Q).
        injection Eq as <- <-. cbn [dlook]. rewrite E. apply I2. exact Q.
      * intros [X1 X2]. destruct (proj2 IH) as [sub' A]; [|rewrite A; eauto]. split; [exact X1|].
        intros q Q. specialize (X2 (seg :: q)). cbn [dlook] in X2. rewrite E in X2. apply X2.
        apply proper_prefix_cons. eauto.
    + split; [|intros _]. 
      * intros _. split; [reflexivity|]. intros q Q. destruct q as [|x q]; [right; reflexivity|].
        apply proper_prefix_cons in Q. destruct Q as (q' & Eq & Q). injection Eq as <- <-. cbn [dlook]. rewrite E. auto.
      * specialize (IH a [] Ok). destruct (proj2 IH) as [sub' A]; [|rewrite A; eauto].
        split; [reflexivity|]. intros q Q. destruct q; [right; reflexivity|left; reflexivity].
Qed.

Lemma add_nonempty segs : forall a ns ns', add_segments segs a ns = Some ns' -> ns' <> [].
Proof.
  intros a ns ns' E. destruct segs as [|seg rest]; [discriminate|]. cbn [add_segments] in E.
  destruct (String.eqb seg "." || String.eqb seg "..")%bool; [discriminate|].
  destruct rest.
  - destruct (alookup seg ns); [discriminate|]. injection E as <-. destruct ns; discriminate.
  - destruct (alookup seg ns) as [[|sub]|] eqn:L; [discriminate| |].
    + destruct (add_segments _ a sub); [|discriminate]. injection E as <-. intros X. apply assign_nil in X. subst. discriminate.
    + destruct (add_segments _ a []); [|discriminate]. injection E as <-. destruct ns; discriminate.
Qed.

(** What it does. *)
Lemma add_dlook segs : forall a ns ns', segs_ok segs -> add_segments segs a ns = Some ns' ->
  dlook ns' segs = Some (DO_art a) /\
  (forall q, proper_prefix q segs -> dlook ns' q = Some DO_dir) /\
  (forall q, q <> segs -> ~ proper_prefix q segs -> dlook ns' q = dlook ns q).
Proof.
  induction segs as [|seg rest IH]; intros a ns ns' [N O] E; [congruence|]. inversion O as [|? ? O1 O2]; subst.
  cbn [add_segments] in E. rewrite (okname_not_dot _ O1) in E. destruct rest as [|s2 rest'].
  - destruct (alookup seg ns) as [t|] eqn:L; [discriminate|]. injection E as <-.
    assert (LL := fun x => alookup_snoc x seg (DArt a) ns L). split; [|split].
    + cbn [dlook]. rewrite LL, String.eqb_refl. reflexivity.
    + intros q Q. destruct q as [|x q]; [reflexivity|]. apply proper_prefix_cons in Q. destruct Q as (q' & Eq & Q).
      injection Eq as <- <-. destruct Q as (r & Q & Nr). symmetry in Q. apply app_eq_nil in Q. intuition.
    + intros q Q1 Q2. destruct q as [|x q]; [reflexivity|]. cbn [dlook]. rewrite LL.
      destruct (String.eqb_spec x seg); [|reflexivity]. subst x. rewrite L. destruct q; [congruence|reflexivity].
  - set (rest := s2 :: rest') in *. assert (Ok : segs_ok rest) by (split; [discriminate|exact O2]).
    assert (Main : forall sub0 sub', add_segments rest a sub0 = Some sub' ->
      (forall x, alookup x ns' = if String.eqb x seg then Some (DDir sub') else alookup x ns) ->
      (forall q, q <> [] -> dlook sub0 q = dlook ns (seg :: q)) ->
      dlook ns' (seg :: rest) = Some (DO_art a) /\
      (forall q, proper_prefix q (seg :: rest) -> dlook ns' q = Some DO_dir) /\
      (forall q, q <> seg :: rest -> ~ proper_prefix q (seg :: rest) -> dlook ns' q = dlook ns q)).
    { intros sub0 sub' A LL Sub. destruct (IH a sub0 sub' Ok A) as (I1 & I2 & I3). split; [|split].
      - cbn [dlook]. rewrite LL, String.eqb_refl. exact I1.
      - intros q Q. destruct q as [|x q]; [reflexivity|]. apply proper_prefix_cons in Q. destruct Q as (q' & Eq & Q).
        injection Eq as <- <-. cbn [dlook]. rewrite LL, String.eqb_refl. apply I2. exact Q.
      - intros q Q1 Q2. destruct q as [|x q]; [reflexivity|]. destruct (String.eqb_spec x seg).
        + subst x. destruct q as [|y q]; [exfalso; apply Q2; exists rest; split; [reflexivity|discriminate]|].
          rewrite <- Sub by discriminate. rewrite <- I3.
          * cbn [dlook]. rewrite LL, String.eqb_refl. reflexivity.
          * congruence.
          * intros X. apply Q2. apply proper_prefix_cons. eauto.
        + cbn [dlook]. rewrite LL. rewrite (proj2 (String.eqb_neq x seg) n). reflexivity. }
    destruct (alookup seg ns) as [[art|sub]|] eqn:L; [discriminate| |].
    + destruct (add_segments rest a sub) as [sub'|] eqn:A; [|discriminate]. injection E as <-.
      apply (Main sub sub' A).
      * intros x. eapply alookup_assign. exact L.
      * intros q Nq. cbn [dlook]. rewrite L. reflexivity.
    + destruct (add_segments rest a []) as [sub'|] eqn:A; [|discriminate]. injection E as <-.
      apply (Main [] sub' A).
      * intros x. apply alookup_snoc. exact L.
      * intros q Nq. cbn [dlook]. rewrite L. destruct q; [congruence|reflexivity].
Qed.

Lemma add_dgood (P : string -> Prop) segs : forall a ns ns', Forall P segs -> dgood P ns ->
  add_segments segs a ns = Some ns' -> dgood P ns'.
Proof.
  induction segs as [|seg rest IH]; intros a ns ns' O G E; [discriminate|]. inversion O as [|? ? O1 O2]; subst.
  inversion G as [? ND Ks Subs]; subst. cbn [add_segments] in E.
  destruct (String.eqb seg "." || String.eqb seg "..")%bool; [discriminate|].
  assert (Snoc : forall v, alookup seg ns = None -> (forall sub, v = DDir sub -> dgood P sub /\ sub <> []) -> dgood P (ns ++ [(seg, v)])).
  { intros v L Sv. constructor.
    - unfold keys. rewrite map_app. apply (Permutation_NoDup (Permutation_app_comm [seg] _)). cbn. constructor; [|exact ND].
      now apply alookup_None.
    - intros x t Hx. apply in_app_iff in Hx. destruct Hx as [Hx|[Hx|[]]]; [eauto|]. injection Hx as <- <-. exact O1.
    - intros x sub Hx. apply in_app_iff in Hx. destruct Hx as [Hx|[Hx|[]]]; [eauto|]. injection Hx as <- Hv. auto. }
  destruct rest as [|s2 rest'].
  - destruct (alookup seg ns) eqn:L; [discriminate|]. injection E as <-. apply Snoc; [reflexivity|]. intros; discriminate.
  - destruct (alookup seg ns) as [[art|sub]|] eqn:L; [discriminate| |].
    + destruct (add_segments (s2 :: rest') a sub) as [sub'|] eqn:A; [|discriminate]. injection E as <-.
      destruct (Subs seg sub (alookup_In _ _ _ L)) as [Gs _].
      constructor.
      * rewrite keys_assign. exact ND.
      * intros x t Hx. apply In_assign in Hx. destruct Hx as [Hx|Hx]; [injection Hx as -> _; exact O1|eauto].
      * intros x sub2 Hx. apply In_assign in Hx. destruct Hx as [Hx|Hx]; [|eauto]. injection Hx as -> ->.
        split; [eapply IH; eassumption|eapply add_nonempty; eassumption].
    + destruct (add_segments (s2 :: rest') a []) as [sub'|] eqn:A; [|discriminate]. injection E as <-.
      apply Snoc; [reflexivity|]. intros sub X. injection X as <-.
      split; [|eapply add_nonempty; eassumption]. eapply IH; [exact O2| |exact A]. constructor; [constructor|intros x t []|intros x s []].
Qed.

Lemma AddArtifact_inside p a ns : tidy p -> inside p -> AddArtifact p a ns = add_segments (segments p) a ns.
Proof.
  intros T I. apply inside_iff in I. destruct I as (A & U & D). unfold AddArtifact.
  assert (Hp : p <> "") by (intros ->; apply D; reflexivity).
  destruct (tidy_elements p T A Hp) as (E1 & E2 & E3). rewrite (nonempty_true _ E1), E2, E3. cbn [negb orb].
  unfold segments. unfold names. rewrite U. cbn [repeat app].
  destruct (rev (down (place_of p))) eqn:R; [|reflexivity].
  exfalso. apply D. rewrite <- (rev_involutive (down (place_of p))), R. reflexivity.
Qed.
Lemma AddArtifact_outside p a ns : tidy p -> ~ inside p -> AddArtifact p a ns = None.
Proof.
  intros T I. unfold AddArtifact. destruct (string_dec p "") as [->|Hp]; [reflexivity|].
  destruct (is_absolute p) eqn:A.
  - (* normal forms of absolute paths are absolute *)
    assert (X : is_absolute (lexically_normal p) = true).
    { destruct (lexically_normal_shape p Hp) as [[N E]|[N (tl & Tl & E & _)]]; rewrite E, A; [reflexivity|].
      apply is_absolute_pre; [exact N|]. exact (names_good _ _ (place_of_wf p)). }
    rewrite X, Bool.orb_true_r. reflexivity.
  - destruct (tidy_elements p T A Hp) as (E1 & E2 & E3). rewrite (nonempty_true _ E1), E2, E3. cbn [negb orb].
    unfold names. destruct (up (place_of p)) as [|u] eqn:U.
    + cbn [repeat app]. destruct (rev (down (place_of p))) eqn:R; [reflexivity|].
      exfalso. apply I. apply inside_iff. split; [exact A|]. split; [exact U|]. intros D. rewrite D in R. discriminate R.
    + reflexivity.
Qed.

(** ** All artifacts *)

Definition segs_of (l : list (string * option TreeOps.Model.info)) : list (list string * option TreeOps.Model.info) :=
  map (fun p => (segments (fst p), snd p)) l.

Definition placed (l : list (list string * option TreeOps.Model.info)) (ns : list (string * dtree)) : Prop :=
  (forall q a, dlook ns q = Some (DO_art a) <-> In (q, a) l) /\
  (forall q, dlook ns q = Some DO_dir <-> q = [] \/ exists p a, In (p, a) l /\ proper_prefix q p).

Definition free_pairs (l : list (list string * option TreeOps.Model.info)) : Prop :=
  forall i j a b, nth_error l i = Some a -> nth_error l j = Some b -> i <> j -> ~ prefix (fst a) (fst b).

Lemma prefix_cases p q : prefix p q <-> p = q \/ proper_prefix p q.
Proof.
  split.
  - intros (r & ->). destruct r; [left; now rewrite app_nil_r|right; exists (s :: r); split; [reflexivity|discriminate]].
  - intros [->|(r & -> & _)]; [exists []; now rewrite app_nil_r|exists r; reflexivity].
Qed.

Lemma list_string_dec (p q : list string) : {p = q} + {p <> q}.
Proof. apply list_eq_dec, string_dec. Qed.

Lemma prefix_dec (p q : list string) : {proper_prefix p q} + {~ proper_prefix p q}.
Proof.
  revert q. induction p as [|x p IH]; intros q.
  - destruct q as [|y q]; [right; intros X; apply proper_prefix_nil in X; congruence|left; apply proper_prefix_nil; discriminate].
  - destruct q as [|y q]; [right; intros X; apply proper_prefix_cons in X; destruct X as (q' & X & _); discriminate|].
    destruct (string_dec x y) as [->|Nx].
    + destruct (IH q) as [A|A]; [left|right].
      * apply proper_prefix_cons. eauto.
      * intros X. apply proper_prefix_cons in X. destruct X as (q' & E & X). injection E as <-. contradiction.
    + right. intros X. apply proper_prefix_cons in X. destruct X as (q' & E & X). congruence.
Qed.

Lemma placed_add l ns segs a ns' : segs_ok segs -> placed l ns -> add_segments segs a ns = Some ns' ->
  placed (l ++ [(segs, a)]) ns'.
Proof.
  intros Ok [P1 P2] E. destruct (add_dlook segs a ns ns' Ok E) as (D1 & D2 & D3).
  destruct (proj1 (add_success segs a ns Ok)) as [S1 S2]; [eauto|].
  assert (NotPP : forall q, ~ (q = segs /\ proper_prefix q segs)).
  { intros q [-> (r & X & Nr)]. apply Nr. apply (f_equal (@List.length string)) in X. rewrite app_length in X. destruct r; [reflexivity|cbn in X; lia]. }
  split.
  - intros q b. rewrite in_app_iff. cbn [In]. destruct (list_string_dec q segs) as [->|Nq].
    + rewrite D1. split.
      * intros X. injection X as <-. auto.
      * intros [X|[X|[]]]; [apply P1 in X; congruence|congruence].
    + destruct (prefix_dec q segs) as [Pq|Pq].
      * rewrite (D2 q Pq). split; [discriminate|]. intros [X|[X|[]]]; [|congruence]. apply P1 in X.
        destruct (S2 q Pq); congruence.
      * rewrite (D3 q Nq Pq), P1. split; [auto|]. intros [X|[X|[]]]; [exact X|congruence].
  - intros q. destruct (list_string_dec q segs) as [->|Nq].
    + rewrite D1. split; [discriminate|]. intros [->|(p & b & X & Pp)]; [destruct Ok; congruence|]. exfalso.
      apply in_app_iff in X. destruct X as [X|[X|[]]].
      * assert (Y : dlook ns segs = Some DO_dir) by (apply P2; right; eauto). congruence.
      * injection X as <- <-. exact (NotPP segs (conj eq_refl Pp)).
    + destruct (prefix_dec q segs) as [Pq|Pq].
      * rewrite (D2 q Pq). split; [|reflexivity]. intros _. right. exists segs, a. split; [apply in_app_iff; right; now left|exact Pq].
      * rewrite (D3 q Nq Pq), P2. split.
        -- intros [X|(p & b & X & Pp)]; [auto|]. right. exists p, b. split; [apply in_app_iff; auto|exact Pp].
        -- intros [X|(p & b & X & Pp)]; [auto|]. right. apply in_app_iff in X. destruct X as [X|[X|[]]]; [eauto|].
           injection X as <- <-. contradiction.
Qed.

Lemma placed_nil : placed [] [].
Proof.
  split.
  - intros [|x q] a; cbn; split; intros X; try discriminate; destruct X.
  - intros [|x q]; cbn; split; intros X; try discriminate; auto. destruct X as [X|(p & a & [] & _)]. discriminate.
Qed.

Definition add_all (l : list (list string * option TreeOps.Model.info)) (ns : list (string * dtree)) : option (list (string * dtree)) :=
  fold_left (fun acc p => match acc with Some ns => add_segments (fst p) (snd p) ns | None => None end) l (Some ns).
Lemma add_all_none l : fold_left (fun acc p => match acc with Some ns => add_segments (fst p) (snd p) ns | None => None end) l None = None.
Proof. induction l; [reflexivity|assumption]. Qed.

Lemma add_all_spec P l : forall l0 ns, Forall (fun p => segs_ok (fst p)) l -> Forall (fun p => Forall P (fst p)) l ->
  placed l0 ns -> dgood P ns -> free_pairs l0 ->
  match add_all l ns with
  | Some ns' => placed (l0 ++ l) ns' /\ dgood P ns' /\ free_pairs (l0 ++ l)
  | None => ~ free_pairs (l0 ++ l)
  end.
Proof.
  induction l as [|[segs a] r IH]; intros l0 ns Ok OP Pl G F.
  - cbn. rewrite app_nil_r. auto.
  - inversion Ok as [|? ? Ok1 Ok2]; subst. inversion OP as [|? ? OP1 OP2]; subst. cbn [fst snd] in Ok1, OP1.
    unfold add_all. cbn [fold_left fst snd].
    assert (Step : (exists ns', add_segments segs a ns = Some ns') <-> free_pairs (l0 ++ [(segs, a)])).
    { rewrite (add_success segs a ns Ok1). destruct Pl as [P1 P2]. split.
      - intros [S1 S2] i j x y Hi Hj Nij Px.
        assert (Cases : forall k z, nth_error (l0 ++ [(segs, a)]) k = Some z -> (k < List.length l0 /\ nth_error l0 k = Some z) \/ (k = List.length l0 /\ z = (segs, a))).
        { intros k z Hk. destruct (Nat.lt_ge_cases k (List.length l0)) as [L|L].
          - left. rewrite nth_error_app1 in Hk by exact L. auto.
          - rewrite nth_error_app2 in Hk by exact L. right. destruct (k - List.length l0) as [|m] eqn:Em; cbn in Hk.
            + injection Hk as <-. split; [lia|reflexivity].
            + destruct m; discriminate. }
        destruct (Cases i x Hi) as [[Li Hi']|[Ei Ex]]; destruct (Cases j y Hj) as [[Lj Hj']|[Ej Ey]].
        + exact (F i j x y Hi' Hj' Nij Px).
        + subst y. cbn [fst] in Px. destruct x as [p b]. cbn [fst] in Px. apply nth_error_In in Hi'. apply P1 in Hi'.
          apply prefix_cases in Px. destruct Px as [->|Px]; [congruence|]. destruct (S2 p Px); congruence.
        + subst x. cbn [fst] in Px. destruct y as [p b]. cbn [fst] in Px. apply nth_error_In in Hj'.
          apply prefix_cases in Px. destruct Px as [<-|Px].
          * apply P1 in Hj'. congruence.
          * assert (X : dlook ns segs = Some DO_dir) by (apply P2; right; eauto). congruence.
        + lia.
      - intros F2. assert (Last : nth_error (l0 ++ [(segs, a)]) (List.length l0) = Some (segs, a)).
        { rewrite nth_error_app2 by lia. rewrite Nat.sub_diag. reflexivity. }
        assert (Other : forall p b, In (p, b) l0 -> ~ prefix p segs /\ ~ prefix segs p).
        { intros p b X. apply In_nth_error in X. destruct X as [k Hk].
          assert (Lk : k < List.length l0) by (apply nth_error_Some; congruence).
          assert (Hk' : nth_error (l0 ++ [(segs, a)]) k = Some (p, b)) by (rewrite nth_error_app1; assumption).
          split; [exact (F2 k (List.length l0) _ _ Hk' Last ltac:(lia))|exact (F2 (List.length l0) k _ _ Last Hk' ltac:(lia))]. }
        split.
        + destruct (dlook ns segs) as [[b|]|] eqn:D; [| |reflexivity]; exfalso.
          * apply P1 in D. destruct (Other _ _ D) as [X _]. apply X. apply prefix_cases. auto.
          * apply P2 in D. destruct D as [D|(p & b & D & Pp)]; [destruct Ok1; congruence|].
            destruct (Other _ _ D) as [_ X]. apply X. apply prefix_cases. auto.
        + intros q Q. destruct (dlook ns q) as [[b|]|] eqn:D; auto. exfalso. apply P1 in D.
          destruct (Other _ _ D) as [X _]. apply X. apply prefix_cases. auto. }
    destruct (add_segments segs a ns) as [ns1|] eqn:A.
    + replace (l0 ++ (segs, a) :: r) with ((l0 ++ [(segs, a)]) ++ r) by (rewrite <- app_assoc; reflexivity).
      apply IH; [exact Ok2|exact OP2|eapply placed_add; eassumption|eapply add_dgood; eassumption|apply Step; eauto].
    + rewrite add_all_none. intros F2. assert (X : free_pairs (l0 ++ [(segs, a)])).
      { intros i j x y Hi Hj. apply (F2 i j x y);
          (replace (l0 ++ (segs, a) :: r) with ((l0 ++ [(segs, a)]) ++ r) by (rewrite <- app_assoc; reflexivity);
           rewrite nth_error_app1; [assumption|apply nth_error_Some; congruence]). }
      apply Step in X. destruct X; discriminate.
Qed.

Lemma free_nil : free_pairs [].
Proof. intros i j a b Hi. destruct i; discriminate. Qed.
Lemma dgood_nil P : dgood P [].
Proof. constructor; [constructor|intros x t []|intros x s []]. Qed.

Lemma from_none l :
  fold_left (fun acc p => match acc with Some ns => AddArtifact (fst p) (snd p) ns | None => None end) l None = None.
Proof. induction l; [reflexivity|assumption]. Qed.
Lemma from_inside l : forall ns, Forall (fun p => tidy (fst p) /\ inside (fst p)) l ->
  fold_left (fun acc p => match acc with Some ns => AddArtifact (fst p) (snd p) ns | None => None end) l (Some ns) =
  add_all (segs_of l) ns.
Proof.
  induction l as [|[p a] r IH]; intros ns F; [reflexivity|]. inversion F as [|? ? [T I] F']; subst. cbn [fst snd] in *.
  cbn [fold_left fst snd]. rewrite (AddArtifact_inside p a ns T I). unfold add_all. cbn [segs_of map fold_left fst snd].
  destruct (add_segments (segments p) a ns) as [ns1|].
  - rewrite (IH ns1 F'). reflexivity.
  - rewrite from_none, add_all_none. reflexivity.
Qed.
Lemma from_outside l : forall ns, Forall (fun p => tidy (fst p)) l -> ~ Forall (fun p => inside (fst p)) l ->
  fold_left (fun acc p => match acc with Some ns => AddArtifact (fst p) (snd p) ns | None => None end) l (Some ns) = None.
Proof.
  induction l as [|[p a] r IH]; intros ns F N; [exfalso; apply N; constructor|]. inversion F as [|? ? T F']; subst.
  cbn [fold_left fst snd] in *. destruct (AddArtifact p a ns) as [ns1|] eqn:A; [|apply from_none].
  apply IH; [exact F'|]. intros X. apply N. constructor; [|exact X]. cbn [fst].
  assert (D : inside p \/ ~ inside p).
  { destruct (is_absolute p) eqn:Ab; [right; intros (Y & _); congruence|].
    destruct (Nat.eq_dec (up (place_of p)) 0) as [U|U]; [|right; intros Y; apply inside_iff in Y; tauto].
    destruct (down (place_of p)) eqn:D; [right; intros Y; apply inside_iff in Y; intuition congruence|].
    left. apply inside_iff. rewrite D. split; [exact Ab|]. split; [exact U|discriminate]. }
  destruct D as [D|D]; [exact D|]. rewrite (AddArtifact_outside p a ns T D) in A. discriminate.
Qed.

Lemma segs_ok_inside p : inside p -> segs_ok (segments p).
Proof. intros (_ & _ & N). split; [exact N|apply segments_ok]. Qed.

Lemma FromNamed_spec (l : list (string * option TreeOps.Model.info)) :
  Forall (fun p => tidy (fst p) /\ nameable (fst p)) l ->
  match FromNamedArtifacts l with
  | Some ns => Forall (fun p => inside (fst p)) l /\ free_pairs (segs_of l) /\ placed (segs_of l) ns /\ dgood valid_name ns
  | None => ~ (Forall (fun p => inside (fst p)) l /\ free_pairs (segs_of l))
  end.
Proof.
  intros F. unfold FromNamedArtifacts.
  assert (D : Forall (fun p : string * option TreeOps.Model.info => inside (fst p)) l \/ ~ Forall (fun p => inside (fst p)) l).
  { clear F. induction l as [|[p a] r IH]; [left; constructor|].
    assert (D : inside p \/ ~ inside p).
    { destruct (is_absolute p) eqn:Ab; [right; intros (Y & _); congruence|].
      destruct (Nat.eq_dec (up (place_of p)) 0) as [U|U]; [|right; intros Y; apply inside_iff in Y; tauto].
      destruct (down (place_of p)) eqn:D; [right; intros Y; apply inside_iff in Y; intuition congruence|].
      left. apply inside_iff. rewrite D. split; [exact Ab|]. split; [exact U|discriminate]. }
    destruct D as [D|D]; [|right; intros X; inversion X; contradiction].
    destruct IH as [IH|IH]; [left; constructor; assumption|right; intros X; inversion X; contradiction]. }
  destruct D as [D|D].
  - rewrite from_inside.
    + assert (Spec := add_all_spec valid_name (segs_of l) [] []).
      assert (O1 : Forall (fun p : list string * option TreeOps.Model.info => segs_ok (fst p)) (segs_of l)).
      { unfold segs_of. apply Forall_map. cbn [fst]. eapply Forall_impl; [|exact D]. intros p X. now apply segs_ok_inside. }
      assert (O2 : Forall (fun p : list string * option TreeOps.Model.info => Forall valid_name (fst p)) (segs_of l)).
      { unfold segs_of. apply Forall_map. cbn [fst]. eapply Forall_impl; [|exact F]. intros p [_ X]. now apply segments_valid. }
      specialize (Spec O1 O2 placed_nil (dgood_nil _) free_nil). cbn [app] in Spec.
      destruct (add_all (segs_of l) []); [tauto|]. intros [_ X]. contradiction.
    + apply Forall_forall. intros p Hp. rewrite Forall_forall in F, D. split; [apply F|apply D]; assumption.
  - rewrite from_outside; [tauto| |exact D]. eapply Forall_impl; [|exact F]. intros p [X _]. exact X.
Qed.
